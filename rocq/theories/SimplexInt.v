(** TnScheme.integrate: volumes, exactness on every simplex, independence of the vertex order. *)
From Coq Require Import Reals List Arith Bool Lia Lra Permutation.
From mathcomp Require ssrnat.
From Verif Require Import Spec RsumLemmas IntegralSpec IntegralProofs IntegralPoly CombModel PyBase GeomModel PolyFun SimplexVol GeomProofs.
Import ListNotations.
Open Scope R_scope.

(* ------------------------------------------------------------------ volume *)
Lemma m1_2 n : (-2) ^ n = (-1) ^ n * 2 ^ n.
Proof. rewrite <- Rpow_mult_distr. f_equal. lra. Qed.
Theorem get_vol_det n (S : list point) : length S = (n + 1)%nat -> Forall (fun p : point => length p = n) S ->
  get_vol S = Some (Rabs (det n (edges S)) / INR (fact n)).
Proof.
  intros HS Hp. unfold get_vol. rewrite HS. replace (n + 1 - 1)%nat with n by lia. replace (n + 2)%nat with (Datatypes.S (Datatypes.S n)) by lia.
  rewrite cm_det by (auto; lia). set (D := det n (edges S)).
  assert (H2 : 2 ^ n <> 0) by (apply pow_nonzero; lra). assert (Hf := INR_fact_neq_0 n).
  assert (E : (-1) ^ (n + 1) / 2 ^ n / INR (fact n) ^ 2 * - ((-2) ^ n * (D * D)) = Rsqr (D / INR (fact n))).
  { rewrite m1_2, pow_add, pow_1. unfold Rsqr.
    assert (H1 : (-1) ^ n * (-1) ^ n = 1) by (rewrite <- Rpow_mult_distr; replace (-1 * -1) with 1 by lra; apply pow1).
    transitivity ((-1) ^ n * (-1) ^ n * (D / INR (fact n) * (D / INR (fact n)))); [field; auto|rewrite H1; ring]. }
  rewrite E. unfold rsqrt. destruct (Rle_dec 0 (Rsqr (D / INR (fact n)))) as [_|N]; [|exfalso; apply N, Rle_0_sqr].
  rewrite sqrt_Rsqr_abs. unfold Rdiv. rewrite Rabs_mult, (Rabs_right (/ _)); auto.
  apply Rle_ge. left. apply Rinv_0_lt_compat, INR_fact_lt_0.
Qed.

(* ------------------------------------------------------------------ exactness *)
(** p0 + x_1 e_1 + ... + x_n e_n *)
Fixpoint lincomb (p0 : point) (es : list point) (x : point) : point :=
  match es, x with
  | e :: es', t :: x' => vadd (vscale t e) (lincomb p0 es' x')
  | _, _ => p0
  end.
(** The integral of f over the simplex with vertices S, parametrised over the unit simplex by its edges;
    the Jacobian of the parametrisation is the constant |det(edges)|. *)
Definition simplex_integral (n : nat) (S : list point) (f : point -> R) : R :=
  Rabs (det n (edges S)) * simplex_int n 1 (fun x => f (lincomb (hd [] S) (edges S) x)).

Lemma nth_vadd p : forall q k, length p = length q -> nth k (vadd p q) 0 = nth k p 0 + nth k q 0.
Proof.
  induction p as [|a p IH]; intros [|b q] [|k] H; try discriminate; cbn; try lra. apply IH. cbn in H. lia.
Qed.
Lemma nth_vscale c p : forall k, nth k (vscale c p) 0 = c * nth k p 0.
Proof. induction p as [|a p IH]; intros [|k]; cbn; try lra. apply IH. Qed.
Lemma lincomb_length d p0 es : length p0 = d -> Forall (fun p : point => length p = d) es -> forall x, length (lincomb p0 es x) = d.
Proof.
  intros H0 He. induction He as [|e es He Hes IH]; intros [|t x]; cbn; auto.
  rewrite vadd_length; rewrite vscale_length; auto. rewrite IH. auto.
Qed.
Lemma nth_lincomb d p0 es k : length p0 = d -> Forall (fun p : point => length p = d) es -> forall x, length x = length es ->
  nth k (lincomb p0 es x) 0 = nth k p0 0 + Rsum (map (fun e => fst e * nth k (snd e) 0) (List.combine x es)).
Proof.
  intros H0 He. induction He as [|e es He Hes IH]; intros [|t x] Hx; try discriminate; cbn [lincomb List.combine map Rsum fst snd]; [ring|].
  rewrite nth_vadd by (rewrite vscale_length, (lincomb_length d); auto). rewrite nth_vscale, IH by (cbn in Hx; lia). ring.
Qed.
Lemma vsub_length p q : length p = length q -> length (vsub p q) = length p.
Proof. apply vsub_len. Qed.
Lemma edges_length d (S : list point) : Forall (fun p : point => length p = d) S -> Forall (fun p : point => length p = d) (edges S).
Proof.
  intros H. unfold edges. destruct H as [|p0 S H0 HS]; cbn; [constructor|].
  apply Forall_map. eapply Forall_impl; [|exact HS]. cbn. intros p Hp. rewrite vsub_length; congruence.
Qed.
Lemma bary_lincomb d (p0 : point) (S : list point) x : Forall (fun p : point => length p = d) (p0 :: S) -> length x = length S ->
  bary_map (p0 :: S) ((1 - Rsum x) :: x) = lincomb p0 (edges (p0 :: S)) x.
Proof.
  intros H Hx. inversion H as [|? ? H0 HS]; subst. set (d := length p0).
  assert (He := edges_length d _ H).
  apply (nth_ext _ _ 0 0).
  - unfold bary_map. rewrite map_length, seq_length, (lincomb_length d); auto.
  - intros k Hk. unfold bary_map in *. rewrite map_length, seq_length in Hk. cbn [hd] in *.
    rewrite (nth_indep _ 0 (Rsum (map (fun e : R * list R => fst e * nth 0%nat (snd e) 0) (List.combine (1 - Rsum x :: x) (p0 :: S)))))
      by (rewrite map_length, seq_length; auto).
    rewrite (map_nth (fun k => Rsum (map (fun e : R * list R => fst e * nth k (snd e) 0) (List.combine (1 - Rsum x :: x) (p0 :: S)))) (seq 0 (length p0)) 0%nat k).
    rewrite seq_nth by auto. cbn [Nat.add].
    rewrite (nth_lincomb d) by (auto; unfold edges; cbn; rewrite map_length; auto).
    cbn [List.combine map Rsum fst snd edges hd tl]. unfold edges. cbn [hd tl].
    clear He H Hk. revert x Hx. induction HS as [|p S Hp HS IH]; intros [|t x] Hx; try discriminate; cbn [List.combine map Rsum fst snd]; [ring|].
    specialize (IH x ltac:(cbn in Hx; lia)). rewrite nth_vsub by congruence. cbn [Rsum]. change R0 with 0. lra.
Qed.
(** The barycentric map is affine in each coordinate. *)
Lemma bary_polyfun n d (S : list point) f : length S = (n + 1)%nat -> polyfun (length (hd [] S)) d f ->
  polyfun (n + 1) d (fun lam => f (bary_map S lam)).
Proof.
  intros HS Hf. unfold bary_map.
  set (m := length (hd [] S)) in *.
  set (L := map (fun k (lam : point) => Rsum (map (fun e => fst e * nth k (snd e) 0) (List.combine lam S))) (seq 0 m)).
  apply (polyfun_ext (n + 1) d (fun lam => f (map (fun l => l lam) L))).
  - intros lam _. unfold L. rewrite map_map. auto.
  - apply (polyfun_comp (n + 1) m); auto; [unfold L; rewrite map_length, seq_length; auto|].
    unfold L. apply Forall_map, Forall_forall. intros k _.
    apply (polyfun_ext (n + 1) 1 (fun lam => Rsum (map (fun i => nth k (nth i S []) 0 * nth i lam 0) (seq 0 (n + 1))))).
    + intros lam Hl. rewrite <- HS. rewrite <- HS in Hl. clear -Hl. revert lam Hl. induction S as [|p S IH]; intros [|t lam] H; try discriminate; auto.
      cbn [length seq map Rsum List.combine fst snd nth]. rewrite <- seq_shift, map_map, (IH lam) by (cbn in H; lia).
      apply f_equal2; [ring|reflexivity].
    + apply polyfun_sum. intros i Hi. apply in_seq in Hi. apply polyfun_scal, polyfun_coord. lia.
Qed.
Theorem tn_integrate_exact n d q (S : list point) p :
  exact (n + 1) d (fun k => simplex_mean n (mono k)) q ->
  length S = (n + 1)%nat -> Forall (fun v : point => length v = n) S -> mp_ok n d p ->
  tn_integrate n q (mpeval p) S = Some (simplex_integral n S (mpeval p)).
Proof.
  intros Hq HS Hv Hp. unfold tn_integrate. rewrite HS, Nat.eqb_refl. unfold guard.
  rewrite (get_vol_det n S) by auto. unfold bind. f_equal. unfold simplex_integral.
  assert (Hh : length (hd [] S) = n).
  { destruct S as [|p0 S]; [cbn in HS; lia|]. inversion Hv; auto. }
  destruct (bary_polyfun n d S (mpeval p) HS) as [r [Hr Er]]; [rewrite Hh; apply polyfun_mpeval; auto|].
  transitivity (Rabs (det n (edges S)) / INR (fact n) * apply q (mpeval r)).
  { f_equal. unfold apply. apply Rsum_map_ext. intros wp Hin. destruct Hq as [Hd _]. unfold points_in_dim in Hd.
    rewrite Forall_forall in Hd. rewrite Er by auto. ring. }
  rewrite (simplex_exact_poly n d) by auto.
  unfold simplex_mean. unfold Rdiv. rewrite <- Rmult_assoc. rewrite (Rmult_assoc _ (/ _) (INR _)), Rinv_l, Rmult_1_r by apply INR_fact_neq_0.
  f_equal. apply simplex_int_ext. intros x Hx. rewrite <- Er by (cbn; lia).
  destruct S as [|p0 S]; [cbn in HS; lia|]. cbn [hd]. rewrite (bary_lincomb n) by (auto; cbn in HS; lia). auto.
Qed.

(* ------------------------------------------------------------------ vertex order *)
Theorem get_vol_perm S S' : Permutation S S' -> get_vol S = get_vol S'.
Proof.
  intros H. apply Permutation_Permutation_transp in H. induction H as [l|x y l1 l2|l l' l'' _ IH1 _ IH2]; auto; [|congruence].
  unfold get_vol. rewrite !app_length. cbn [length]. f_equal. f_equal.
  apply cm_det_swap. change (ssrnat.addn (ssrnat.addn (length l1) (length l2)) 3) with (length l1 + length l2 + 3)%nat. lia.
Qed.
Definition permute {A} (d : A) (s : list nat) (l : list A) : list A := map (fun i => nth i l d) s.
(** The rule is invariant under every permutation of the N barycentric coordinates. *)
Definition symmetric_rule (N : nat) (q : rule) : Prop :=
  forall s, Permutation s (seq 0 N) -> Permutation (map (fun wp => (fst wp, permute 0 s (snd wp))) q) q.
Lemma nth_all {A} (d : A) l : map (fun i => nth i l d) (seq 0 (length l)) = l.
Proof.
  induction l as [|x l IH]; auto. cbn [length seq]. rewrite map_cons, <- seq_shift, map_map.
  f_equal. transitivity (map (fun i => nth i l d) (seq 0 (length l))); auto.
Qed.
Lemma permute_perm {A} (d : A) s l : Permutation s (seq 0 (length l)) -> Permutation (permute d s l) l.
Proof.
  intros H. unfold permute. transitivity (map (fun i => nth i l d) (seq 0 (length l))); [apply Permutation_map; auto|].
  rewrite nth_all. auto.
Qed.
Lemma combine_permute (lam : point) (S : list point) s : 
  List.combine (permute 0 s lam) (@permute point [] s S) = map (fun i => (nth i lam 0, nth i S [])) s.
Proof. unfold permute. induction s as [|i s IH]; auto. cbn. rewrite IH. auto. Qed.
Lemma combine_seq (lam : point) : forall S : list point, length lam = length S ->
  List.combine lam S = map (fun i => (nth i lam 0, nth i S [])) (seq 0 (length S)).
Proof.
  induction lam as [|t lam IH]; intros [|p S] H; try discriminate; auto. cbn [List.combine length seq map nth].
  rewrite <- seq_shift, map_map, IH by (cbn in H; lia). auto.
Qed.
Lemma bary_permute d s S lam : Permutation s (seq 0 (length S)) -> Forall (fun p : point => length p = d) S -> length lam = length S ->
  bary_map (@permute point [] s S) (permute 0 s lam) = bary_map S lam.
Proof.
  intros Hs HS Hl. unfold bary_map.
  assert (Hh : length (hd [] (@permute point [] s S)) = length (hd [] S)).
  { destruct S as [|p S].
    - apply Permutation_sym, Permutation_nil in Hs. subst. auto.
    - assert (P := @permute_perm point [] s (p :: S) Hs). destruct (@permute point [] s (p :: S)) as [|p' S'].
      + apply Permutation_nil in P. discriminate.
      + rewrite Forall_forall in HS. cbn [hd]. rewrite (HS p') by (apply (Permutation_in _ P); left; auto). rewrite (HS p) by (left; auto). auto. }
  rewrite Hh. apply map_ext. intros k. rewrite combine_permute, combine_seq by auto.
  rewrite !map_map. cbn [fst snd]. apply Rsum_map_perm. auto.
Qed.
Theorem tn_integrate_order n q f (S : list point) s d : symmetric_rule (n + 1) q -> points_in_dim (n + 1) q ->
  Permutation s (seq 0 (n + 1)) -> Forall (fun p : point => length p = d) S -> length S = (n + 1)%nat ->
  tn_integrate n q f (@permute point [] s S) = tn_integrate n q f S.
Proof.
  intros Hq Hd Hs HS HL. assert (P : Permutation (@permute point [] s S) S) by (apply permute_perm; rewrite HL; auto).
  unfold tn_integrate. rewrite (Permutation_length P), HL, Nat.eqb_refl. unfold guard.
  rewrite (get_vol_perm _ _ P). destruct (get_vol S) as [v|]; auto. cbn [bind]. f_equal. f_equal.
  rewrite <- (Rsum_map_perm (fun wp => f (bary_map (@permute point [] s S) (snd wp)) * fst wp) _ _ (Hq s Hs)).
  rewrite map_map. apply Rsum_map_ext. intros wp Hin. cbn [fst snd]. unfold points_in_dim in Hd. rewrite Forall_forall in Hd.
  rewrite (bary_permute d) by (auto; try (rewrite HL; auto); rewrite Hd; auto). auto.
Qed.
(** Scaling and translating the simplex. *)
Theorem tn_integrate_const n q c (S : list point) v : get_vol S = Some v -> length S = (n + 1)%nat ->
  tn_integrate n q (fun _ => c) S = Some (v * (c * Rsum (map fst q))).
Proof.
  intros Hv HS. unfold tn_integrate. rewrite HS, Nat.eqb_refl. unfold guard. rewrite Hv. cbn [bind]. do 2 f_equal. rewrite <- Rsum_map_scal. apply Rsum_map_ext. intros; ring.
Qed.
