(** The integral over a simplex is the sum of those over the parts into which it is cut (C91). *)
From Coq Require Import Reals List Arith ZArith Lia Lra Permutation.
From Coquelicot Require Import Coquelicot.
From Verif Require Import Spec Spec1 RsumLemmas IntegralSpec IntegralProofs IntegralProofs2 IntegralPoly PyBase OrbitModel
  GeomModel GeomProofs SimplexVol SimplexInt RoundProofs TnModel2 PolyFun ConvSpec ConvNdSpec Weier WeierNd IterInt ConvNdExt ConvNdProofs ConvNdGeom PropConvNd MeshSpec MeshProofs.
Import ListNotations.
Set Bullet Behavior "Strict Subproofs".
Open Scope R_scope.
Local Notation length := List.length.

(* ------------------------------------------------------------------ from polynomials to continuous functions *)
Lemma mean_combination D n M (cs : list (R * (point -> point))) : mean_on D n M ->
  (forall c T, In (c, T) cs -> 0 <= c /\ (forall x, D x -> D (T x)) /\ map_cont D T /\ forall d p, polyfun n d p -> polyfun n d (fun x => p (T x))) ->
  (forall d p, polyfun n d p -> M p = Rsum (map (fun cT => fst cT * M (fun x => p (snd cT x))) cs)) ->
  forall f, continuous_in D f -> M f = Rsum (map (fun cT => fst cT * M (fun x => f (snd cT x))) cs).
Proof.
  intros [N W] HT HP f C. apply (small_eq _ _ (1 + Rsum (map fst cs))); [|].
  - intros eps He. destruct (W f eps C He) as (d & p & Pp & H). pose proof (N f d p eps C Pp (fun x Hx => Rlt_le _ _ (H x Hx))) as N1.
    match goal with |- Rabs (?a - ?s) <= _ => replace (a - s) with ((a - M p) + (M p - s)) by ring end. eapply Rle_trans; [apply Rabs_triang|]. rewrite (HP d p Pp) at 2.
    rewrite Rmult_plus_distr_r, Rmult_1_l. apply Rplus_le_compat; [exact N1|]. clear HP N1.
    induction cs as [|[c T] cs IH]; cbn [map Rsum fst snd]; [rewrite Rminus_0_r, Rabs_R0; lra|].
    match goal with |- Rabs (?a + ?s - (?b + ?t)) <= _ => replace (a + s - (b + t)) with ((a - b) + (s - t)) by ring end. eapply Rle_trans; [apply Rabs_triang|]. rewrite Rmult_plus_distr_r. apply Rplus_le_compat.
    + destruct (HT c T (or_introl eq_refl)) as (Hc & TD & TC & TP). rewrite <- Rmult_minus_distr_l, Rabs_mult, (Rabs_right c) by lra. apply Rmult_le_compat_l; [exact Hc|]. rewrite Rabs_minus_sym.
      apply (N _ d); [apply (continuous_comp D D T); auto|apply TP; exact Pp|intros x Hx; left; apply H, TD; exact Hx].
    + apply IH. intros c' T' I. apply HT. right. exact I.
  - assert (0 <= Rsum (map fst cs)); [|lra]. clear - HT. induction cs as [|[c T] cs IH]; cbn [map Rsum fst]; [lra|]. destruct (HT c T (or_introl eq_refl)) as [Hc _]. specialize (IH (fun c' T' I => HT c' T' (or_intror I))). lra.
Qed.

(* ------------------------------------------------------------------ the order of the vertices *)
Fixpoint swapi {A} (i : nat) (l : list A) : list A :=
  match i, l with
  | O, x :: y :: l' => y :: x :: l'
  | S i', x :: l' => x :: swapi i' l'
  | _, _ => l
  end.
Lemma swapi_perm {A} i : forall l : list A, Permutation l (swapi i l).
Proof. induction i as [|i IH]; intros [|x l]; cbn; auto. destruct l; [auto|apply perm_swap]. Qed.
Lemma swapi_len {A} i (l : list A) : length (swapi i l) = length l.
Proof. apply Permutation_length, Permutation_sym, swapi_perm. Qed.
Lemma mono_swapi i : forall k x, length k = length x -> mono k (swapi i x) = mono (swapi i k) x.
Proof.
  induction i as [|i IH]; intros [|a k] [|t x] L; try discriminate; try reflexivity.
  - destruct k as [|b k], x as [|s x]; try discriminate; [reflexivity|]. cbn. ring.
  - cbn [swapi mono]. rewrite IH by (cbn in L; lia). reflexivity.
Qed.
Lemma mpeval_swapi i n p x : List.Forall (fun ck => length (snd ck) = n) p -> length x = n -> mpeval p (swapi i x) = mpeval (map (fun ck => (fst ck, swapi i (snd ck))) p) x.
Proof. intros F L. unfold mpeval. rewrite map_map. apply Rsum_map_ext. intros [c k] Hk. rewrite Forall_forall in F. specialize (F _ Hk). cbn [fst snd] in *. rewrite mono_swapi by congruence. reflexivity. Qed.
Lemma tdeg_swapi i k : tdeg (swapi i k) = tdeg k.
Proof. apply tdeg_perm, Permutation_sym, swapi_perm. Qed.
Lemma polyfun_swapi i n d p : polyfun n d p -> polyfun n d (fun x => p (swapi i x)).
Proof.
  intros (q & Hq & E). exists (map (fun ck => (fst ck, swapi i (snd ck))) q). split.
  - unfold mp_ok in *. rewrite Forall_forall in *. intros ck Hc. apply in_map_iff in Hc. destruct Hc as (c & <- & Hc). cbn [snd]. rewrite swapi_len, tdeg_swapi. apply Hq. exact Hc.
  - intros x Hx. rewrite E by (rewrite swapi_len; exact Hx). apply (mpeval_swapi i n); [|exact Hx]. apply mp_ok_len in Hq. exact Hq.
Qed.
Lemma simplex_mean_fext n f g : (forall x, length x = S n -> f x = g x) -> simplex_mean n f = simplex_mean n g.
Proof. intros H. unfold simplex_mean. f_equal. apply simplex_int_ext. intros x Hx. apply H. cbn. congruence. Qed.
Lemma simplex_mean_swapi i n d p : polyfun (S n) d p -> simplex_mean n p = simplex_mean n (fun x => p (swapi i x)).
Proof.
  intros (q & Hq & E). rewrite (simplex_mean_fext n p (mpeval q) E). transitivity (simplex_mean n (mpeval (map (fun ck => (fst ck, swapi i (snd ck))) q))).
  - apply mp_ok_len in Hq. rewrite !simplex_mean_mpeval.
    + rewrite map_map. apply Rsum_map_ext. intros [c k] Hk. unfold SilProofs.mp_len in Hq. rewrite Forall_forall in Hq. specialize (Hq _ Hk). cbn [fst snd] in *. rewrite !simplex_mean_mono by (rewrite ?swapi_len; exact Hq). rewrite (simplex_moment_perm n k (swapi i k)) by apply swapi_perm. reflexivity.
    + rewrite Forall_forall. intros ck Hc. apply in_map_iff in Hc. destruct Hc as (c & <- & Hc). cbn [snd]. rewrite swapi_len. unfold SilProofs.mp_len in Hq. rewrite Forall_forall in Hq. apply Hq. exact Hc.
    + exact Hq.
  - symmetry. apply simplex_mean_fext. intros x Hx. rewrite E by (rewrite swapi_len; exact Hx). apply (mpeval_swapi i (S n)); [|exact Hx]. apply mp_ok_len in Hq. exact Hq.
Qed.
Lemma in_bary_perm n l l' : Permutation l l' -> in_bary n l -> in_bary n l'.
Proof. intros P (L & F & S). split; [rewrite <- (Permutation_length P); exact L|]. split; [eapply Permutation_Forall; eauto|]. rewrite <- S. symmetry. apply Rsum_perm. exact P. Qed.
Lemma map_cont_swapi i n : map_cont (in_bary n) (swapi i).
Proof.
  intros x Hx eps He. exists eps. split; [exact He|]. intros y _ Hc. clear Hx. unfold close in *. revert i. induction Hc as [|s t y x H Hc IH]; intros [|i]; cbn [swapi]; try (constructor; auto; fail). destruct Hc; repeat constructor; auto.
Qed.
Lemma simplex_mean_swap i n f : continuous_in (in_bary n) f -> simplex_mean n f = simplex_mean n (fun x => f (swapi i x)).
Proof.
  intros C. pose proof (mean_combination (in_bary n) (S n) (simplex_mean n) [(1, swapi i)] (simplex_mean_on n)) as K. cbn [map Rsum fst snd] in K.
  rewrite (K ltac:(intros c T [E|[]]; injection E as <- <-; split; [lra|split; [intros x; apply in_bary_perm, swapi_perm|split; [apply map_cont_swapi|intros d p; apply polyfun_swapi]]]) ltac:(intros d p Pp; rewrite (simplex_mean_swapi i n d p Pp) at 1; ring) f C). ring.
Qed.
Lemma combine_swapi (l1 l2 : list point) x y : forall lam : list R, length lam = length (l1 ++ x :: y :: l2) ->
  Permutation (List.combine lam (l1 ++ x :: y :: l2)) (List.combine (swapi (length l1) lam) (l1 ++ y :: x :: l2)).
Proof.
  induction l1 as [|v l1 IH]; intros [|a lam] L; try discriminate; cbn [app length swapi List.combine].
  - destruct lam as [|b lam]; [discriminate|]. cbn. apply perm_swap.
  - apply perm_skip, IH. cbn in L. lia.
Qed.
Definition simplex_ok (n : nat) (V : list point) : Prop := length V = (n + 1)%nat /\ List.Forall (fun v : point => length v = n) V.
Lemma simplex_ok_perm n V V' : Permutation V V' -> simplex_ok n V -> simplex_ok n V'.
Proof. intros P [L F]. split; [rewrite <- (Permutation_length P); exact L|eapply Permutation_Forall; eauto]. Qed.
Lemma hd_len n V : simplex_ok n V -> length (hd [] V) = n.
Proof. intros [L F]. destruct V; [cbn in L; lia|]. inversion F; subst. reflexivity. Qed.
Lemma bary_map_swap n l1 l2 x y lam : simplex_ok n (l1 ++ x :: y :: l2) -> length lam = (n + 1)%nat ->
  bary_map (l1 ++ x :: y :: l2) lam = bary_map (l1 ++ y :: x :: l2) (swapi (length l1) lam).
Proof.
  intros O L. unfold bary_map. rewrite (hd_len n _ O), (hd_len n (l1 ++ y :: x :: l2)) by (apply (simplex_ok_perm n (l1 ++ x :: y :: l2)); [apply Permutation_app_head, perm_swap|exact O]).
  apply map_ext. intros k. apply Rsum_map_perm. apply combine_swapi. destruct O as [O _]. congruence.
Qed.
Lemma in_simplex_swap n l1 l2 x y p : simplex_ok n (l1 ++ x :: y :: l2) -> in_simplex n (l1 ++ x :: y :: l2) p -> in_simplex n (l1 ++ y :: x :: l2) p.
Proof.
  intros O (l & B & ->). exists (swapi (length l1) l). split; [apply (in_bary_perm n l); [apply swapi_perm|exact B]|]. apply map_ext. intros k. apply Rsum_map_perm, combine_swapi. destruct O as [O _]. destruct B as [B _]. rewrite O, B. lia.
Qed.
Lemma in_simplex_perm n V V' p : Permutation V V' -> simplex_ok n V -> in_simplex n V p -> in_simplex n V' p.
Proof.
  intros P. apply Permutation_Permutation_transp in P. induction P as [l|y x l1 l2|l l' l'' P1 IH1 P2 IH2]; intros O H; auto.
  - apply in_simplex_swap; auto.
  - apply IH2; [|auto]. apply (simplex_ok_perm n l); [apply Permutation_Permutation_transp; exact P1|exact O].
Qed.
Lemma simplex_vol_perm n V V' : Permutation V V' -> simplex_ok n V -> simplex_vol n V = simplex_vol n V'.
Proof.
  intros P O. pose proof (simplex_ok_perm n V V' P O) as [L' F']. destruct O as [L F]. pose proof (get_vol_perm V V' P) as E. rewrite !(get_vol_det n) in E by auto. injection E as E. exact E.
Qed.
Lemma simplex_integral_perm n V V' f : Permutation V V' -> simplex_ok n V -> continuous_in (in_simplex n V) f -> simplex_integral n V f = simplex_integral n V' f.
Proof.
  intros P. apply Permutation_Permutation_transp in P. induction P as [l|y x l1 l2|l l' l'' P1 IH1 P2 IH2]; intros O C; auto.
  - assert (Pm : Permutation (l1 ++ x :: y :: l2) (l1 ++ y :: x :: l2)) by apply Permutation_app_head, perm_swap. pose proof (simplex_ok_perm n _ _ Pm O) as O'.
    rewrite !simplex_change by (apply O || apply O'). change (Rabs (det n (edges (l1 ++ x :: y :: l2))) / INR (fact n)) with (simplex_vol n (l1 ++ x :: y :: l2)). change (Rabs (det n (edges (l1 ++ y :: x :: l2))) / INR (fact n)) with (simplex_vol n (l1 ++ y :: x :: l2)).
    rewrite (simplex_vol_perm n _ _ Pm O). f_equal. rewrite (simplex_mean_swap (length l1) n (fun l => f (bary_map (l1 ++ y :: x :: l2) l))).
    + apply simplex_mean_fext. intros l Hl. rewrite <- (bary_map_swap n) by (auto; lia). reflexivity.
    + apply simplex_cont; [apply O'|apply O'|]. apply (continuous_sub _ (in_simplex n (l1 ++ x :: y :: l2))); [|exact C]. intros p. apply in_simplex_swap. exact O'.
  - apply Permutation_Permutation_transp in P1. rewrite IH1 by auto. pose proof (simplex_ok_perm n _ _ P1 O) as O'. apply IH2; [exact O'|]. apply (continuous_sub _ (in_simplex n l)); [|exact C]. intros p. apply in_simplex_perm; [apply Permutation_sym; exact P1|exact O'].
Qed.

(* ------------------------------------------------------------------ one cut *)
(** the last entry y becomes s y + c *)
Fixpoint addlast (c s : R) (x : list R) : list R :=
  match x with
  | [] => []
  | [y] => [s * y + c]
  | y :: x' => y :: addlast c s x'
  end.
Lemma addlast_cons c s y x : x <> [] -> addlast c s (y :: x) = y :: addlast c s x.
Proof. destruct x; [congruence|reflexivity]. Qed.
Lemma addlast_len c s x : length (addlast c s x) = length x.
Proof. induction x as [|y [|z x] IH]; cbn in *; auto. Qed.
Lemma polyfun_addlast n d p (c : point -> R) s : polyfun n 1 c -> polyfun n d p -> polyfun n d (fun x => p (addlast (c x) s x)).
Proof.
  intros Hc Hp. apply (polyfun_ext _ _ (fun x => p (map (fun l => l x) (map (fun i x => if (S i =? n)%nat then s * nth i x 0 + c x else nth i x 0) (seq 0 n))))).
  - intros x Hx. f_equal. rewrite map_map. generalize (c x). intros r. clear - Hx. subst n. induction x as [|y x IH]; [reflexivity|]. cbn [length seq map].
    rewrite <- seq_shift, map_map. destruct x as [|z x]; [reflexivity|]. rewrite addlast_cons by discriminate. rewrite <- IH. reflexivity.
  - apply (polyfun_comp _ n); [rewrite map_length, seq_length; reflexivity| |exact Hp]. apply List.Forall_forall. intros g Hg. apply in_map_iff in Hg. destruct Hg as (i & <- & Hi). apply in_seq in Hi.
    destruct (S i =? n)%nat; [apply polyfun_add; [apply polyfun_scal|exact Hc]|]; apply polyfun_coord; lia.
Qed.
Lemma polyfun_rsum n : polyfun n 1 Rsum.
Proof.
  apply (polyfun_ext _ _ (fun x => Rsum (map (fun i => nth i x 0) (seq 0 n)))); [intros x Hx; subst n; rewrite <- (as_map_nth x 0); reflexivity|].
  apply (polyfun_sum n 1 (seq 0 n) (fun i x => nth i x 0)). intros i Hi. apply in_seq in Hi. apply polyfun_coord. lia.
Qed.
Lemma polyfun_gap n t h : polyfun n 1 (fun x => t * (h - Rsum x)).
Proof. apply polyfun_scal. apply (polyfun_ext _ _ (fun x => h + -1 * Rsum x)); [intros; ring|]. apply polyfun_add; [apply polyfun_const|apply polyfun_scal, polyfun_rsum]. Qed.
Lemma RInt_cut g h t : 0 <= h -> 0 <= t <= 1 -> continuous_on 0 h g ->
  RInt g 0 h = t * RInt (fun x => g (t * x + 0)) 0 h + (1 - t) * RInt (fun x => g (1 * x + t * (h - x))) 0 h.
Proof.
  intros Hh Ht C. destruct (Req_dec t 0) as [->|T0]; [|destruct (Req_dec t 1) as [->|T1]].
  - rewrite Rmult_0_l, Rplus_0_l, Rminus_0_r, Rmult_1_l. apply RInt_ext. intros x _. f_equal. ring.
  - rewrite Rminus_eq_0, Rmult_0_l, Rplus_0_r, Rmult_1_l. apply RInt_ext. intros x _. f_equal. ring.
  - assert (H1 : 0 <= t * h) by (apply Rmult_le_pos; lra). assert (H2 : t * h <= h) by nra.
    assert (CC : continuous_on 0 (t * h) g /\ continuous_on (t * h) h g).
    { split; intros x Hx eps He; (destruct (C x ltac:(lra) eps He) as (d & Hd & K)); exists d; (split; [exact Hd|]); intros y Hy; apply K; lra. }
    rewrite <- (RInt_Chasles g 0 (t * h) h) by (apply continuous_on_ex_RInt; tauto). unfold plus. cbn [AbelianGroup.plus].
    assert (E1 : RInt g 0 (t * h) = t * RInt (fun x => g (t * x + 0)) 0 h).
    { replace 0 with (t * 0 + 0) at 1 by ring. replace (t * h) with (t * h + 0) by ring. rewrite RInt_lin by exact T0. rewrite <- (RInt_scal (V := R_CompleteNormedModule) _ _ _ t); [reflexivity|].
      apply continuous_on_ex_RInt; [exact Hh|]. intros x Hx eps He. destruct (C (t * x + 0) ltac:(nra) eps He) as (d & Hd & K). exists d. split; [exact Hd|]. intros y Hy Hxy. apply K; [nra|].
      replace (t * y + 0 - (t * x + 0)) with (t * (y - x)) by ring. rewrite Rabs_mult, (Rabs_right t) by lra. pose proof (Rabs_pos (y - x)). nra. }
    assert (E2 : RInt g (t * h) h = (1 - t) * RInt (fun x => g (1 * x + t * (h - x))) 0 h).
    { replace (t * h) with ((1 - t) * 0 + t * h) by ring. replace h with ((1 - t) * h + t * h) at 2 by ring. rewrite RInt_lin by lra.
      rewrite (RInt_ext _ (fun x => scal (1 - t) (g (1 * x + t * (h - x))))) by (intros x _; unfold scal; cbn; unfold mult; cbn; do 2 f_equal; ring). rewrite (RInt_scal (V := R_CompleteNormedModule)); [reflexivity|].
      apply continuous_on_ex_RInt; [exact Hh|]. intros x Hx eps He. destruct (C (1 * x + t * (h - x)) ltac:(nra) eps He) as (d & Hd & K). exists d. split; [exact Hd|]. intros y Hy Hxy. apply K; [nra|].
      replace (1 * y + t * (h - y) - (1 * x + t * (h - x))) with ((1 - t) * (y - x)) by ring. rewrite Rabs_mult, (Rabs_right (1 - t)) by lra. pose proof (Rabs_pos (y - x)). nra. }
    rewrite E1, E2. reflexivity.
Qed.
Lemma simplex_int_cut t n : 0 <= t <= 1 -> forall h d p, 0 <= h <= 1 -> polyfun (S n) d p ->
  simplex_int (S n) h p = t * simplex_int (S n) h (fun x => p (addlast 0 t x)) + (1 - t) * simplex_int (S n) h (fun x => p (addlast (t * (h - Rsum x)) 1 x)).
Proof.
  intros Ht. assert (IC : forall n d h p, 0 <= h <= 1 -> polyfun (S n) d p -> continuous_on 0 h (fun x => simplex_int n (h - x) (fun xs => p (x :: xs)))).
  { clear. intros n d h p Hh Pp. eapply continuous_on_ext; [|apply (simplex_polys n d h p Hh Pp)]. intros x _. cbv beta. symmetry. apply simplex_iter. }
  induction n as [|n IH]; intros h d p Hh Pp.
  - change (simplex_int 1 h p) with (RInt (fun x => p [x]) 0 h). cbn [simplex_int addlast Rsum]. rewrite (RInt_cut (fun x => p [x]) h t) by (auto; try lra; apply (IC 0%nat d h p Hh Pp)).
    f_equal. f_equal. apply RInt_ext. intros x _. do 3 f_equal. ring.
  - cbn [simplex_int].
    assert (P1 : polyfun (S (S n)) d (fun x => p (addlast 0 t x))) by (apply (polyfun_addlast _ d p (fun _ => 0)); [apply polyfun_const|exact Pp]).
    assert (P2 : polyfun (S (S n)) d (fun x => p (addlast (t * (h - Rsum x)) 1 x))) by (apply (polyfun_addlast _ d p (fun x => t * (h - Rsum x))); [apply polyfun_gap|exact Pp]).
    rewrite <- (RInt_scal (V := R_CompleteNormedModule) _ _ _ t) by (apply continuous_on_ex_RInt; [lra|]; apply (IC (S n) d h (fun x => p (addlast 0 t x))); auto).
    rewrite <- (RInt_scal (V := R_CompleteNormedModule) _ _ _ (1 - t)) by (apply continuous_on_ex_RInt; [lra|]; apply (IC (S n) d h (fun x => p (addlast (t * (h - Rsum x)) 1 x))); auto).
    rewrite <- (RInt_plus (V := R_CompleteNormedModule)) by (apply (ex_RInt_scal (V := R_NormedModule)); apply continuous_on_ex_RInt; [lra|]; first [apply (IC (S n) d h (fun x => p (addlast 0 t x))); assumption|apply (IC (S n) d h (fun x => p (addlast (t * (h - Rsum x)) 1 x))); assumption]).
    apply RInt_ext. intros x Hx. rewrite Rmin_left, Rmax_right in Hx by lra. pose proof (IH (h - x) d (fun xs => p (x :: xs)) ltac:(lra) (polyfun_slice (S n) d p x Pp)) as E. cbn [simplex_int] in E. etransitivity; [exact E|].
    match goal with |- t * ?a + (1 - t) * ?b = plus (scal t ?a') (scal (1 - t) ?b') => replace a' with a; [replace b' with b; [reflexivity|]|] end.
    + apply RInt_ext. intros y _. apply simplex_int_ext. intros xs _. f_equal. rewrite (addlast_cons _ _ x (y :: xs)) by discriminate. f_equal. f_equal. cbn [Rsum]. ring.
    + reflexivity.
Qed.
