(** Proofs about the Genz-Keister rules: interval arithmetic with 200 fractional bits on the ratios of the moments. *)
From Coq Require Import Reals List Arith Lia Lra ZArith QArith Qreals Sorted Permutation Bool.
From Coquelicot Require Import Coquelicot.
From Verif Require Import Spec Spec1 RsumLemmas CombModel PyBase C1Model C1Tools C1Proofs PattersonModel PattersonRun NearTools GwSpec WeightSpec GwModel GwInt GwInt2 GkModel.
Import ListNotations.
Local Notation length := List.length.
Set Bullet Behavior "Strict Subproofs".
Open Scope R_scope.

(* ------------------------------------------------------- the points *)
(** None stands for sqrt(3/2). *)
Definition gval (p : option Q) : R := match p with Some q => Q2R q | None => sqrt (3 / 2) end.
Definition gsq (p : option Q) : Q := match p with Some q => q * q | None => 3 # 2 end%Q.
Lemma gsq_ok p : Q2R (gsq p) = gval p ^ 2.
Proof.
  destruct p as [q|]; cbn [gsq gval]; [rewrite Q2R_mult; ring|]. replace (sqrt (3 / 2) ^ 2) with (sqrt (3 / 2) * sqrt (3 / 2)) by ring. rewrite sqrt_sqrt by lra. unfold Q2R. cbn. lra.
Qed.
Definition glt (a b : option Q) : bool :=
  match a, b with
  | Some p, Some q => negb (Qle_bool q p)
  | Some p, None => Qle_bool 0 p && negb (Qle_bool (3 # 2) (p * p))
  | None, Some q => Qle_bool 0 q && negb (Qle_bool (q * q) (3 # 2))
  | None, None => false
  end.
Lemma Qlt_bool_R p q : negb (Qle_bool q p) = true -> Q2R p < Q2R q.
Proof. intros H. apply Qlt_Rlt. apply Qnot_le_lt. intros L. apply Qle_bool_iff in L. rewrite L in H. discriminate. Qed.
Lemma sq_lt a b : 0 <= a -> 0 <= b -> a * a < b * b -> a < b.
Proof. intros. destruct (Rlt_le_dec a b); auto. exfalso. nra. Qed.
Lemma glt_ok a b : glt a b = true -> gval a < gval b.
Proof.
  assert (S := sqrt_sqrt (3 / 2) ltac:(lra)). assert (P := sqrt_pos (3 / 2)). assert (V : Q2R (3 # 2) = 3 / 2) by (unfold Q2R; cbn; lra).
  destruct a as [p|], b as [q|]; cbn [glt gval]; try discriminate.
  - apply Qlt_bool_R.
  - intros H. apply andb_prop in H. destruct H as [H0 H]. apply Qle_bool_imp_le, Qle_Rle in H0. rewrite RMicromega.Q2R_0 in H0. apply Qlt_bool_R in H. rewrite Q2R_mult, V in H.
    apply sq_lt; auto. lra.
  - intros H. apply andb_prop in H. destruct H as [H0 H]. apply Qle_bool_imp_le, Qle_Rle in H0. rewrite RMicromega.Q2R_0 in H0. apply Qlt_bool_R in H. rewrite Q2R_mult, V in H.
    apply sq_lt; auto. lra.
Qed.
Fixpoint ginsert (x : option Q) (l : list (option Q)) : list (option Q) := match l with [] => [x] | y :: l' => if glt x y then x :: l else y :: ginsert x l' end.
Definition gsort (l : list (option Q)) : list (option Q) := fold_right ginsert [] l.
Lemma ginsert_perm x l : Permutation (x :: l) (ginsert x l).
Proof. induction l as [|y l IH]; cbn; auto. destruct (glt x y); auto. etransitivity; [apply perm_swap|]. constructor. auto. Qed.
Lemma gsort_perm l : Permutation l (gsort l).
Proof. induction l as [|x l IH]; cbn; auto. etransitivity; [apply perm_skip, IH|apply ginsert_perm]. Qed.
Fixpoint gincr (l : list (option Q)) : bool := match l with a :: (b :: _) as l' => glt a b && gincr l' | _ => true end.
Lemma gincr_ok l : gincr l = true -> StronglySorted Rlt (map gval l).
Proof.
  intros H. apply Sorted_StronglySorted; [intros x y z; apply Rlt_trans|]. induction l as [|a l IH]; [constructor|]. destruct l as [|b l]; [repeat constructor|].
  cbn [gincr] in H. apply andb_prop in H. destruct H as [H1 H2]. constructor; [apply IH; auto|]. constructor. apply glt_ok. auto.
Qed.
Definition gk_new (k : nat) : list (option Q) := map Some (gk_new_points k).
Definition gk_sym (k : nat) : list (option Q) :=
  match k with
  | 0%nat => [Some 0%Q]
  | 1%nat => [Some 0%Q; None]
  | 2%nat => [Some 0%Q; None] ++ gk_new 2
  | 3%nat => ([Some 0%Q; None] ++ gk_new 2) ++ gk_new 3
  | _ => (([Some 0%Q; None] ++ gk_new 2) ++ gk_new 3) ++ gk_new k
  end.
Lemma gk_sym_ok k : gk_points k = map gval (gk_sym k).
Proof.
  assert (N : forall k, map Q2R (gk_new_points k) = map gval (gk_new k)) by (intros; unfold gk_new; rewrite map_map; reflexivity).
  assert (Z : [0] = map gval [Some 0%Q]) by (cbn [map gval]; rewrite RMicromega.Q2R_0; auto).
  assert (O : [0] ++ [sqrt (3 / 2)] = map gval [Some 0%Q; None]) by (cbn [map gval app]; rewrite RMicromega.Q2R_0; auto).
  unfold gk_points, gk_sym. destruct k as [|[|[|[|k]]]]; cbv zeta; rewrite ?N, ?O, <- ?map_app; auto.
Qed.
Definition gk_sorted (k : nat) : list (option Q) := gsort (gk_sym k).
Lemma gk_sort_ok k : gincr (gk_sorted k) = true -> np_sort (gk_points k) = map gval (gk_sorted k).
Proof. intros H. apply np_sort_unique; [|apply gincr_ok; auto]. rewrite gk_sym_ok. apply Permutation_map, gsort_perm. Qed.

(* ------------------------------------------------------- mirrored rules *)
Definition mirror1 (w p : list R) : rule1 := List.combine (rev (tl w) ++ [nth 0 w 0] ++ tl w) (map Ropp (rev (tl p)) ++ [nth 0 p 0] ++ tl p).
Lemma combine_app_eq {A B} (a a' : list A) (b b' : list B) : length a = length b -> List.combine (a ++ a') (b ++ b') = List.combine a b ++ List.combine a' b'.
Proof. revert b. induction a as [|x a IH]; intros [|y b] H; try discriminate; cbn; auto. f_equal. apply IH. cbn in H. lia. Qed.
Lemma combine_rev_eq {A B} (a : list A) : forall (b : list B), length a = length b -> List.combine (rev a) (rev b) = rev (List.combine a b).
Proof. induction a as [|x a IH]; intros [|y b] H; try discriminate; cbn [rev List.combine]; auto. rewrite combine_app_eq by (rewrite !rev_length; cbn in H; lia). rewrite IH by (cbn in H; lia). reflexivity. Qed.
Lemma mirror1_apply w0 w p0 p f : length w = length p ->
  apply1 (mirror1 (w0 :: w) (p0 :: p)) f = w0 * f p0 + Rsum (map (fun wx => fst wx * (f (snd wx) + f (- snd wx))) (List.combine w p)).
Proof.
  intros L. unfold mirror1, apply1. cbn [tl nth]. rewrite combine_app_eq by (rewrite rev_length, map_length, rev_length; auto). rewrite map_app, Rsum_app. cbn [app List.combine map Rsum fst snd].
  rewrite (map_rev Ropp), combine_rev_eq by (rewrite map_length; auto). rewrite map_rev.
  assert (RR : forall l : list R, Rsum (rev l) = Rsum l) by (induction l as [|x l IH]; cbn [rev Rsum]; auto; rewrite Rsum_app, IH; cbn [Rsum]; ring). rewrite RR.
  rewrite <- Rplus_assoc, (Rplus_comm _ (w0 * f p0)), Rplus_assoc. f_equal. revert p L. induction w as [|a w IH]; intros [|b p] L; try discriminate; cbn [map List.combine Rsum fst snd]; [ring|].
  rewrite <- IH by (cbn in L; lia). ring.
Qed.
Lemma pow_neg_even x k : Nat.even k = true -> (- x) ^ k = x ^ k.
Proof. intros H. apply Nat.even_spec in H. destruct H as [m ->]. rewrite !pow_mult. f_equal. ring. Qed.
Lemma pow_neg_odd x k : Nat.even k = false -> (- x) ^ k = - x ^ k.
Proof.
  intros H. assert (O : Nat.odd k = true) by (unfold Nat.odd; rewrite H; auto). apply Nat.odd_spec in O. destruct O as [m ->]. rewrite !pow_add, !pow_mult. replace ((- x) ^ 2) with (x ^ 2) by ring. ring.
Qed.
Lemma mirror1_odd w0 w p k : length w = length p -> Nat.even k = false -> apply1 (mirror1 (w0 :: w) (0 :: p)) (fun x => x ^ k) = 0.
Proof.
  intros L H. rewrite mirror1_apply by auto. rewrite (Rsum_map_ext _ (fun _ => 0)) by (intros; rewrite pow_neg_odd by auto; ring).
  assert (Z : forall l : list (R * R), Rsum (map (fun _ => 0) l) = 0) by (induction l; cbn; lra). rewrite Z. destruct k; [discriminate|]. rewrite pow_i by lia. ring.
Qed.
Lemma mirror1_even w0 w p k : length w = length p -> Nat.even k = true -> apply1 (mirror1 (w0 :: w) (0 :: p)) (fun x => x ^ k) = w0 * 0 ^ k + Rsum (map (fun wx => 2 * fst wx * snd wx ^ k) (List.combine w p)).
Proof. intros L H. rewrite mirror1_apply by auto. f_equal. apply Rsum_map_ext. intros. rewrite pow_neg_even by auto. ring. Qed.

(* ------------------------------------------------------- the moments *)
Fixpoint rho (m : nat) : R := match m with O => 1 | S m' => rho m' * (INR m' + / 2) end.
Lemma rho_pos m : 0 < rho m.
Proof. induction m as [|m IH]; cbn [rho]; [lra|]. apply Rmult_lt_0_compat; auto. pose proof (pos_INR m). lra. Qed.
Lemma hnu_even m : hnu (2 * m) = rho m * sqrt PI.
Proof.
  induction m as [|m IH]; [cbn; lra|]. replace (2 * S m)%nat with (S (S (2 * m))) by lia. rewrite hnu_SS, IH. cbn [rho]. rewrite mult_INR. replace (INR 2) with 2 by (cbn; lra). field.
Qed.
Lemma hnu_odd m : hnu (2 * m + 1) = 0.
Proof. induction m as [|m IH]; [reflexivity|]. replace (2 * S m + 1)%nat with (S (S (2 * m + 1))) by lia. rewrite hnu_SS, IH. ring. Qed.

(* ------------------------------------------------------- the check *)
Local Notation prec := (2 ^ 200)%Z.
(** sign, bounds of |c| x^(2m) / rho m times 2^200, bounds of the square of the point times 2^80 *)
Definition gitem := (bool * Z * Z * (Z * Z))%type.
Definition ginit (wx : Q * Q) : gitem :=
  let '(w, x) := wx in let lo := (Z.abs (Qnum w) * prec / Zpos (Qden w))%Z in let y := (Qnum x * 2 ^ 80 / Zpos (Qden x))%Z in
  (Z.ltb (Qnum w) 0, lo, (lo + 1)%Z, (y, (y + 1)%Z)).
Definition gstep (m : nat) (t : gitem) : gitem :=
  let '(s, lo, hi, (y, z)) := t in let b := Z.of_nat (2 * m + 1) in
  (s, Z.shiftr (lo * y) 79 / b, (Z.shiftr (hi * z) 79 + 1) / b + 1, (y, z))%Z.
Definition glo (t : gitem) : Z := let '(s, lo, hi, _) := t in if s then (- hi)%Z else lo.
Definition ghi (t : gitem) : Z := let '(s, lo, hi, _) := t in if s then (- lo)%Z else hi.
Definition zsum (l : list Z) : Z := fold_right Z.add 0%Z l.
(** bounds of sqrt(pi) times 2^200 *)
Definition spi_lo : Z := (32696002570115000952 * 2 ^ 136)%Z.
Definition spi_hi : Z := (32696002570115000955 * 2 ^ 136)%Z.
Definition gnear (l : list gitem) : bool :=
  ((10 ^ 14 - 1) * spi_hi <=? 10 ^ 14 * zsum (map glo l))%Z && (10 ^ 14 * zsum (map ghi l) <=? (10 ^ 14 + 1) * spi_lo)%Z.
Definition gfar (l : list gitem) : bool :=
  ((10 ^ 10 * zsum (map ghi l) <? (10 ^ 10 - 1) * spi_lo)%Z || ((10 ^ 10 + 1) * spi_hi <? 10 ^ 10 * zsum (map glo l))%Z).
Fixpoint gcheck (m steps : nat) (l : list gitem) : bool :=
  match steps with
  | O => gnear l && gfar (map (gstep m) l)
  | S s => gnear l && gcheck (S m) s (map (gstep m) l)
  end.

Definition S200 : R := IZR prec.
Lemma S200_pos : 0 < S200. Proof. apply (IZR_lt 0). reflexivity. Qed.
Lemma spi_ok : IZR spi_lo <= sqrt PI * S200 <= IZR spi_hi.
Proof.
  pose proof pi_ball_ok as B. unfold bok, pi_ball in B. cbn [fst snd] in B. apply Rabs_le_IZR in B. pose proof (sqrt_sqrt PI (Rlt_le _ _ PI_RGT_0)) as S. pose proof (sqrt_pos PI) as P. pose proof S64_pos as P64.
  unfold spi_lo, spi_hi, S200. replace prec with (scale * 2 ^ 136)%Z by reflexivity. rewrite !mult_IZR. fold S64. set (g := sqrt PI) in *.
  assert (E : 0 < IZR (2 ^ 136)) by (apply (IZR_lt 0); reflexivity). set (t := IZR (2 ^ 136)) in *. rewrite <- Rmult_assoc.
  assert (Q : g * S64 * (g * S64) = PI * S64 * S64) by (rewrite <- S; ring).
  assert (V : S64 = IZR 18446744073709551616) by reflexivity.
  split; apply Rmult_le_compat_r; try lra; apply Rnot_lt_le; intros L.
  - assert (g * S64 * (g * S64) < IZR 32696002570115000952 * IZR 32696002570115000952) by (apply Rmult_le_0_lt_compat; auto; apply Rmult_le_pos; lra). rewrite Q in H. rewrite <- mult_IZR in H.
    assert (IZR (32696002570115000952 * 32696002570115000952) <= IZR ((57952155664616982739 - 1) * 18446744073709551616)) by (apply IZR_le; intros X; vm_compute in X; discriminate). rewrite (mult_IZR (57952155664616982739 - 1)), minus_IZR, <- V in H0.
    assert ((IZR 57952155664616982739 - 1) * S64 <= PI * S64 * S64) by (apply Rmult_le_compat_r; lra). lra.
  - assert (IZR 32696002570115000955 * IZR 32696002570115000955 < g * S64 * (g * S64)) by (apply Rmult_le_0_lt_compat; auto; apply IZR_le; intros X; vm_compute in X; discriminate). rewrite Q in H. rewrite <- mult_IZR in H.
    assert (IZR ((57952155664616982739 + 1) * 18446744073709551616) <= IZR (32696002570115000955 * 32696002570115000955)) by (apply IZR_le; intros X; vm_compute in X; discriminate). rewrite (mult_IZR (57952155664616982739 + 1)), plus_IZR, <- V in H0.
    assert (PI * S64 * S64 <= (IZR 57952155664616982739 + 1) * S64) by (apply Rmult_le_compat_r; lra). lra.
Qed.
(** [t] encloses c x^m / rho m, where x is the square of the point. *)
Definition S80 : R := IZR (2 ^ 80).
Definition gok (m : nat) (wx : Q * Q) (t : gitem) : Prop :=
  let '(s, lo, hi, (y, z)) := t in let v := Rabs (Q2R (fst wx)) * Q2R (snd wx) ^ m / rho m * S200 in
  s = Z.ltb (Qnum (fst wx)) 0 /\ (0 <= lo)%Z /\ (0 <= y)%Z /\ IZR y <= Q2R (snd wx) * S80 <= IZR z /\ IZR lo <= v <= IZR hi.
Lemma Q2R_abs q : Rabs (Q2R q) = IZR (Z.abs (Qnum q)) / IZR (Zpos (Qden q)).
Proof. unfold Q2R, Rdiv. rewrite Rabs_mult, abs_IZR. f_equal. apply Rabs_right. apply Rle_ge, Rlt_le, Rinv_0_lt_compat. apply (IZR_lt 0). reflexivity. Qed.
Lemma ginit_ok wx : (0 <= Qnum (snd wx))%Z -> gok 0 wx (ginit wx).
Proof.
  unfold gok, ginit. destruct wx as [w x]. cbn [fst snd]. intros Hx. cbv zeta. split; auto. split; [apply Z.div_pos; [apply Z.mul_nonneg_nonneg; [lia|discriminate]|lia]|].
  split; [apply Z.div_pos; [apply Z.mul_nonneg_nonneg; [lia|discriminate]|lia]|]. split.
  - pose proof (zdiv_bounds (Qnum x * 2 ^ 80) (Zpos (Qden x)) ltac:(lia)) as B. rewrite mult_IZR in B. fold S80 in B. rewrite plus_IZR.
    replace (Q2R x * S80) with (IZR (Qnum x) * S80 / IZR (Zpos (Qden x))) by (unfold Q2R, Rdiv; ring). lra.
  - cbn [pow rho]. rewrite Q2R_abs. pose proof (zdiv_bounds (Z.abs (Qnum w) * prec) (Zpos (Qden w)) ltac:(lia)) as B. rewrite mult_IZR in B. fold S200 in B.
    rewrite plus_IZR. replace (IZR (Z.abs (Qnum w)) / IZR (Zpos (Qden w)) * 1 / 1 * S200) with (IZR (Z.abs (Qnum w)) * S200 / IZR (Zpos (Qden w))) by (unfold Rdiv; field; apply not_0_IZR; lia). lra.
Qed.
Lemma gstep_ok m wx t : gok m wx t -> gok (S m) wx (gstep m t).
Proof.
  destruct wx as [w x], t as [[[s lo] hi] [y z]]. unfold gok, gstep. cbn [fst snd]. intros [-> [L0 [Y0 [BY B]]]]. split; auto. set (v := Rabs (Q2R w) * Q2R x ^ m / rho m * S200) in *.
  pose proof (rho_pos m) as R0. pose proof (pos_INR m) as M0. rewrite !Z.shiftr_div_pow2 by lia. set (b := Z.of_nat (2 * m + 1)).
  assert (Hb : (0 < b)%Z) by (unfold b; lia). assert (Pb : 0 < IZR b) by (apply (IZR_lt 0); auto).
  assert (Eb : IZR b = 2 * INR m + 1) by (unfold b; rewrite <- INR_IZR_INZ, plus_INR, mult_INR; cbn; lra).
  split; [apply Z.div_pos; auto; apply Z.div_pos; [apply Z.mul_nonneg_nonneg; auto|reflexivity]|]. split; auto. split; auto.
  assert (P80 : 0 < S80) by (apply (IZR_lt 0); reflexivity).
  assert (E : Rabs (Q2R w) * Q2R x ^ S m / rho (S m) * S200 = v * (Q2R x * S80) / (S80 / 2) / IZR b).
  { unfold v. cbn [rho pow]. rewrite Eb. field. repeat split; lra. }
  assert (E79 : IZR (2 ^ 79) = S80 / 2) by (unfold S80; change (2 ^ 80)%Z with (2 ^ 79 * 2)%Z; rewrite mult_IZR; field).
  rewrite E. pose proof (zdiv_bounds (lo * y) (2 ^ 79) ltac:(reflexivity)) as B1. pose proof (zdiv_bounds (hi * z) (2 ^ 79) ltac:(reflexivity)) as B2. rewrite mult_IZR, E79 in B1, B2.
  pose proof (zdiv_bounds (lo * y / 2 ^ 79) b Hb) as B3. pose proof (zdiv_bounds (hi * z / 2 ^ 79 + 1) b Hb) as B4. rewrite (plus_IZR (hi * z / 2 ^ 79)) in B4. rewrite (plus_IZR (_ / b)).
  apply IZR_le in L0, Y0.
  assert (V1 : IZR lo * IZR y <= v * (Q2R x * S80)) by (apply Rmult_le_compat; lra). assert (V2 : v * (Q2R x * S80) <= IZR hi * IZR z) by (apply Rmult_le_compat; lra).
  assert (I1 : 0 < / (S80 / 2)) by (apply Rinv_0_lt_compat; lra). assert (I2 : 0 < / IZR b) by (apply Rinv_0_lt_compat; auto).
  assert (U1 : IZR (lo * y / 2 ^ 79) <= v * (Q2R x * S80) / (S80 / 2)) by (eapply Rle_trans; [apply B1|]; apply Rmult_le_compat_r; lra).
  assert (U2 : v * (Q2R x * S80) / (S80 / 2) <= IZR (hi * z / 2 ^ 79) + 1) by (eapply Rle_trans; [apply Rmult_le_compat_r; [lra|exact V2]|]; unfold Rdiv in B2; lra).
  split.
  - eapply Rle_trans; [apply B3|]. apply Rmult_le_compat_r; lra.
  - eapply Rle_trans; [apply Rmult_le_compat_r; [lra|exact U2]|]. unfold Rdiv in B4. lra.
Qed.
Definition gterm (m : nat) (wx : Q * Q) : R := Q2R (fst wx) * Q2R (snd wx) ^ m / rho m * S200.
Lemma gok_bounds m wx t : gok m wx t -> IZR (glo t) <= gterm m wx <= IZR (ghi t).
Proof.
  destruct wx as [w x], t as [[[s lo] hi] [y z]]. unfold gok, gterm, glo, ghi. cbn [fst snd]. intros [-> [_ [_ [_ B]]]]. destruct (Z.ltb_spec (Qnum w) 0) as [N|N].
  - assert (Q2R w <= 0). { unfold Q2R. apply IZR_lt in N. assert (0 < / IZR (Zpos (Qden w))) by (apply Rinv_0_lt_compat, (IZR_lt 0); reflexivity). nra. }
    rewrite (Rabs_left1 (Q2R w)) in B by auto. rewrite !opp_IZR. replace (Q2R w * Q2R x ^ m / rho m * S200) with (- (- Q2R w * Q2R x ^ m / rho m * S200)) by (unfold Rdiv; ring). lra.
  - assert (0 <= Q2R w). { unfold Q2R. apply IZR_le in N. assert (0 < / IZR (Zpos (Qden w))) by (apply Rinv_0_lt_compat, (IZR_lt 0); reflexivity). nra. }
    rewrite (Rabs_right (Q2R w)) in B by lra. auto.
Qed.
Lemma gsum_bounds m wxs l : Forall2 (gok m) wxs l -> IZR (zsum (map glo l)) <= Rsum (map (gterm m) wxs) <= IZR (zsum (map ghi l)).
Proof.
  induction 1 as [|wx t wxs l H _ IH]; cbn [map zsum fold_right Rsum]; [lra|]. fold (zsum (map glo l)) (zsum (map ghi l)). rewrite !plus_IZR. apply gok_bounds in H. lra.
Qed.
Lemma gstep_all m wxs l : Forall2 (gok m) wxs l -> Forall2 (gok (S m)) wxs (map (gstep m) l).
Proof. intros H. induction H; cbn [map]; constructor; auto. apply gstep_ok; auto. Qed.
Definition gsum (m : nat) (wxs : list (Q * Q)) : R := Rsum (map (fun wx => Q2R (fst wx) * Q2R (snd wx) ^ m) wxs).
Lemma gterm_sum m wxs : Rsum (map (gterm m) wxs) = gsum m wxs / rho m * S200.
Proof. unfold gsum, Rdiv. rewrite <- !Rsum_map_scal_r. apply Rsum_map_ext. intros. unfold gterm, Rdiv. ring. Qed.
Lemma gnear_ok m wxs l : Forall2 (gok m) wxs l -> gnear l = true -> Rabs (gsum m wxs - hnu (2 * m)) <= / 10 ^ 14 * hnu (2 * m).
Proof.
  intros F H. apply andb_prop in H. destruct H as [H1 H2]. apply Z.leb_le, IZR_le in H1, H2. rewrite !mult_IZR in H1, H2. change (10 ^ 14 - 1)%Z with 99999999999999%Z in H1. change (10 ^ 14 + 1)%Z with 100000000000001%Z in H2. apply gsum_bounds in F. rewrite gterm_sum in F. pose proof spi_ok as S. pose proof S200_pos as P.
  rewrite hnu_even. pose proof (rho_pos m) as R0. set (X := gsum m wxs / rho m) in *. replace (gsum m wxs) with (X * rho m) by (unfold X; field; lra). clearbody X.
  replace (X * rho m - rho m * sqrt PI) with (rho m * (X - sqrt PI)) by ring. rewrite Rabs_mult, (Rabs_right (rho m)) by lra. replace (/ 10 ^ 14 * (rho m * sqrt PI)) with (rho m * (/ 10 ^ 14 * sqrt PI)) by ring. apply Rmult_le_compat_l; [lra|].
  change (10 ^ 14)%Z with 100000000000000%Z in H1, H2. replace (10 ^ 14) with 100000000000000 by (cbn; lra).
  apply Rabs_le. set (g := sqrt PI) in *. assert (A1 : (100000000000000 - 1) * (g * S200) <= 100000000000000 * (X * S200)) by lra. assert (A2 : 100000000000000 * (X * S200) <= (100000000000000 + 1) * (g * S200)) by lra.
  assert (A1' : (100000000000000 - 1) * g <= 100000000000000 * X) by (apply Rmult_le_reg_r with S200; auto; lra). assert (A2' : 100000000000000 * X <= (100000000000000 + 1) * g) by (apply Rmult_le_reg_r with S200; auto; lra). lra.
Qed.
Lemma gfar_ok m wxs l : Forall2 (gok m) wxs l -> gfar l = true -> / 10 ^ 10 * hnu (2 * m) < Rabs (gsum m wxs - hnu (2 * m)).
Proof.
  intros F H. apply gsum_bounds in F. rewrite gterm_sum in F. pose proof spi_ok as S. pose proof S200_pos as P.
  rewrite hnu_even. pose proof (rho_pos m) as R0. set (X := gsum m wxs / rho m) in *. replace (gsum m wxs) with (X * rho m) by (unfold X; field; lra). clearbody X.
  replace (X * rho m - rho m * sqrt PI) with (rho m * (X - sqrt PI)) by ring. rewrite Rabs_mult, (Rabs_right (rho m)) by lra. replace (/ 10 ^ 10 * (rho m * sqrt PI)) with (rho m * (/ 10 ^ 10 * sqrt PI)) by ring. apply Rmult_lt_compat_l; [lra|].
  replace (10 ^ 10) with 10000000000 by (cbn; lra). set (g := sqrt PI) in *. apply orb_prop in H. destruct H as [H|H]; apply Z.ltb_lt, IZR_lt in H; rewrite !mult_IZR in H; change (10 ^ 10)%Z with 10000000000%Z in H.
  - change (10000000000 - 1)%Z with 9999999999%Z in H. assert (A : 10000000000 * X < (10000000000 - 1) * g) by (apply Rmult_lt_reg_r with S200; auto; lra). rewrite Rabs_minus_sym. eapply Rlt_le_trans; [|apply Rle_abs]. lra.
  - change (10000000000 + 1)%Z with 10000000001%Z in H. assert (A : (10000000000 + 1) * g < 10000000000 * X) by (apply Rmult_lt_reg_r with S200; auto; lra). eapply Rlt_le_trans; [|apply Rle_abs]. lra.
Qed.
Lemma gcheck_ok wxs : forall steps m l, Forall2 (gok m) wxs l -> gcheck m steps l = true ->
  (forall j, (m <= j <= m + steps)%nat -> Rabs (gsum j wxs - hnu (2 * j)) <= / 10 ^ 14 * hnu (2 * j)) /\
  / 10 ^ 10 * hnu (2 * (m + S steps)) < Rabs (gsum (m + S steps) wxs - hnu (2 * (m + S steps))).
Proof.
  induction steps as [|s IH]; intros m l F H; cbn [gcheck] in H; apply andb_prop in H; destruct H as [H1 H2].
  - split; [intros j Hj; replace j with m by lia; apply (gnear_ok m wxs l); auto|]. replace (m + 1)%nat with (S m) by lia. apply (gfar_ok (S m) wxs (map (gstep m) l)); auto. apply gstep_all; auto.
  - destruct (IH (S m) _ (gstep_all m wxs l F) H2) as [A B]. split.
    + intros j Hj. destruct (Nat.eq_dec j m) as [->|]; [apply (gnear_ok m wxs l); auto|apply A; lia].
    + replace (m + S (S s))%nat with (S m + S s)%nat by lia. auto.
Qed.
(** Weights (doubled except at 0) and squares of the points. *)
Definition gk_items (n : nat) : list (Q * Q) :=
  match gk_table n with [] => [] | w0 :: w => List.combine (w0 :: map (fun x => 2 * x)%Q w) (map gsq (gk_sorted n)) end.
Definition gk_check (n steps : nat) : bool :=
  gincr (gk_sorted n) && (length (gk_table n) =? length (gk_sorted n))%nat && forallb (fun wx => 0 <=? Qnum (snd wx))%Z (gk_items n) &&
  match gk_sorted n with Some q :: _ => Qeq_bool q 0 | _ => false end && negb (length (gk_table n) =? 0)%nat && gcheck 0 steps (map ginit (gk_items n)).

Lemma combine_map2 {A B C D} (f : A -> C) (g : B -> D) (l : list A) : forall m, List.combine (map f l) (map g m) = map (fun ab => (f (fst ab), g (snd ab))) (List.combine l m).
Proof. induction l as [|a l IH]; intros [|b m]; cbn [map List.combine]; auto. f_equal. apply IH. Qed.
Theorem gk_run n steps : gk_check n steps = true ->
  let q := mirror1 (map Q2R (gk_table n)) (np_sort (gk_points n)) in
  length q = (2 * length (gk_table n) - 1)%nat /\ length (gk_points n) = length (gk_table n) /\ StronglySorted Rlt (np_sort (gk_points n)) /\ nth 0 (np_sort (gk_points n)) 0 = 0 /\
  (forall k, (k <= 2 * steps + 1)%nat -> Rabs (apply1 q (fun x => x ^ k) - hnu k) <= / 10 ^ 14 * hnu k) /\
  / 10 ^ 10 * hnu (2 * steps + 2) < Rabs (apply1 q (fun x => x ^ (2 * steps + 2)) - hnu (2 * steps + 2)).
Proof.
  intros H. unfold gk_check in H. repeat (apply andb_prop in H; let H' := fresh "C" in destruct H as [H H']).
  rewrite (gk_sort_ok n H). assert (LS : length (gk_sorted n) = length (gk_points n)) by (unfold gk_sorted; rewrite gk_sym_ok, map_length; symmetry; apply Permutation_length, gsort_perm).
  pose proof (gincr_ok _ H) as SS. apply Nat.eqb_eq in C3. destruct (gk_table n) as [|w0 w] eqn:ET; [discriminate|]. destruct (gk_sorted n) as [|[q0|] ps] eqn:EP; try discriminate. apply Qeq_bool_eq, Qeq_eqR in C1. rewrite RMicromega.Q2R_0 in C1.
  unfold gk_items in *. rewrite ET, EP in *. cbn [length] in C3. injection C3 as L. cbn [map gval] in *. rewrite C1 in *. cbv zeta.
  assert (LW : length (map Q2R w) = length (map gval ps)) by (rewrite !map_length; auto).
  set (items := List.combine (w0 :: map (fun x => (2 * x)%Q) w) (gsq (Some q0) :: map gsq ps)) in *.
  assert (Z0 : Q2R (gsq (Some q0)) = 0) by (rewrite gsq_ok; cbn [gval]; rewrite C1; ring).
  assert (EV : forall j, apply1 (mirror1 (Q2R w0 :: map Q2R w) (0 :: map gval ps)) (fun x => x ^ (2 * j)) = gsum j items).
  { intros j. rewrite mirror1_even by (auto; apply Nat.even_spec; exists j; auto). unfold gsum, items. cbn [List.combine map Rsum fst snd]. rewrite Z0. f_equal; [rewrite pow_mult; f_equal; f_equal; cbn; ring|].
    rewrite !combine_map2, !map_map. apply Rsum_map_ext. intros [a b] _. cbn [fst snd]. rewrite gsq_ok, Q2R_mult, <- pow_mult. replace (Q2R 2) with 2 by (unfold Q2R; cbn; lra). auto. }
  assert (F : Forall2 (gok 0) items (map ginit items)).
  { rewrite forallb_forall in C2. clearbody items. clear - C2. induction items as [|a l IH]; [constructor|]. cbn [map]. constructor; [apply ginit_ok, Z.leb_le, C2; left; auto|apply IH; intros; apply C2; right; auto]. }
  destruct (gcheck_ok items steps 0 _ F C) as [A B].
  split; [|split; [|split; [|split; [|split]]]].
  - unfold mirror1. cbn [tl nth]. rewrite combine_length, !app_length, !map_length, !rev_length, !map_length. cbn [length]. rewrite L. lia.
  - cbn [length] in LS |- *. lia.
  - exact SS.
  - reflexivity.
  - intros k Hk. destruct (Nat.even k) eqn:Ek.
    + apply Nat.even_spec in Ek. destruct Ek as [j ->]. rewrite EV. apply A. lia.
    + rewrite mirror1_odd by auto. assert (O : Nat.odd k = true) by (unfold Nat.odd; rewrite Ek; auto). apply Nat.odd_spec in O. destruct O as [j ->]. rewrite hnu_odd, Rminus_0_r, Rabs_R0. lra.
  - replace (2 * steps + 2)%nat with (2 * (0 + S steps))%nat by lia. rewrite EV. exact B.
Qed.
(** From powers to polynomials. *)
Lemma hnu_nonneg k : 0 <= hnu k.
Proof.
  destruct (Nat.Even_or_Odd k) as [[m ->]|[m ->]]; [rewrite hnu_even; apply Rmult_le_pos; [apply Rlt_le, rho_pos|apply sqrt_pos]|rewrite hnu_odd; lra].
Qed.
Definition hval (c : list R) : R := Rsum (map (fun i => nth i c 0 * hnu i) (seq 0 (length c))).
Lemma hval_int c : hermite_int (peval c) (hval c).
Proof.
  unfold hermite_int, hval. apply (gen_ext _ _ _ _ hD hDa hDb hDc (fun x => Rsum (map (fun i => nth i c 0 * (exp (- x ^ 2) * x ^ i)) (seq 0 (length c))))).
  - intros x _. rewrite peval_nth. rewrite <- Rsum_map_scal. apply Rsum_map_ext. intros; ring.
  - apply (gen_Rsum _ _ _ _ hD hDa hDb hDc (fun i x => nth i c 0 * (exp (- x ^ 2) * x ^ i)) (fun i => nth i c 0 * hnu i)). intros i _. apply gen_scal; [try typeclasses eauto..|apply (proj1 (hnu_int i))].
Qed.
Lemma peval_near q d eps : 0 <= eps -> (forall k, (k <= d)%nat -> Rabs (apply1 q (fun x => x ^ k) - hnu k) <= eps * hnu k) ->
  forall c, (length c <= S d)%nat -> Rabs (apply1 q (peval c) - hval c) <= eps * hval (map Rabs c).
Proof.
  intros He H c Hc. rewrite (apply1_ext' q (peval c) (fun x => Rsum (map (fun i => nth i c 0 * x ^ i) (seq 0 (length c))))) by (intros; apply peval_nth). rewrite apply1_sum.
  unfold hval. rewrite map_length. assert (G : forall l, (forall i, In i l -> i <= d)%nat -> Rabs (Rsum (map (fun i => apply1 q (fun x => nth i c 0 * x ^ i)) l) - Rsum (map (fun i => nth i c 0 * hnu i) l)) <= eps * Rsum (map (fun i => nth i (map Rabs c) 0 * hnu i) l)).
  { induction l as [|i l IH]; intros Hl; cbn [map Rsum]; [rewrite Rminus_0_r, Rabs_R0; lra|].
    replace (_ + _ - _) with ((apply1 q (fun x => nth i c 0 * x ^ i) - nth i c 0 * hnu i) + (Rsum (map (fun i => apply1 q (fun x => nth i c 0 * x ^ i)) l) - Rsum (map (fun i => nth i c 0 * hnu i) l))) by ring.
    eapply Rle_trans; [apply Rabs_triang|]. rewrite Rmult_plus_distr_l. apply Rplus_le_compat; [|apply IH; intros; apply Hl; right; auto].
    rewrite (apply1_scal q (nth i c 0) (fun x => x ^ i)). replace (nth i c 0 * apply1 q (fun x => x ^ i) - nth i c 0 * hnu i) with (nth i c 0 * (apply1 q (fun x => x ^ i) - hnu i)) by ring.
    rewrite Rabs_mult. replace (nth i (map Rabs c) 0) with (Rabs (nth i c 0)) by (rewrite <- (map_nth Rabs c 0), Rabs_R0; reflexivity). replace (eps * (Rabs (nth i c 0) * hnu i)) with (Rabs (nth i c 0) * (eps * hnu i)) by ring. apply Rmult_le_compat_l; [apply Rabs_pos|]. apply H, Hl. left. auto. }
  apply G. intros i Hi. apply in_seq in Hi. lia.
Qed.
