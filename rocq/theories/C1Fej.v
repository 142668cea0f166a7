(** Fejer's first rule. *)
From Coq Require Import Reals List Arith ZArith Lia Lra Bool.
From Coquelicot Require Import Coquelicot.
From Verif Require Import Spec Spec1 RsumLemmas IntegralProofs IntegralPoly SphereInt C1Tools TrigSums TrigPoly Interp AdaptModel PyBase UnModel C1Model C1Proofs C1Cc C1Cc2.
Import ListNotations.
Set Bullet Behavior "Strict Subproofs".
Open Scope R_scope.

Definition fej_c (n K : nat) : R := if (K <? n - n / 2)%nat then ccoef K else 0.
Definition fej_z (n K : nat) : R * R := (fej_c n K * cos (PI * INR K / INR n), fej_c n K * sin (PI * INR K / INR n)).
Lemma fej_half n : (1 <= n)%nat -> (1 <= n - n / 2 <= n)%nat /\ (2 * (n - n / 2) <= n + 1)%nat /\ (n <= 2 * (n - n / 2))%nat.
Proof. intros H. assert (D := Nat.div_mod n 2 ltac:(lia)). assert (B := Nat.mod_upper_bound n 2 ltac:(lia)). lia. Qed.
Lemma fejer_v0_map n : (1 <= n)%nat -> fejer_1_v0 n = map (fej_z n) (seq 0 (n + 1)).
Proof.
  intros H. destruct (fej_half n H) as [H1 [H2 H3]]. unfold fejer_1_v0. replace (seq 0 (n + 1)) with (seq 0 ((n - n / 2) + (n / 2 + 1))) by (f_equal; lia). rewrite (seq_app (n - n / 2)), map_app. f_equal.
  - apply map_ext_in. intros K HK. apply in_seq in HK. unfold fej_z, fej_c. destruct (Nat.ltb_spec K (n - n / 2)); [|lia]. unfold ccoef. assert (Z := odd_nz K). replace (1 - 4 * INR K ^ 2) with (1 - 4 * INR K * INR K) by ring. f_equal; field; auto.
  - rewrite <- (seq_length (n / 2 + 1) (0 + (n - n / 2))) at 1. rewrite repeat_map. apply map_ext_in. intros i Hi. apply in_seq in Hi. unfold fej_z, fej_c. destruct (Nat.ltb_spec i (n - n / 2)); [lia|]. f_equal; ring.
Qed.
Definition fej_v (n m : nat) : R * R := (fst (fej_z n m) + fst (fej_z n (n - m)), snd (fej_z n m) - snd (fej_z n (n - m))).
Lemma fejer_v1_map n : (1 <= n)%nat -> fejer_1_v1 (fejer_1_v0 n) = map (fej_v n) (seq 0 n).
Proof. intros H. rewrite fejer_v0_map by auto. unfold fejer_1_v1. rewrite removelast_map_seq, rev_tl_map_seq, combine_map2, map_map. reflexivity. Qed.
Definition fej_angle (n k : nat) : R := PI * (INR k + 0.5) / INR n.
Lemma fej_angle_eq n k : fej_angle n k = PI * (INR k + / 2) / INR n.
Proof. unfold fej_angle. replace 0.5 with (/ 2) by lra. auto. Qed.
Lemma fej_term_re n m k : (1 <= n)%nat -> (m <= n)%nat -> let t := 2 * PI * INR m * INR k / INR n in
  fst (fej_v n m) * cos t - snd (fej_v n m) * sin t = fej_c n m * cos (INR (2 * m) * fej_angle n k) + fej_c n (n - m) * cos (INR (2 * (n - m)) * fej_angle n k).
Proof.
  intros H Hm t. assert (P : INR n <> 0) by (apply not_0_INR; lia). unfold fej_v, fej_z. cbn [fst snd]. unfold t.
  replace (INR (2 * m) * fej_angle n k) with (PI * INR m / INR n + 2 * PI * INR m * INR k / INR n) by (rewrite fej_angle_eq; rewrite mult_INR; cbn [INR]; field; auto).
  replace (INR (2 * (n - m)) * fej_angle n k) with (PI * INR (n - m) / INR n - 2 * PI * INR m * INR k / INR n + 2 * INR k * PI) by (rewrite fej_angle_eq; rewrite mult_INR, minus_INR by auto; cbn [INR]; field; auto).
  rewrite cos_period, cos_plus, cos_minus. ring.
Qed.
Lemma fej_term_im n m k : (1 <= n)%nat -> (m <= n)%nat -> let t := 2 * PI * INR m * INR k / INR n in
  fst (fej_v n m) * sin t + snd (fej_v n m) * cos t = fej_c n m * sin (INR (2 * m) * fej_angle n k) - fej_c n (n - m) * sin (INR (2 * (n - m)) * fej_angle n k).
Proof.
  intros H Hm t. assert (P : INR n <> 0) by (apply not_0_INR; lia). unfold fej_v, fej_z. cbn [fst snd]. unfold t.
  replace (INR (2 * m) * fej_angle n k) with (PI * INR m / INR n + 2 * PI * INR m * INR k / INR n) by (rewrite fej_angle_eq; rewrite mult_INR; cbn [INR]; field; auto).
  replace (INR (2 * (n - m)) * fej_angle n k) with (PI * INR (n - m) / INR n - 2 * PI * INR m * INR k / INR n + 2 * INR k * PI) by (rewrite fej_angle_eq; rewrite mult_INR, minus_INR by auto; cbn [INR]; field; auto).
  rewrite sin_period, sin_plus, sin_minus. ring.
Qed.
Lemma reflect_sum n (A : nat -> R) : Rsum (map (fun m => A (n - m)%nat) (seq 0 n)) = Rsum (map A (seq 0 (n + 1))) - A 0%nat.
Proof.
  replace (seq 0 (n + 1)) with (0%nat :: seq 1 n) by (replace (n + 1)%nat with (S n) by lia; reflexivity). cbn [map Rsum].
  rewrite Rsum_reverse, <- seq_shift, map_map. rewrite (Rsum_map_ext _ (fun i => A (S i))); [ring|]. intros i Hi. apply in_seq in Hi. f_equal. lia.
Qed.
Lemma fej_c_n n : (1 <= n)%nat -> fej_c n n = 0.
Proof. intros H. destruct (fej_half n H) as [H1 [H2 H3]]. unfold fej_c. destruct (Nat.ltb_spec n (n - n / 2)); [lia|]. auto. Qed.
Lemma fej_c_0 n : (1 <= n)%nat -> fej_c n 0 = 2.
Proof. intros H. destruct (fej_half n H) as [H1 [H2 H3]]. unfold fej_c. destruct (Nat.ltb_spec 0 (n - n / 2)); [|lia]. unfold ccoef. cbn. field. Qed.
Definition fej_w (n k : nat) : R := / INR n * (2 * Rsum (map (fun m => fej_c n m * cos (INR (2 * m) * fej_angle n k)) (seq 0 n)) - 2).
Lemma nth_map_seq {A} (f : nat -> A) n m d : (m < n)%nat -> nth m (map f (seq 0 n)) d = f m.
Proof. intros H. rewrite (nth_indep _ d (f 0%nat)) by (rewrite map_length, seq_length; lia). rewrite map_nth, seq_nth by lia. auto. Qed.
Lemma fejer_re n : (1 <= n)%nat -> ifft_re (map (fej_v n) (seq 0 n)) = map (fej_w n) (seq 0 n).
Proof.
  intros H. unfold ifft_re. rewrite map_length, seq_length. apply map_ext. intros k. unfold fej_w. f_equal.
  rewrite (Rsum_map_ext _ (fun m => fej_c n m * cos (INR (2 * m) * fej_angle n k) + fej_c n (n - m) * cos (INR (2 * (n - m)) * fej_angle n k))).
  - rewrite Rsum_map_plus, (reflect_sum n (fun m => fej_c n m * cos (INR (2 * m) * fej_angle n k))). rewrite seq_app, map_app, Rsum_app. cbn [seq map Rsum Nat.add]. rewrite fej_c_n, fej_c_0 by auto. replace (2 * 0)%nat with 0%nat by lia. cbn [INR]. rewrite !Rmult_0_l, cos_0. ring.
  - intros m Hm. apply in_seq in Hm. rewrite nth_map_seq by lia. apply fej_term_re; lia.
Qed.
Lemma fejer_im n x : (1 <= n)%nat -> In x (ifft_im (map (fej_v n) (seq 0 n))) -> x = 0.
Proof.
  intros H Hx. unfold ifft_im in Hx. rewrite map_length, seq_length in Hx. apply in_map_iff in Hx. destruct Hx as [k [<- _]].
  rewrite (Rsum_map_ext _ (fun m => fej_c n m * sin (INR (2 * m) * fej_angle n k) - fej_c n (n - m) * sin (INR (2 * (n - m)) * fej_angle n k))).
  - rewrite Rsum_map_minus, (reflect_sum n (fun m => fej_c n m * sin (INR (2 * m) * fej_angle n k))). rewrite seq_app, map_app, Rsum_app. cbn [seq map Rsum Nat.add]. rewrite fej_c_n by auto. replace (2 * 0)%nat with 0%nat by lia. cbn [INR]. rewrite !Rmult_0_l, sin_0. ring.
  - intros m Hm. apply in_seq in Hm. rewrite nth_map_seq by lia. apply fej_term_im; lia.
Qed.
Definition fejer1_q (n : nat) : list (R * R) := map (fun k => (fej_w n k, fej_angle n k)) (seq 0 n).
Lemma fejer1_run n : (1 <= n)%nat -> fejer_1 n = Some (mk_c1 (Z.of_nat n) (map (fun wt => (fst wt, - cos (snd wt))) (fejer1_q n))).
Proof.
  intros H. assert (P : INR n <> 0) by (apply not_0_INR; lia). unfold fejer_1. rewrite (opt_list_map _ (fun k => - cos (fej_angle n k))) by (intros k _; rewrite rdiv_ok by auto; reflexivity).
  cbn [bind]. rewrite fejer_v1_map by auto. rewrite map_length, seq_length. replace (n =? 0)%nat with false by (symmetry; apply Nat.eqb_neq; lia). cbn [negb guard].
  replace (forallb _ _) with true. 2:{ symmetry. apply forallb_forall. intros x Hx. rewrite (fejer_im n x H Hx). apply Rltb_0_tol. }
  cbn [guard]. rewrite fejer_re by auto. unfold c1_scheme_of, fejer1_q. rewrite combine_map2, map_map. reflexivity.
Qed.
Lemma fej_sum n s : (s < n)%nat -> Rsum (map (fun k => cos (INR (2 * s) * fej_angle n k)) (seq 0 n)) = if (s =? 0)%nat then INR n else 0.
Proof.
  intros H. assert (P : INR n <> 0) by (apply not_0_INR; lia). destruct (Nat.eqb_spec s 0) as [-> | Hs].
  - rewrite (Rsum_map_ext _ (fun _ => 1)); [rewrite Rsum_map_const, seq_length; ring|]. intros k _. replace (2 * 0)%nat with 0%nat by lia. cbn [INR]. rewrite Rmult_0_l, cos_0. auto.
  - rewrite <- (cg1_cos n (2 * s)) by lia. rewrite <- seq_shift, map_map. apply Rsum_map_ext. intros k _. f_equal. f_equal. rewrite fej_angle_eq; unfold cg1_angle. rewrite minus_INR, mult_INR, (S_INR k) by lia. cbn [INR]. field. auto.
Qed.
Lemma fej_cos_cos n m i : (m + i < n)%nat -> Rsum (map (fun k => cos (INR (2 * m) * fej_angle n k) * cos (INR (2 * i) * fej_angle n k)) (seq 0 n)) =
  INR n / 2 * ((if (m + i =? 0)%nat then 1 else 0) + (if (m =? i)%nat then 1 else 0)).
Proof.
  intros H. rewrite (Rsum_map_ext _ (fun k => / 2 * cos (INR (2 * (m + i)) * fej_angle n k) + / 2 * cos (INR (2 * (m - i + (i - m))) * fej_angle n k))).
  - rewrite Rsum_map_plus, !Rsum_map_scal, !fej_sum by lia. destruct (Nat.eqb_spec (m + i) 0), (Nat.eqb_spec (m - i + (i - m)) 0), (Nat.eqb_spec m i); try lia; field.
  - intros k _. rewrite cos_cos. replace (INR (2 * (m + i)) * fej_angle n k) with (INR (2 * m) * fej_angle n k + INR (2 * i) * fej_angle n k) by (rewrite !mult_INR, plus_INR; ring).
    replace (cos (INR (2 * (m - i + (i - m))) * fej_angle n k)) with (cos (INR (2 * m) * fej_angle n k - INR (2 * i) * fej_angle n k)); [field|].
    destruct (le_lt_dec i m).
    + replace (m - i + (i - m))%nat with (m - i)%nat by lia. f_equal. rewrite !mult_INR, minus_INR by lia. ring.
    + replace (m - i + (i - m))%nat with (i - m)%nat by lia. rewrite <- cos_neg. f_equal. rewrite !mult_INR, minus_INR by lia. ring.
Qed.
Lemma fejer1_even n i : (1 <= n)%nat -> (i < n - n / 2)%nat -> angle_sum (fejer1_q n) (fun t => cos (INR (2 * i) * t)) = ccoef i.
Proof.
  intros H Hi. destruct (fej_half n H) as [H1 [H2 H3]]. assert (P : INR n <> 0) by (apply not_0_INR; lia). unfold angle_sum, fejer1_q. rewrite map_map. cbn [fst snd]. unfold fej_w.
  rewrite (Rsum_map_ext _ (fun k => Rsum (map (fun m => 2 * / INR n * fej_c n m * (cos (INR (2 * m) * fej_angle n k) * cos (INR (2 * i) * fej_angle n k))) (seq 0 n)) + -2 / INR n * cos (INR (2 * i) * fej_angle n k))).
  2:{ intros k _. rewrite (Rsum_map_ext (fun m => 2 * / INR n * fej_c n m * (cos (INR (2 * m) * fej_angle n k) * cos (INR (2 * i) * fej_angle n k))) (fun m => (2 * / INR n * cos (INR (2 * i) * fej_angle n k)) * (fej_c n m * cos (INR (2 * m) * fej_angle n k)))) by (intros; ring). rewrite Rsum_map_scal. field. auto. }
  rewrite Rsum_map_plus, Rsum_map_scal, fej_sum by lia. rewrite (Rsum_swap (fun k m => 2 * / INR n * fej_c n m * (cos (INR (2 * m) * fej_angle n k) * cos (INR (2 * i) * fej_angle n k)))).
  rewrite (Rsum_map_ext _ (fun m => (if (m =? i)%nat then fej_c n m else 0) + (if (m =? 0)%nat then if (i =? 0)%nat then fej_c n m else 0 else 0))).
  - rewrite Rsum_map_plus, Rsum_pick, (Rsum_pick 0 n 0 (fun m => if (i =? 0)%nat then fej_c n m else 0)) by lia. rewrite fej_c_0 by auto. unfold fej_c. destruct (Nat.ltb_spec i (n - n / 2)); [|lia]. destruct (i =? 0)%nat; field; auto.
  - intros m Hm. apply in_seq in Hm. rewrite Rsum_map_scal. unfold fej_c. destruct (Nat.ltb_spec m (n - n / 2)).
    + rewrite fej_cos_cos by lia. destruct (Nat.eqb_spec (m + i) 0), (Nat.eqb_spec m i), (Nat.eqb_spec m 0), (Nat.eqb_spec i 0); try lia; field; auto.
    + destruct (m =? i)%nat, (m =? 0)%nat, (i =? 0)%nat; ring.
Qed.
Lemma fej_angle_rev n k : (k < n)%nat -> fej_angle n (n - 1 - k) = PI - fej_angle n k.
Proof. intros H. rewrite !fej_angle_eq. rewrite !minus_INR by lia. cbn [INR]. field. apply not_0_INR. lia. Qed.
Lemma fejer1_odd n i : (1 <= n)%nat -> angle_sum (fejer1_q n) (fun t => cos (INR (2 * i + 1) * t)) = 0.
Proof.
  intros H. unfold angle_sum, fejer1_q. rewrite map_map. cbn [fst snd]. assert (E := Rsum_reverse 0 n (fun k => fej_w n k * cos (INR (2 * i + 1) * fej_angle n k))). cbn beta in E.
  rewrite (Rsum_map_ext (fun k => fej_w n (2 * 0 + n - 1 - k) * cos (INR (2 * i + 1) * fej_angle n (2 * 0 + n - 1 - k))) (fun k => -1 * (fej_w n k * cos (INR (2 * i + 1) * fej_angle n k)))) in E.
  - rewrite Rsum_map_scal in E. lra.
  - intros k Hk. apply in_seq in Hk. replace (2 * 0 + n - 1 - k)%nat with (n - 1 - k)%nat by lia.
    assert (W : fej_w n (n - 1 - k) = fej_w n k).
    { unfold fej_w. do 3 f_equal. apply Rsum_map_ext. intros m _. f_equal. rewrite fej_angle_rev by lia.
      replace (INR (2 * m) * (PI - fej_angle n k)) with (- (INR (2 * m) * fej_angle n k) + 2 * INR m * PI) by (rewrite mult_INR; cbn [INR]; ring). rewrite cos_period. apply cos_neg. }
    rewrite W, fej_angle_rev by lia.
    replace (INR (2 * i + 1) * (PI - fej_angle n k)) with (- (INR (2 * i + 1) * fej_angle n k) + PI + 2 * INR i * PI) by (rewrite plus_INR, mult_INR; cbn [INR]; ring).
    rewrite cos_period, neg_cos, cos_neg. ring.
Qed.
Theorem fejer1_exact n : (1 <= n)%nat -> exact1 (if Nat.odd n then n else n - 1) (map (fun wt => (fst wt, - cos (snd wt))) (fejer1_q n)).
Proof.
  intros H. apply cheb_exact. intros j Hj. destruct (even_odd_cases j) as [[i ->]|[i ->]]; [|rewrite fejer1_odd, cosint_odd by auto; auto].
  rewrite fejer1_even, cosint_even; auto. destruct (even_odd_cases n) as [[m ->]|[m ->]].
  - rewrite Nat.odd_mul in Hj. cbn [Nat.odd Nat.even negb andb] in Hj. rewrite half_even. lia.
  - rewrite half_odd. replace (Nat.odd (2 * m + 1)) with true in Hj by (symmetry; apply Nat.odd_spec; exists m; auto). lia.
Qed.
Theorem fejer1_not_exact n : (2 <= n)%nat -> Nat.even n = true -> ~ exact1 n (map (fun wt => (fst wt, - cos (snd wt))) (fejer1_q n)).
Proof.
  intros H He Hx. apply Nat.even_spec in He. destruct He as [m ->]. assert (P : INR (2 * m) <> 0) by (apply not_0_INR; lia).
  assert (E := cheb_exact_conv _ _ Hx (2 * m)%nat ltac:(lia)). rewrite cosint_even in E. unfold angle_sum, fejer1_q in E. rewrite map_map in E. cbn [fst snd] in E. rewrite Rsum_map_zero in E.
  - unfold ccoef in E. assert (Z := odd_nz m). assert (K : 2 / (1 - 4 * INR m * INR m) <> 0) by (apply Rmult_integral_contrapositive; split; [lra|apply Rinv_neq_0_compat; auto]). lra.
  - intros k _. replace (INR (2 * m) * fej_angle (2 * m) k) with (PI / 2 + INR k * PI) by (rewrite fej_angle_eq; field; auto). rewrite cos_plus, cos_PI2, sin_INR_PI. ring.
Qed.
