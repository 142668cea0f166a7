(** Proofs about sn/_stoyanova.py: exactness of degree 7 for all n and delta. *)
From Coq Require Import Reals List Arith Lia Lra.
From Verif Require Import Spec RsumLemmas CombModel CombProofs IntegralSpec IntegralProofs PyBase SymmModel MiscModel CnModel SchemeTools CnTools CnProofs CnProofs4
  SphereSpec SphereInt RadialInt RadialTools UnModel NsimplexProofs LinForm StoyModel.
Import ListNotations.
Local Notation length := List.length.
Open Scope R_scope.
Set Bullet Behavior "Strict Subproofs".

(* ------------------------------------------------------------------ scalar products *)
Lemma dot_vscale a c : forall x, dot a (vscale c x) = c * dot a x.
Proof. unfold vscale. induction a as [|u a IH]; intros [|v x]; cbn; try ring. rewrite IH. ring. Qed.
Lemma dot_opp a : forall x, dot a (map Ropp x) = - dot a x.
Proof. induction a as [|u a IH]; intros [|v x]; cbn; try ring. rewrite IH. ring. Qed.
Lemma dot_vadd a : forall x y, length x = length y -> dot a (vadd x y) = dot a x + dot a y.
Proof. unfold vadd. induction a as [|u a IH]; intros [|v x] [|w y] H; cbn in *; try lia; try ring. rewrite IH by lia. ring. Qed.
Lemma dot_seq n : forall a x, length a = n -> length x = n -> dot a x = Rsum (map (fun j => coord a j * coord x j) (seq 0 n)).
Proof.
  unfold coord. induction n as [|n IH]; intros [|u a] [|v x] Ha Hx; try discriminate; [reflexivity|]. cbn [dot seq map Rsum nth]. rewrite <- seq_shift, map_map. cbn [nth]. rewrite <- IH by (cbn in *; lia). auto.
Qed.
Lemma delta_sum n f i : (i < n)%nat -> Rsum (map (fun j => f j * NsimplexProofs.delta i j) (seq 0 n)) = f i.
Proof.
  intros H. assert (G : forall s k, Rsum (map (fun j => f j * NsimplexProofs.delta i j) (seq s k)) = if andb (s <=? i) (i <? s + k)%nat then f i else 0).
  { intros s k; revert s. induction k as [|k IH]; intros s; cbn [seq map Rsum].
    - destruct (Nat.leb_spec s i), (Nat.ltb_spec i (s + 0)); cbn; try lia; auto.
    - rewrite IH. unfold NsimplexProofs.delta. destruct (Nat.eqb_spec i s) as [E|Ne]; destruct (Nat.leb_spec (S s) i), (Nat.ltb_spec i (S s + k)), (Nat.leb_spec s i), (Nat.ltb_spec i (s + S k)); cbn; try lia; subst; ring. }
  rewrite G. destruct (Nat.leb_spec 0 i), (Nat.ltb_spec i (0 + n)); cbn; try lia; auto.
Qed.
(* ------------------------------------------------------------------ power sums of the vertices *)
Definition vt (n : nat) (a : point) (r : nat) : R := dot a (nsx_point n r).
Definition psum (t : nat -> R) (m k : nat) : R := Rsum (map (fun r => t r ^ k) (seq 0 m)).
Lemma psum_0 t m : psum t m 0 = INR m.
Proof. unfold psum. rewrite (Rsum_map_ext _ (fun _ => 1)) by auto. rewrite Rsum_map_const, seq_length. ring. Qed.
Lemma vt_sum n a : length a = n -> psum (vt n a) (n + 1) 1 = 0.
Proof.
  intros L. unfold psum. rewrite (Rsum_map_ext _ (fun r => Rsum (map (fun j => coord a j * nsx n r j) (seq 0 n)))).
  - rewrite Rsum_swap. apply Rsum_zero. intros j Hj. apply in_seq in Hj. rewrite Rsum_map_scal. fold (nS1 n j). rewrite nS1_zero by lia. ring.
  - intros r _. unfold vt. rewrite pow_1, (dot_seq n) by auto using nsx_point_length. apply Rsum_map_ext. intros j Hj. apply in_seq in Hj. rewrite coord_nsx by lia. auto.
Qed.
Lemma vt_sum2 n a : (1 <= n)%nat -> length a = n -> psum (vt n a) (n + 1) 2 = (INR n + 1) / INR n * dot a a.
Proof.
  intros Hn L. unfold psum. rewrite (Rsum_map_ext _ (fun r => Rsum (map (fun i => Rsum (map (fun j => coord a i * coord a j * (nsx n r i * nsx n r j)) (seq 0 n))) (seq 0 n)))).
  - rewrite Rsum_swap. rewrite (Rsum_map_ext _ (fun i => (INR n + 1) / INR n * (coord a i * coord a i))).
    + rewrite Rsum_map_scal, <- (dot_seq n) by auto. auto.
    + intros i Hi. apply in_seq in Hi. rewrite Rsum_swap. rewrite (Rsum_map_ext _ (fun j => (coord a i * coord a j * ((INR n + 1) / INR n)) * NsimplexProofs.delta i j)).
      * rewrite (delta_sum n (fun j => coord a i * coord a j * ((INR n + 1) / INR n))) by lia. ring.
      * intros j Hj. apply in_seq in Hj. rewrite Rsum_map_scal. fold (nS2 n i j). rewrite nS2_val by lia. ring.
  - intros r _. unfold vt. rewrite (dot_seq n) by auto using nsx_point_length. replace (_ ^ 2) with (Rsum (map (fun j => coord a j * coord (nsx_point n r) j) (seq 0 n)) * Rsum (map (fun j => coord a j * coord (nsx_point n r) j) (seq 0 n))) by ring.
    rewrite <- Rsum_map_scal_r. apply Rsum_map_ext. intros i Hi. rewrite <- Rsum_map_scal. apply Rsum_map_ext. intros j Hj. apply in_seq in Hi, Hj. rewrite !coord_nsx by lia. ring.
Qed.
(** sums over all pairs and triples *)
Definition dsum (t : nat -> R) (m : nat) (c d : R) (k : nat) : R := Rsum (map (fun i => INR (bin k i) * c ^ i * d ^ (k - i) * psum t m i * psum t m (k - i)) (seq 0 (k + 1))).
Lemma dsum_ok t m c d k : Rsum (map (fun i => Rsum (map (fun j => (c * t i + d * t j) ^ k) (seq 0 m))) (seq 0 m)) = dsum t m c d k.
Proof.
  rewrite (Rsum_map_ext _ (fun i => Rsum (map (fun e => INR (bin k e) * (c * t i) ^ e * (d ^ (k - e) * psum t m (k - e))) (seq 0 (k + 1))))).
  - rewrite Rsum_swap. unfold dsum. apply Rsum_map_ext. intros e _. rewrite (Rsum_map_ext _ (fun i => (INR (bin k e) * c ^ e * (d ^ (k - e) * psum t m (k - e))) * t i ^ e)) by (intros; rewrite Rpow_mult_distr; ring). rewrite Rsum_map_scal. fold (psum t m e). ring.
  - intros i _. rewrite (Rsum_map_ext _ (fun j => Rsum (map (fun e => INR (bin k e) * (c * t i) ^ e * (d * t j) ^ (k - e)) (seq 0 (k + 1))))) by (intros; apply binom_c).
    rewrite Rsum_swap. apply Rsum_map_ext. intros e _. rewrite Rsum_map_scal. f_equal. unfold psum. rewrite <- Rsum_map_scal. apply Rsum_map_ext. intros. apply Rpow_mult_distr.
Qed.
Definition tsum (t : nat -> R) (m k : nat) : R := Rsum (map (fun i => INR (bin k i) * psum t m i * dsum t m 1 1 (k - i)) (seq 0 (k + 1))).
Lemma tsum_ok t m k : Rsum (map (fun h => Rsum (map (fun i => Rsum (map (fun j => (t h + t i + t j) ^ k) (seq 0 m))) (seq 0 m))) (seq 0 m)) = tsum t m k.
Proof.
  unfold tsum. rewrite (Rsum_map_ext _ (fun h => Rsum (map (fun e => (INR (bin k e) * dsum t m 1 1 (k - e)) * t h ^ e) (seq 0 (k + 1))))).
  - rewrite Rsum_swap. apply Rsum_map_ext. intros e _. rewrite Rsum_map_scal. fold (psum t m e). ring.
  - intros h _. rewrite (Rsum_map_ext _ (fun i => Rsum (map (fun e => Rsum (map (fun j => INR (bin k e) * t h ^ e * (1 * t i + 1 * t j) ^ (k - e)) (seq 0 m))) (seq 0 (k + 1))))).
    + rewrite Rsum_swap. apply Rsum_map_ext. intros e _. rewrite <- dsum_ok. rewrite (Rsum_map_ext _ (fun i => INR (bin k e) * t h ^ e * Rsum (map (fun j => (1 * t i + 1 * t j) ^ (k - e)) (seq 0 m)))) by (intros; apply Rsum_map_scal). rewrite Rsum_map_scal. ring.
    + intros i _. rewrite <- Rsum_swap. apply Rsum_map_ext. intros j _. rewrite Rplus_assoc, binom_c. apply Rsum_map_ext. intros e _. do 2 f_equal. ring.
Qed.
Definition tripsum (g : nat -> nat -> nat -> R) (m : nat) : R := Rsum (map (fun i => pairsum (g i) i) (seq 0 m)).
Lemma Rsum_seq_S (f : nat -> R) m : Rsum (map f (seq 0 (S m))) = Rsum (map f (seq 0 m)) + f m.
Proof. rewrite seq_S, map_app, Rsum_app. cbn. ring. Qed.
Lemma tripsum_six g m : (forall i j k, g i j k = g j i k) -> (forall i j k, g i j k = g i k j) ->
  6 * tripsum g m = Rsum (map (fun h => Rsum (map (fun i => Rsum (map (fun j => g h i j) (seq 0 m))) (seq 0 m))) (seq 0 m))
    - 3 * Rsum (map (fun h => Rsum (map (fun i => g h i i) (seq 0 m))) (seq 0 m)) + 2 * Rsum (map (fun h => g h h h) (seq 0 m)).
Proof.
  intros S1 S2. induction m as [|m IH]; [cbn; ring|]. unfold tripsum in *. rewrite !Rsum_seq_S, Rmult_plus_distr_l, IH. clear IH.
  assert (P := pairsum_double (g m) m (S2 m)).
  rewrite (Rsum_map_ext (fun h => Rsum (map (fun i => Rsum (map (fun j => g h i j) (seq 0 (S m)))) (seq 0 (S m)))) (fun h => Rsum (map (fun i => Rsum (map (fun j => g h i j) (seq 0 m))) (seq 0 m)) + Rsum (map (fun i => g m h i) (seq 0 m)) + Rsum (map (fun j => g m h j) (seq 0 m)) + g m m h)).
  2:{ intros h _. rewrite Rsum_seq_S. rewrite (Rsum_map_ext (fun i => Rsum (map (fun j => g h i j) (seq 0 (S m)))) (fun i => Rsum (map (fun j => g h i j) (seq 0 m)) + g m h i)) by (intros i _; rewrite Rsum_seq_S; f_equal; rewrite S2, S1; auto).
      rewrite Rsum_map_plus, Rsum_seq_S. rewrite (Rsum_map_ext (fun j => g h m j) (fun j => g m h j)) by (intros; apply S1). replace (g h m m) with (g m m h) by (rewrite (S2 m m h), (S1 m h m); auto). rewrite !Rplus_assoc. reflexivity. }
  rewrite (Rsum_map_ext (fun h => Rsum (map (fun i => g h i i) (seq 0 (S m)))) (fun h => Rsum (map (fun i => g h i i) (seq 0 m)) + g m m h)).
  2:{ intros h _. rewrite Rsum_seq_S. f_equal. rewrite (S2 m m h), (S1 m h m); auto. }
  rewrite !Rsum_map_plus.
  rewrite (Rsum_map_ext (fun i => Rsum (map (fun j => g m i j) (seq 0 (S m)))) (fun i => Rsum (map (fun j => g m i j) (seq 0 m)) + g m m i)) by (intros i _; rewrite Rsum_seq_S; f_equal; rewrite S2; auto).
  rewrite ?Rsum_map_plus, ?Rsum_seq_S.
  replace (6 * pairsum (g m) m) with (3 * (2 * pairsum (g m) m)) by ring. rewrite P. change (fun j : nat => g m m j) with (g m m). ring.
Qed.

(* ------------------------------------------------------------------ sums over the point lists *)
Definition tot (m : nat) (a : point) (l : list point) : R := Rsum (map (fun x => dot a x ^ m) l).
Lemma tot_app m a l l' : tot m a (l ++ l') = tot m a l + tot m a l'.
Proof. unfold tot. rewrite map_app, Rsum_app. auto. Qed.
Lemma tot_opp m a l : tot m a (with_opposites l) = (1 + (-1) ^ m) * tot m a l.
Proof.
  unfold with_opposites. rewrite tot_app. unfold tot at 2. rewrite map_map, (Rsum_map_ext _ (fun x => (-1) ^ m * dot a x ^ m)).
  - rewrite Rsum_map_scal. fold (tot m a l). ring.
  - intros x _. rewrite dot_opp. replace (- dot a x) with (-1 * dot a x) by ring. apply Rpow_mult_distr.
Qed.
Lemma tot_scale m a c l : tot m a (map (vscale c) l) = c ^ m * tot m a l.
Proof. unfold tot. rewrite map_map, <- Rsum_map_scal. apply Rsum_map_ext. intros x _. rewrite dot_vscale. apply Rpow_mult_distr. Qed.
Lemma tot_pts n m a : tot m a (nsx_pts n) = psum (vt n a) (n + 1) m.
Proof. unfold tot, psum. rewrite pts_as_points, map_map. auto. Qed.
Lemma tot_pair n m a c : tot m a (pair_midpoints c (nsx_pts n)) = c ^ m * pairsum (fun k l => (vt n a k + vt n a l) ^ m) (n + 1).
Proof.
  unfold tot, pair_midpoints. rewrite nsx_pts_len, Rsum_map_flat_map, <- pairsum_scal. unfold pairsum. apply Rsum_map_ext. intros k Hk. rewrite map_map. apply Rsum_map_ext. intros l Hl.
  apply in_seq in Hk, Hl. rewrite !nsx_pts_nth by lia. rewrite dot_vscale, dot_vadd by (rewrite !nsx_point_length; auto). apply Rpow_mult_distr.
Qed.
Lemma tripsum_scal c g m : tripsum (fun i j k => c * g i j k) m = c * tripsum g m.
Proof. unfold tripsum. rewrite <- Rsum_map_scal. apply Rsum_map_ext. intros. apply pairsum_scal. Qed.
Lemma tot_trip n m a c : tot m a (triple_midpoints c (nsx_pts n)) = c ^ m * tripsum (fun i j k => (vt n a i + vt n a j + vt n a k) ^ m) (n + 1).
Proof.
  unfold tot, triple_midpoints. rewrite nsx_pts_len, Rsum_map_flat_map, <- tripsum_scal. unfold tripsum, pairsum. apply Rsum_map_ext. intros i Hi. rewrite Rsum_map_flat_map. apply Rsum_map_ext. intros j Hj.
  rewrite map_map. apply Rsum_map_ext. intros k Hk. apply in_seq in Hi, Hj, Hk. rewrite !nsx_pts_nth by lia. rewrite dot_vscale, !dot_vadd by (rewrite ?vadd_length; rewrite ?nsx_point_length; auto). apply Rpow_mult_distr.
Qed.
Lemma vscale_length c x : length (vscale c x) = length x.
Proof. apply map_length. Qed.
Lemma pairsum_plus f g m : pairsum (fun k l => f k l + g k l) m = pairsum f m + pairsum g m.
Proof. unfold pairsum. rewrite <- Rsum_map_plus. apply Rsum_map_ext. intros. apply Rsum_map_plus. Qed.
Lemma tot_quarter n m a c : tot m a (quarter_points c (nsx_pts n)) = c ^ m * pairsum (fun k l => (vt n a k + 3 * vt n a l) ^ m + (3 * vt n a k + vt n a l) ^ m) (n + 1).
Proof.
  unfold quarter_points. rewrite tot_app, pairsum_plus, Rmult_plus_distr_l. unfold tot. rewrite nsx_pts_len, !Rsum_map_flat_map, <- !pairsum_scal. unfold pairsum.
  f_equal; apply Rsum_map_ext; intros k Hk; rewrite map_map; apply Rsum_map_ext; intros l Hl; apply in_seq in Hk, Hl; rewrite !nsx_pts_nth by lia;
    rewrite dot_vscale, dot_vadd by (rewrite ?vscale_length, !nsx_point_length; auto); rewrite dot_vscale; apply Rpow_mult_distr.
Qed.
(** values in terms of the power sums *)
Lemma pair_val t m k : 2 * pairsum (fun i j => (t i + t j) ^ k) m = dsum t m 1 1 k - 2 ^ k * psum t m k.
Proof.
  rewrite pairsum_double by (intros; f_equal; ring). rewrite <- dsum_ok. unfold psum. rewrite <- Rsum_map_scal. f_equal.
  - apply Rsum_map_ext. intros i _. apply Rsum_map_ext. intros j _. f_equal. ring.
  - apply Rsum_map_ext. intros i _. rewrite <- Rpow_mult_distr. f_equal. ring.
Qed.
Lemma quarter_val t m k : pairsum (fun i j => (t i + 3 * t j) ^ k + (3 * t i + t j) ^ k) m = dsum t m 1 3 k - 4 ^ k * psum t m k.
Proof.
  apply (Rmult_eq_reg_l 2); [|lra]. rewrite pairsum_double by (intros; rewrite Rplus_comm; f_equal; f_equal; ring).
  rewrite (Rsum_map_ext _ (fun i => Rsum (map (fun j => (1 * t i + 3 * t j) ^ k) (seq 0 m)) + Rsum (map (fun j => (3 * t i + 1 * t j) ^ k) (seq 0 m)))).
  2:{ intros i _. rewrite Rsum_map_plus. f_equal; apply Rsum_map_ext; intros; f_equal; ring. }
  rewrite Rsum_map_plus, dsum_ok. rewrite (Rsum_swap (fun i j => (3 * t i + 1 * t j) ^ k)). rewrite (Rsum_map_ext (fun b => Rsum (map (fun a => (3 * t a + 1 * t b) ^ k) (seq 0 m))) (fun i => Rsum (map (fun j => (1 * t i + 3 * t j) ^ k) (seq 0 m)))).
  2:{ intros i _. apply Rsum_map_ext. intros j _. f_equal. ring. }
  rewrite dsum_ok. rewrite (Rsum_map_ext (fun k0 => (t k0 + 3 * t k0) ^ k + (3 * t k0 + t k0) ^ k) (fun i => (2 * 4 ^ k) * t i ^ k)).
  2:{ intros i _. replace (t i + 3 * t i) with (4 * t i) by ring. replace (3 * t i + t i) with (4 * t i) by ring. rewrite Rpow_mult_distr. ring. }
  rewrite Rsum_map_scal. fold (psum t m k). ring.
Qed.
Lemma trip_val t m k : 6 * tripsum (fun i j l => (t i + t j + t l) ^ k) m = tsum t m k - 3 * dsum t m 1 2 k + 2 * 3 ^ k * psum t m k.
Proof.
  rewrite tripsum_six by (intros; f_equal; ring). rewrite tsum_ok. f_equal; [f_equal; f_equal; rewrite <- dsum_ok|].
  - apply Rsum_map_ext. intros i _. apply Rsum_map_ext. intros j _. f_equal. ring.
  - unfold psum. rewrite Rmult_assoc. f_equal. rewrite <- Rsum_map_scal. apply Rsum_map_ext. intros i _. rewrite <- Rpow_mult_distr. f_equal. ring.
Qed.
Lemma dsum_vals t m M p2 p3 p4 p5 p6 p7 c d : psum t m 0 = M -> psum t m 1 = 0 -> psum t m 2 = p2 -> psum t m 3 = p3 -> psum t m 4 = p4 -> psum t m 5 = p5 -> psum t m 6 = p6 -> psum t m 7 = p7 ->
  dsum t m c d 0 = M * M /\ dsum t m c d 1 = 0 /\ dsum t m c d 2 = M * (c ^ 2 + d ^ 2) * p2 /\ dsum t m c d 3 = M * (c ^ 3 + d ^ 3) * p3 /\
  dsum t m c d 4 = M * (c ^ 4 + d ^ 4) * p4 + 6 * c ^ 2 * d ^ 2 * p2 ^ 2 /\ dsum t m c d 5 = M * (c ^ 5 + d ^ 5) * p5 + 10 * (c ^ 3 * d ^ 2 + c ^ 2 * d ^ 3) * p3 * p2 /\
  dsum t m c d 6 = M * (c ^ 6 + d ^ 6) * p6 + 15 * (c ^ 4 * d ^ 2 + c ^ 2 * d ^ 4) * p4 * p2 + 20 * c ^ 3 * d ^ 3 * p3 ^ 2 /\
  dsum t m c d 7 = M * (c ^ 7 + d ^ 7) * p7 + 21 * (c ^ 5 * d ^ 2 + c ^ 2 * d ^ 5) * p5 * p2 + 35 * (c ^ 4 * d ^ 3 + c ^ 3 * d ^ 4) * p4 * p3.
Proof.
  intros H0 H1 H2 H3 H4 H5 H6 H7. unfold dsum.
  repeat split; cbn [seq map Rsum Nat.add Nat.sub bin]; rewrite ?H0, ?H1, ?H2, ?H3, ?H4, ?H5, ?H6, ?H7; cbn [INR]; ring.
Qed.
Lemma tsum_vals t m M p2 p3 p4 p5 p6 p7 : psum t m 0 = M -> psum t m 1 = 0 -> psum t m 2 = p2 -> psum t m 3 = p3 -> psum t m 4 = p4 -> psum t m 5 = p5 -> psum t m 6 = p6 -> psum t m 7 = p7 ->
  tsum t m 0 = M ^ 3 /\ tsum t m 1 = 0 /\ tsum t m 2 = 3 * M ^ 2 * p2 /\ tsum t m 3 = 3 * M ^ 2 * p3 /\ tsum t m 4 = 3 * M ^ 2 * p4 + 18 * M * p2 ^ 2 /\
  tsum t m 5 = 3 * M ^ 2 * p5 + 60 * M * p3 * p2 /\ tsum t m 6 = 3 * M ^ 2 * p6 + 90 * M * p4 * p2 + 60 * M * p3 ^ 2 + 90 * p2 ^ 3 /\
  tsum t m 7 = 3 * M ^ 2 * p7 + 126 * M * p5 * p2 + 210 * M * p4 * p3 + 630 * p3 * p2 ^ 2.
Proof.
  intros H0 H1 H2 H3 H4 H5 H6 H7. destruct (dsum_vals t m M p2 p3 p4 p5 p6 p7 1 1) as [D0 [D1 [D2 [D3 [D4 [D5 [D6 D7]]]]]]]; auto. unfold tsum.
  repeat split; cbn [seq map Rsum Nat.add Nat.sub bin]; rewrite ?H0, ?H1, ?H2, ?H3, ?H4, ?H5, ?H6, ?H7, ?D0, ?D1, ?D2, ?D3, ?D4, ?D5, ?D6, ?D7; cbn [INR]; ring.
Qed.
(* ------------------------------------------------------------------ the coefficients *)
Definition den (N : R) : R := (N + 6) * (N + 4) * (N + 2) * (N + 1) ^ 2.
Definition a1N (N : R) : R := N ^ 3 * (9 * N ^ 2 - 793 * N + 1800) / (18 * den N).
Definition b1N (N : R) : R := - 4 * N * (N - 1) ^ 3 * (N - 4) / den N.
Definition c1N (N : R) : R := 9 * N * (N - 1) * (N - 2) ^ 3 / (2 * den N).
Definition e1N (N : R) : R := 4 * N * (5 * N - 3) ^ 3 / (9 * den N).
Lemma q2_val N : stoy_q2 N = N * (N + 1) ^ 5 * (N - 3) * (N - 4).
Proof. unfold stoy_q2. cbv zeta. ring. Qed.
Lemma q1_val N : stoy_q1 N = 9 * N * (N - 2) ^ 2 * stoy_q2 N.
Proof. unfold stoy_q1, stoy_q2. cbv zeta. ring. Qed.
Lemma den_nz N : 5 <= N -> den N <> 0.
Proof. intros H. unfold den. repeat apply Rmult_integral_contrapositive_currified; lra. Qed.
Lemma coeffs_val N : 5 <= N -> stoy_coeffs N = Some (a1N N, b1N N, c1N N, e1N N).
Proof.
  intros H. assert (Q : stoy_q2 N <> 0). { rewrite q2_val. repeat apply Rmult_integral_contrapositive_currified; lra. }
  unfold stoy_coeffs. cbv zeta. rewrite q1_val. set (q := stoy_q2 N) in *. clearbody q.
  assert (K : forall x, x <> 0 -> (N + 1) * (N + 6) * ((N + 1) * (N + 2) * (N + 4)) * x <> 0) by (intros; repeat apply Rmult_integral_contrapositive_currified; lra).
  rewrite rdiv_ok; [cbn [bind]|].
  2:{ rewrite !Rmult_assoc. rewrite <- !Rmult_assoc. repeat apply Rmult_integral_contrapositive_currified; lra. }
  rewrite rdiv_ok; [cbn [bind]|]. 2: repeat apply Rmult_integral_contrapositive_currified; lra.
  rewrite rdiv_ok; [cbn [bind]|]. 2: repeat apply Rmult_integral_contrapositive_currified; lra.
  rewrite rdiv_ok by lra. cbn [bind]. f_equal. unfold a1N, b1N, c1N, e1N, den.
  assert (B : forall s, s <> 0 -> 2 * (N - 1) * (3 * (N + 1) * (N ^ 2 + 4 * N - 8) * (N * (N - 1)) * q - (N - 1) * (N - 3) * (9 * N * (N - 2) ^ 2 * q) - 36 * (N - 1) ^ 2 * (N * (N - 1)) * q) / (s * (3 * (N - 2)) * q)
     = 2 * (N - 1) * (N * (N - 1) * - 6 * (N - 1) * (N - 2) * (N - 4)) / (s * (3 * (N - 2)))) by (intros; field; repeat split; lra).
  rewrite B by (repeat apply Rmult_integral_contrapositive_currified; lra).
  f_equal; [f_equal; [f_equal|]|]; field; repeat split; lra.
Qed.
Lemma bind_div_inv {B} a b (f : R -> option B) s : bind (rdiv a b) f = Some s -> b <> 0 /\ f (a / b) = Some s.
Proof. unfold rdiv. destruct (Req_EM_T b 0); cbn [bind]; [discriminate|auto]. Qed.
Lemma bind_sqrt_inv {B} x (f : R -> option B) s : bind (rsqrt x) f = Some s -> 0 <= x /\ f (sqrt x) = Some s.
Proof. unfold rsqrt. destruct (Rle_dec 0 x); cbn [bind]; [auto|discriminate]. Qed.
Lemma guard_inv {A} b (f : option A) s : guard b f = Some s -> b = true /\ f = Some s.
Proof. destruct b; cbn; [auto|discriminate]. Qed.
(** What u, v, w satisfy: the equations of the degrees 4 and 2. *)
Lemma uvw_eqs N delta plus a1 b1 c1 e1 u v w : 5 <= N -> stoy_uvw N delta plus a1 b1 c1 e1 = Some (u, v, w) ->
  delta <> 0 /\ a1 <> 0 /\ c1 <> 0 /\
  a1 * u ^ 2 + b1 * v ^ 2 + c1 * w ^ 2 + e1 * (/ delta ^ 2) ^ 2 = N / (N + 2) /\
  a1 * u = N * (3 * (N - 2) * (3 * N ^ 2 / ((N + 2) * (N + 4)) - e1 * (41 * N ^ 3 - 101 * N ^ 2 + 155 * N - 87) / (2 * (5 * N - 3) ^ 2) * / delta ^ 2) - (N ^ 2 - 7 * N + 19) * (N / (N + 4) - e1 * / delta ^ 2)) / (2 * (N - 3) * (N + 1) ^ 2) - N * (N - 4) * b1 / (4 * ((N - 1) * (N - 3))) * v /\
  c1 * w = 3 * (N - 2) * ((3 * N ^ 2 / ((N + 2) * (N + 4)) - e1 * (41 * N ^ 3 - 101 * N ^ 2 + 155 * N - 87) / (2 * (5 * N - 3) ^ 2) * / delta ^ 2) * (2 * (N - 3) * (N + 1) ^ 2 - (N ^ 2 - N + 1) * (3 * (N - 2))) + (N ^ 2 - 7 * N + 19) * (N ^ 2 - N + 1) * (N / (N + 4) - e1 * / delta ^ 2)) / ((N ^ 2 - 7 * N + 19) * (2 * (N - 3) * (N + 1) ^ 2))
     - (N ^ 3 - 9 * N ^ 2 + 33 * N - 38) * (3 * (N - 2)) * b1 / (4 * ((N - 1) * (N - 3)) * (N ^ 2 - 7 * N + 19)) * v.
Proof.
  intros H E. assert (S13 : 0 < N ^ 2 - 7 * N + 19) by nra. unfold stoy_uvw in E. cbv zeta in E.
  apply bind_div_inv in E. destruct E as [_ E]. apply bind_div_inv in E. destruct E as [D4 E]. assert (D : delta <> 0) by (intros ->; apply D4; ring).
  apply bind_div_inv in E. destruct E as [_ E]. apply bind_div_inv in E. destruct E as [_ E].
  apply bind_div_inv in E. destruct E as [_ E]. apply bind_div_inv in E. destruct E as [_ E].
  set (y1 := N / (N + 2) - e1 / delta ^ 4) in *. set (y2 := N / (N + 4) - e1 / delta ^ 2) in *. match type of E with context [3 * N ^ 2 / ?a - ?b] => set (y3 := 3 * N ^ 2 / a - b) in * end.
  apply bind_div_inv in E. destruct E as [C E]. match type of E with context [c1 * (?a / ?b) ^ 2] => set (w0 := a / b) in * end.
  apply bind_div_inv in E. destruct E as [A E]. match type of E with context [a1 * (?a / ?b) ^ 2] => set (u0 := a / b) in * end.
  apply bind_div_inv in E. destruct E as [_ E]. match type of E with context [a1 * (?a / ?b) ^ 2] => set (p1 := a / b) in * end.
  apply bind_div_inv in E. destruct E as [_ E]. match type of E with context [c1 * (?a / ?b) ^ 2] => set (p2 := a / b) in * end.
  apply bind_sqrt_inv in E. destruct E as [P E].
  assert (NA : a1 <> 0) by (intros ->; apply A; ring). assert (NC : c1 <> 0) by (intros ->; apply C; ring).
  set (d1 := a1 * p1 ^ 2 + c1 * p2 ^ 2 + b1) in *. set (d2 := a1 * p1 * u0 + c1 * p2 * w0) in *. set (d3 := a1 * u0 ^ 2 + c1 * w0 ^ 2 - y1) in *.
  assert (V : d1 * v ^ 2 - 2 * d2 * v + d3 = 0 /\ u = u0 - p1 * v /\ w = w0 - p2 * v).
  { assert (Q := sqrt_sqrt _ P). set (s := sqrt (d2 ^ 2 - d1 * d3)) in *. clearbody s.
    destruct plus; apply bind_div_inv in E; destruct E as [D1 E]; injection E as <- <- <-; repeat split; clearbody d1 d2 d3.
    - apply (Rmult_eq_reg_l d1); auto. rewrite Rmult_0_r. transitivity (s * s - d2 ^ 2 + d1 * d3); [field; auto | rewrite Q; ring].
    - apply (Rmult_eq_reg_l d1); auto. rewrite Rmult_0_r. transitivity (s * s - d2 ^ 2 + d1 * d3); [field; auto | rewrite Q; ring]. }
  clear E. destruct V as [V [-> ->]]. repeat split; auto.
  - transitivity (d1 * v ^ 2 - 2 * d2 * v + d3 + (N / (N + 2) - e1 / delta ^ 4) + e1 * (/ delta ^ 2) ^ 2); [unfold d1, d2, d3, y1; ring|]. rewrite V. unfold Rdiv. rewrite pow_inv, <- pow_mult. cbn [Nat.mul Nat.add]. ring.
  - unfold u0, p1, y3, y2. field. repeat split; lra.
  - unfold w0, p2, y3, y2. field. repeat split; lra.
Qed.
(** The identities of the degrees 4 and 6. *)
Lemma E4_id N b1 e1 A v C z p2 p4 : 5 <= N ->
  A = N * (3 * (N - 2) * (3 * N ^ 2 / ((N + 2) * (N + 4)) - e1 * (41 * N ^ 3 - 101 * N ^ 2 + 155 * N - 87) / (2 * (5 * N - 3) ^ 2) * z) - (N ^ 2 - 7 * N + 19) * (N / (N + 4) - e1 * z)) / (2 * (N - 3) * (N + 1) ^ 2) - N * (N - 4) * b1 / (4 * ((N - 1) * (N - 3))) * v ->
  C = 3 * (N - 2) * ((3 * N ^ 2 / ((N + 2) * (N + 4)) - e1 * (41 * N ^ 3 - 101 * N ^ 2 + 155 * N - 87) / (2 * (5 * N - 3) ^ 2) * z) * (2 * (N - 3) * (N + 1) ^ 2 - (N ^ 2 - N + 1) * (3 * (N - 2))) + (N ^ 2 - 7 * N + 19) * (N ^ 2 - N + 1) * (N / (N + 4) - e1 * z)) / ((N ^ 2 - 7 * N + 19) * (2 * (N - 3) * (N + 1) ^ 2))
     - (N ^ 3 - 9 * N ^ 2 + 33 * N - 38) * (3 * (N - 2)) * b1 / (4 * ((N - 1) * (N - 3)) * (N ^ 2 - 7 * N + 19)) * v ->
  let M := N + 1 in
  A / M * p4 + b1 * v * (N / (2 * (N - 1))) ^ 2 / (M * N) * (2 * M * p4 + 6 * p2 ^ 2 - 16 * p4)
  + C * (N / (3 * (N - 2))) ^ 2 / (M * N * (N - 1)) * (3 * M ^ 2 * p4 + 18 * M * p2 ^ 2 - 3 * (M * 17 * p4 + 24 * p2 ^ 2) + 162 * p4)
  + e1 * z * (N / (10 * N - 6)) ^ 2 / (M * N) * (M * 82 * p4 + 54 * p2 ^ 2 - 256 * p4)
  = 3 / ((N + 2) * (N + 4)) * (N / M * p2) ^ 2.
Proof.
  intros H -> ->. cbv zeta. assert (S13 : 0 < N ^ 2 - 7 * N + 19) by nra. field. repeat split; lra.
Qed.
Lemma E6_id N p2 p3 p4 p6 : 5 <= N -> let M := N + 1 in
  a1N N / M * p6 + b1N N * (N / (2 * (N - 1))) ^ 3 / (M * N) * (2 * M * p6 + 30 * p4 * p2 + 20 * p3 ^ 2 - 64 * p6)
  + c1N N * (N / (3 * (N - 2))) ^ 3 / (M * N * (N - 1)) * (3 * M ^ 2 * p6 + 90 * M * p4 * p2 + 60 * M * p3 ^ 2 + 90 * p2 ^ 3 - 3 * (M * 65 * p6 + 300 * p4 * p2 + 160 * p3 ^ 2) + 1458 * p6)
  + e1N N * (N / (10 * N - 6)) ^ 3 / (M * N) * (M * 730 * p6 + 1350 * p4 * p2 + 540 * p3 ^ 2 - 4096 * p6)
  = 15 / ((N + 2) * (N + 4) * (N + 6)) * (N / M * p2) ^ 3.
Proof. intros H. cbv zeta. unfold a1N, b1N, c1N, e1N, den. field. repeat split; lra. Qed.
(* ------------------------------------------------------------------ the rule *)
Lemma tot_0 a l : tot 0 a l = INR (length l).
Proof. unfold tot. rewrite (Rsum_map_ext _ (fun _ => 1)) by auto. rewrite Rsum_map_const. apply Rmult_1_r. Qed.
Lemma odd_sign m : Nat.odd m = true -> 1 + (-1) ^ m = 0.
Proof.
  intros H. apply Nat.odd_spec in H. destruct H as [j ->]. rewrite pow_add, pow_mult. replace ((-1) ^ 2) with 1 by ring. rewrite pow1. ring.
Qed.
Lemma even_sign m : Nat.odd m = false -> 1 + (-1) ^ m = 2.
Proof.
  intros H. destruct (Nat.Even_or_Odd m) as [[j ->]|O]; [|apply Nat.odd_spec in O; congruence]. rewrite pow_mult. replace ((-1) ^ 2) with 1 by ring. rewrite pow1. ring.
Qed.
Lemma six_vertices_odd (t : nat -> R) m : (m <= 7)%nat -> Nat.odd m = true -> psum t 6 1 = 0 -> tripsum (fun i j k => (t i + t j + t k) ^ m) 6 = 0.
Proof.
  intros Hm Om S. unfold tripsum, pairsum. unfold psum in S. cbn [seq map Rsum] in *.
  assert (F : forall x y, x + y = 0 -> x ^ m + y ^ m = 0).
  { intros x y Hxy. replace y with (-1 * x) by lra. rewrite Rpow_mult_distr. assert (O := odd_sign m Om). replace ((-1) ^ m) with (-1) by lra. ring. }
  assert (F1 := F (t 2%nat + t 1%nat + t 0%nat) (t 5%nat + t 4%nat + t 3%nat) ltac:(lra)).
  assert (F2 := F (t 3%nat + t 1%nat + t 0%nat) (t 5%nat + t 4%nat + t 2%nat) ltac:(lra)).
  assert (F3 := F (t 3%nat + t 2%nat + t 0%nat) (t 5%nat + t 4%nat + t 1%nat) ltac:(lra)).
  assert (F4 := F (t 3%nat + t 2%nat + t 1%nat) (t 5%nat + t 4%nat + t 0%nat) ltac:(lra)).
  assert (F5 := F (t 4%nat + t 1%nat + t 0%nat) (t 5%nat + t 3%nat + t 2%nat) ltac:(lra)).
  assert (F6 := F (t 4%nat + t 2%nat + t 0%nat) (t 5%nat + t 3%nat + t 1%nat) ltac:(lra)).
  assert (F7 := F (t 4%nat + t 2%nat + t 1%nat) (t 5%nat + t 3%nat + t 0%nat) ltac:(lra)).
  assert (F8 := F (t 4%nat + t 3%nat + t 0%nat) (t 5%nat + t 2%nat + t 1%nat) ltac:(lra)).
  assert (F9 := F (t 4%nat + t 3%nat + t 1%nat) (t 5%nat + t 2%nat + t 0%nat) ltac:(lra)).
  assert (F10 := F (t 4%nat + t 3%nat + t 2%nat) (t 5%nat + t 1%nat + t 0%nat) ltac:(lra)).
  clear F. lra.
Qed.
Lemma sqrt_even x j : 0 <= x -> sqrt x ^ (2 * j) = x ^ j.
Proof. intros H. rewrite pow_mult. f_equal. replace (sqrt x ^ 2) with (sqrt x * sqrt x) by ring. apply sqrt_sqrt; auto. Qed.
Definition trip_pts (n : nat) (cc : R) : list point := if (5 <? n)%nat then with_opposites (triple_midpoints cc (nsx_pts n)) else triple_midpoints cc (nsx_pts n).
(** the four classes of points *)
Definition trip6 (n : nat) (a : point) (m : nat) : R := 6 * tripsum (fun i j k => (vt n a i + vt n a j + vt n a k) ^ m) (n + 1).
Lemma trip_sum n a cc m : (5 <= n)%nat -> length a = n -> (m <= 7)%nat -> 0 < INR (length (trip_pts n cc)) /\
  tot m a (trip_pts n cc) = if Nat.odd m then 0 else INR (length (trip_pts n cc)) / ((INR n + 1) * INR n * (INR n - 1)) * (cc ^ m * trip6 n a m).
Proof.
  intros Hn La Hm. assert (N5 : 5 <= INR n) by (replace 5 with (INR 5) by (cbn; lra); apply le_INR; auto).
  assert (L : tot 0 a (trip_pts n cc) = INR (length (trip_pts n cc))) by apply tot_0. unfold trip_pts in *.
  assert (T0 : trip6 n a 0 = (INR n + 1) * INR n * (INR n - 1)).
  { unfold trip6. rewrite trip_val. unfold tsum, dsum. cbn [Nat.add seq map Rsum Nat.sub bin]. rewrite !psum_0, plus_INR. cbn [INR]. ring. }
  destruct (Nat.ltb_spec 5 n) as [Hl|Hl].
  - rewrite tot_opp in *. rewrite tot_trip in *. rewrite <- L. cbn [pow]. replace (tripsum (fun _ _ _ : nat => 1) (n + 1)) with (trip6 n a 0 / 6) by (unfold trip6; cbn [pow]; field). rewrite T0.
    split; [nra|]. destruct (Nat.odd m) eqn:Om; [rewrite odd_sign by auto; ring|]. rewrite even_sign by auto. unfold trip6. field. repeat split; lra.
  - assert (E : n = 5%nat) by lia. rewrite tot_trip in *. rewrite <- L. cbn [pow]. replace (tripsum (fun _ _ _ : nat => 1) (n + 1)) with (trip6 n a 0 / 6) by (unfold trip6; cbn [pow]; field). rewrite T0.
    split; [nra|]. destruct (Nat.odd m) eqn:Om; [|unfold trip6; field; repeat split; lra].
    clear L T0 Hn N5 Hl. rewrite E in *. clear E. change (5 + 1)%nat with 6%nat. rewrite (six_vertices_odd (vt 5 a) m Hm Om (vt_sum 5 a La)). ring.
Qed.
Lemma some_inj {A} (x y : A) : Some x = Some y -> x = y.
Proof. congruence. Qed.
Lemma class_term A len u T j : u <> 0 -> 0 <= 1 / u -> (j <= 3)%nat -> A / len / (1 / u) ^ 3 * (sqrt (1 / u) ^ (2 * j) * T) = A * u ^ (3 - j) * (T / len).
Proof.
  intros U P J. rewrite sqrt_even by auto. unfold Rdiv at 1 2 5. set (L := / len). clearbody L. destruct j as [|[|[|[|j]]]]; [| | | |lia]; cbn [Nat.sub]; field; auto.
Qed.
Lemma class_term_d A len d T j : d <> 0 -> (j <= 3)%nat -> A / len / (d ^ 2) ^ 3 * (d ^ (2 * j) * T) = A * (/ d ^ 2) ^ (3 - j) * (T / len).
Proof.
  intros U J. rewrite pow_mult. unfold Rdiv. set (L := / len). clearbody L.
  assert (d ^ 2 <> 0) by (apply pow_nonzero; auto). set (q := d ^ 2) in *. clearbody q. destruct j as [|[|[|[|j]]]]; [| | | |lia]; cbn [Nat.sub]; field; auto.
Qed.
Lemma tot_origin m a n : (1 <= m)%nat -> tot m a (Rz n) = 0.
Proof.
  intros H. unfold Rz, z, tot. cbn [map Rsum]. rewrite Rplus_0_r. replace (dot a (repeat 0 n)) with 0; [apply pow_i; lia|]. symmetry. revert a. induction n as [|n IH]; intros [|u a]; cbn; auto. rewrite IH. ring.
Qed.
Lemma trip_dim n c : Forall (fun p => length p = n) (trip_pts n c).
Proof.
  assert (T : Forall (fun p => length p = n) (triple_midpoints c (nsx_pts n))).
  { apply Forall_forall. intros p Hp. unfold triple_midpoints in Hp. rewrite nsx_pts_len in Hp. apply in_flat_map in Hp. destruct Hp as [i [Hi Hp]]. apply in_flat_map in Hp. destruct Hp as [j [Hj Hp]]. apply in_map_iff in Hp. destruct Hp as [k [<- Hk]].
    apply in_seq in Hi, Hj, Hk. rewrite !nsx_pts_nth by lia. rewrite vscale_length, !vadd_length; rewrite ?vadd_length; rewrite ?nsx_point_length; auto. }
  unfold trip_pts. destruct (5 <? n)%nat; auto. unfold with_opposites. apply Forall_app. split; auto using opp_dim.
Qed.
Lemma quarter_dim n c : Forall (fun p => length p = n) (quarter_points c (nsx_pts n)).
Proof.
  unfold quarter_points. rewrite nsx_pts_len. apply Forall_app. split; apply Forall_forall; intros p Hp; apply in_flat_map in Hp; destruct Hp as [i [Hi Hp]]; apply in_map_iff in Hp; destruct Hp as [j [<- Hj]];
    apply in_seq in Hi, Hj; rewrite !nsx_pts_nth by lia; rewrite vscale_length, !vadd_length; rewrite ?vscale_length, ?nsx_point_length; auto.
Qed.
Lemma vscale_dim n c l : Forall (fun p : point => length p = n) l -> Forall (fun p : point => length p = n) (map (vscale c) l).
Proof. intros H. apply Forall_map. eapply Forall_impl; [|exact H]. intros p Hp. cbn beta in *. unfold vscale. rewrite map_length. auto. Qed.
Lemma with_opposites_dim n l : Forall (fun p => length p = n) l -> Forall (fun p => length p = n) (with_opposites l).
Proof. intros H. unfold with_opposites. apply Forall_app. split; auto using opp_dim. Qed.
Theorem stoy_exact n delta plus s : stoyanova n delta plus = Some s -> (5 <= n)%nat /\ s_dim s = n /\ s_degree s = 7%nat /\ exact n 7 (ballI n) (s_rule s).
Proof.
  unfold stoyanova. intros E. apply guard_inv in E. destruct E as [Hn E]. apply Nat.leb_le in Hn. split; auto. cbv zeta in E.
  assert (N5 : 5 <= INR n) by (replace 5 with (INR 5) by (cbn; lra); apply le_INR; auto).
  set (dl := match delta with Some d => d | None => stoyanova_delta n plus end) in *. clearbody dl.
  rewrite nsimplex_run in E. cbn [bind] in E.
  apply bind_div_inv in E. destruct E as [_ E]. apply bind_sqrt_inv in E. destruct E as [Pb E].
  apply bind_div_inv in E. destruct E as [_ E]. apply bind_sqrt_inv in E. destruct E as [Pc E].
  apply bind_div_inv in E. destruct E as [_ E]. apply bind_sqrt_inv in E. destruct E as [Pe E].
  fold (trip_pts n (sqrt (INR n / (3 * (INR n - 2))))) in E.
  apply guard_inv in E. destruct E as [G1 E]. apply guard_inv in E. destruct E as [G2 E]. apply guard_inv in E. destruct E as [G3 E]. apply guard_inv in E. destruct E as [G4 E].
  apply Nat.eqb_eq in G1, G2, G3, G4. rewrite coeffs_val in E by auto. cbn [bind] in E.
  apply bind_inv in E. destruct E as [[[u v] w] [Uvw E]]. apply uvw_eqs in Uvw; auto. destruct Uvw as [D [A [C [E2 [E4a E4c]]]]].
  apply bind_div_inv in E. destruct E as [U E]. apply bind_div_inv in E. destruct E as [V E]. apply bind_div_inv in E. destruct E as [W E].
  apply bind_div_inv in E. destruct E as [_ E]. apply bind_div_inv in E. destruct E as [_ E]. apply bind_div_inv in E. destruct E as [_ E]. apply bind_div_inv in E. destruct E as [_ E].
  apply bind_sqrt_inv in E. destruct E as [Pu E]. apply bind_sqrt_inv in E. destruct E as [Pv E]. apply bind_sqrt_inv in E. destruct E as [Pw E].
  apply some_inj in E. subst s. cbn [from_data s_dim s_degree s_rule]. split; [auto|split;[auto|]].
  apply (exact_by_forms n 7 (ballI n) (h_ball n)); [lia | intros; apply ballI_val; auto | | ].
  { unfold points_in_dim. rewrite mk_rule_untangle. apply Forall_forall. intros wp Hw. apply in_flat_map in Hw. destruct Hw as [g [Hg Hw]]. apply in_map_iff in Hw. destruct Hw as [p [<- Hp]]. cbn [snd].
    assert (Q : Forall (fun p => length p = n) (snd g)); [|rewrite Forall_forall in Q; auto]. clear Hp p.
    destruct Hg as [<-|[<-|[<-|[<-|[<-|[]]]]]]; cbn [snd]; [apply vscale_dim; auto using with_opposites_dim, nsx_pts_dim, pair_dim, trip_dim, quarter_dim..|].
    constructor; [apply repeat_length|constructor]. }
  intros a m La Hm. rewrite apply_untangle. unfold data_sum. cbn [map Rsum fst snd].
  repeat match goal with |- context [Rsum (map (fun x => dot a x ^ m) ?l)] => change (Rsum (map (fun x => dot a x ^ m) l)) with (tot m a l) end.
  rewrite !tot_scale.
  destruct (trip_sum n a (sqrt (INR n / (3 * (INR n - 2)))) m Hn La Hm) as [L3 T3].
  rewrite <- G1, <- G2, <- G3, <- G4. destruct m as [|m].
  { rewrite !tot_0. cbn [pow]. change (length (Rz n)) with 1%nat. change (0 / 2)%nat with 0%nat. unfold gform, h_ball, mu1. cbn [rise Nat.odd Nat.even negb df pow INR].
    change (0 / 2)%nat with 0%nat. rewrite Rinv_1, pow_O. ring. }
  rewrite tot_origin by lia. destruct (Nat.odd (S m)) eqn:Om.
  { rewrite !tot_opp, T3, odd_sign by auto. unfold gform, mu1. rewrite Om. ring. }
  rewrite Rmult_0_r, !Rplus_0_r.
  assert (T1 : tot (S m) a (with_opposites (nsx_pts n)) / INR (length (with_opposites (nsx_pts n))) = psum (vt n a) (n + 1) (S m) / (INR n + 1)).
  { rewrite tot_opp, tot_pts, even_sign, G1, mult_INR, plus_INR by auto. cbn [INR]. field. lra. }
  assert (T2 : tot (S m) a (with_opposites (pair_midpoints (sqrt (INR n / (2 * (INR n - 1)))) (nsx_pts n))) / INR (length (with_opposites (pair_midpoints (sqrt (INR n / (2 * (INR n - 1)))) (nsx_pts n))))
    = sqrt (INR n / (2 * (INR n - 1))) ^ (S m) / ((INR n + 1) * INR n) * (dsum (vt n a) (n + 1) 1 1 (S m) - 2 ^ (S m) * psum (vt n a) (n + 1) (S m))).
  { rewrite tot_opp, tot_pair, even_sign, G2, mult_INR, plus_INR, <- pair_val by auto. change (INR 1) with 1. field. lra. }
  assert (T4 : tot (S m) a (with_opposites (quarter_points (sqrt (INR n / (10 * INR n - 6))) (nsx_pts n))) / INR (length (with_opposites (quarter_points (sqrt (INR n / (10 * INR n - 6))) (nsx_pts n))))
    = sqrt (INR n / (10 * INR n - 6)) ^ (S m) / ((INR n + 1) * INR n) * (dsum (vt n a) (n + 1) 1 3 (S m) - 4 ^ (S m) * psum (vt n a) (n + 1) (S m))).
  { rewrite tot_opp, tot_quarter, even_sign, G4, !mult_INR, plus_INR, <- quarter_val by auto. change (INR 1) with 1. change (INR 2) with 2. field. lra. }
  assert (T3' : tot (S m) a (trip_pts n (sqrt (INR n / (3 * (INR n - 2))))) / INR (length (trip_pts n (sqrt (INR n / (3 * (INR n - 2))))))
    = sqrt (INR n / (3 * (INR n - 2))) ^ (S m) / ((INR n + 1) * INR n * (INR n - 1)) * (tsum (vt n a) (n + 1) (S m) - 3 * dsum (vt n a) (n + 1) 1 2 (S m) + 2 * 3 ^ (S m) * psum (vt n a) (n + 1) (S m))).
  { rewrite T3, <- trip_val. unfold trip6. field. repeat split; lra. }
  clear T3. rename T3' into T3.
  assert (S0 := psum_0 (vt n a) (n + 1)). rewrite plus_INR in S0. change (INR 1) with 1 in S0. assert (S1 := vt_sum n a La). assert (S2 := vt_sum2 n a ltac:(lia) La).
  set (t := vt n a) in *. clearbody t. set (M := (n + 1)%nat) in *.
  destruct (dsum_vals t M (INR n + 1) (psum t M 2) (psum t M 3) (psum t M 4) (psum t M 5) (psum t M 6) (psum t M 7) 1 1 S0 S1 eq_refl eq_refl eq_refl eq_refl eq_refl eq_refl) as [_ [_ [A2 [_ [A4 [_ [A6 _]]]]]]].
  destruct (dsum_vals t M (INR n + 1) (psum t M 2) (psum t M 3) (psum t M 4) (psum t M 5) (psum t M 6) (psum t M 7) 1 2 S0 S1 eq_refl eq_refl eq_refl eq_refl eq_refl eq_refl) as [_ [_ [B2 [_ [B4 [_ [B6 _]]]]]]].
  destruct (dsum_vals t M (INR n + 1) (psum t M 2) (psum t M 3) (psum t M 4) (psum t M 5) (psum t M 6) (psum t M 7) 1 3 S0 S1 eq_refl eq_refl eq_refl eq_refl eq_refl eq_refl) as [_ [_ [C2 [_ [C4 [_ [C6 _]]]]]]].
  destruct (tsum_vals t M (INR n + 1) (psum t M 2) (psum t M 3) (psum t M 4) (psum t M 5) (psum t M 6) (psum t M 7) S0 S1 eq_refl eq_refl eq_refl eq_refl eq_refl eq_refl) as [_ [_ [D2 [_ [D4 [_ [D6 _]]]]]]].
  assert (DA : dot a a = INR n / (INR n + 1) * psum t M 2) by (rewrite S2; field; split; lra).
  clear S0 S1 S2. rewrite DA. clear DA.
  assert (J : (S m = 2 * 1 \/ S m = 2 * 2 \/ S m = 2 * 3)%nat).
  { destruct m as [|[|[|[|[|[|[|m]]]]]]]; try discriminate; try lia. }
  destruct J as [J|[J|J]]; rewrite J in *; clear J m Hm Om; rewrite !class_term, class_term_d by (auto; lia); rewrite T1, T2, T3, T4, !sqrt_even by auto; clear T1 T2 T3 T4 G1 G2 G3 G4 L3;
    cbn [Nat.mul Nat.add Nat.sub] in *.
  - rewrite A2, B2, C2, D2. set (p2 := psum t M 2). clearbody p2. change (2 / 2)%nat with 1%nat. unfold h_ball, gform, mu1. cbn [Nat.odd Nat.even negb df rise]. change (2 / 2)%nat with 1%nat. change (INR (0 + 1)) with 1.
    transitivity ((a1N (INR n) * u ^ 2 + b1N (INR n) * v ^ 2 + c1N (INR n) * w ^ 2 + e1N (INR n) * (/ dl ^ 2) ^ 2) * (p2 / (INR n + 1))).
    + set (z := (/ dl ^ 2) ^ 2). clearbody z. field. repeat split; lra.
    + rewrite E2. field. repeat split; lra.
  - rewrite A4, B4, C4, D4. set (p2 := psum t M 2). set (p4 := psum t M 4). clearbody p2 p4.
    assert (Q := E4_id (INR n) (b1N (INR n)) (e1N (INR n)) _ v _ _ p2 p4 N5 E4a E4c). cbv zeta in Q. change (4 / 2)%nat with 2%nat. unfold h_ball, gform, mu1. cbn [Nat.odd Nat.even negb df rise]. change (4 / 2)%nat with 2%nat. cbn [INR Nat.add].
    transitivity (3 / ((INR n + 2) * (INR n + 4)) * (INR n / (INR n + 1) * p2) ^ 2); [rewrite <- Q|]; [unfold Rdiv; ring | field; repeat split; lra].
  - rewrite A6, B6, C6, D6. set (p2 := psum t M 2). set (p3 := psum t M 3). set (p4 := psum t M 4). set (p6 := psum t M 6). clearbody p2 p3 p4 p6.
    assert (Q := E6_id (INR n) p2 p3 p4 p6 N5). cbv zeta in Q. change (6 / 2)%nat with 3%nat. unfold h_ball, gform, mu1. cbn [Nat.odd Nat.even negb df rise]. change (6 / 2)%nat with 3%nat. cbn [INR Nat.add].
    transitivity (15 / ((INR n + 2) * (INR n + 4) * (INR n + 6)) * (INR n / (INR n + 1) * p2) ^ 3); [rewrite <- Q|]; [unfold Rdiv; ring | field; repeat split; lra].
Qed.
