(** stroud_1957_3: equally spaced points on a trigonometric curve. *)
From Coq Require Import Reals List Arith Lia Lra Permutation Bool.
From Verif Require Import Spec RsumLemmas CombModel CombProofs CombProofs2 Moments SymExact
  IntegralSpec IntegralProofs PyBase SymmModel SymmProofs MiscModel CnModel SchemeTools CnTools CnProofs TrigSums CnProofs4.
Import ListNotations.
Open Scope R_scope.

(* ------------------------------------------------------------------ sums of quadratic monomials *)
Lemma mono1_zero {I} (is : list I) (u : I -> R) (us : list (I -> R)) k :
  length k = length us -> tdeg k = 1%nat ->
  Forall (fun v => Rsum (map (fun i => u i * v i) is) = 0) us ->
  Rsum (map (fun i => u i * mono k (map (fun v => v i) us)) is) = 0.
Proof.
  revert k; induction us as [|v us IH]; intros [|a k] Hl Hd HF; try discriminate.
  rewrite tdeg_cons in Hd. inversion_clear HF as [|? ? Hv HF']. cbn [map mono].
  destruct a as [|[|a]]; [| |lia].
  - cbn [pow]. rewrite <- (IH k) by (auto; simpl in Hl; lia). apply Rsum_map_ext. intros; ring.
  - rewrite <- Hv. apply Rsum_map_ext. intros i _. assert (E : k = repeat 0%nat (length k)).
    { assert (tdeg k = 0%nat) by lia. clear -H. induction k as [|b k IH]; auto. rewrite tdeg_cons in H.
      simpl. replace b with 0%nat by lia. f_equal. apply IH. lia. }
    rewrite E, mono_zeros. ring.
Qed.
Lemma tdeg0 k : tdeg k = 0%nat -> k = repeat 0%nat (length k).
Proof.
  induction k as [|b k IH]; auto. rewrite tdeg_cons. intros H. simpl. replace b with 0%nat by lia. f_equal. apply IH. lia.
Qed.
Lemma mono0 k x : tdeg k = 0%nat -> mono k x = 1.
Proof. intros H. rewrite (tdeg0 k H). apply mono_zeros. Qed.

Lemma mono2_sum {I} (is : list I) (us : list (I -> R)) c k :
  length k = length us -> tdeg k = 2%nat ->
  Forall (fun u => Rsum (map (fun i => u i * u i) is) = c) us ->
  ForallOrdPairs (fun u v => Rsum (map (fun i => u i * v i) is) = 0) us ->
  Rsum (map (fun i => mono k (map (fun v => v i) us)) is) = c * (3 * cube_moment k).
Proof.
  revert k; induction us as [|u us IH]; intros [|a k] Hl Hd HF HP; try discriminate.
  rewrite tdeg_cons in Hd. inversion_clear HF as [|? ? Hu HF']. inversion_clear HP as [|? ? Hp HP'].
  cbn [map mono]. rewrite cube_moment_cons.
  destruct a as [|[|[|a]]]; [| | |lia].
  - cbn [pow Nat.even INR]. rewrite (Rsum_map_ext _ (fun i => mono k (map (fun v => v i) us))) by (intros; ring).
    rewrite IH by (auto; simpl in Hl; lia). field.
  - cbn [pow Nat.even]. rewrite Rmult_0_l, Rmult_0_r, Rmult_0_r.
    rewrite (Rsum_map_ext _ (fun i => u i * mono k (map (fun v => v i) us))) by (intros; ring).
    apply mono1_zero; auto.
  - cbn [Nat.even]. rewrite <- Hu. assert (E := tdeg0 k ltac:(lia)).
    assert (Z : cube_moment k = 1).
    { rewrite E. clear. induction (length k); cbn [repeat]; [reflexivity|]. rewrite cube_moment_cons, IHn. cbn. lra. }
    rewrite Z. cbn [INR]. rewrite (Rsum_map_ext _ (fun i => u i * u i)).
    { field. }
    intros i _. rewrite mono0 by lia. ring.
Qed.

Lemma mono_opp k x : length k = length x -> mono k (map Ropp x) = (-1) ^ tdeg k * mono k x.
Proof.
  revert x; induction k as [|a k IH]; intros [|t x] H; try discriminate; cbn [map mono].
  { unfold tdeg. cbn. ring. }
  rewrite IH by (simpl in H; lia). rewrite tdeg_cons, pow_add. replace (- t) with ((-1) * t) by ring.
  rewrite Rpow_mult_distr. ring.
Qed.

(* ------------------------------------------------------------------ waves *)
Definition wave (n : nat) (w : R * nat * R) (i : nat) : R :=
  let '(A, a, phi) := w in A * cos (INR i * (PI * INR a / INR n) + phi).

Lemma wave_flip n w i : (1 <= n)%nat -> Nat.odd (snd (fst w)) = true -> wave n w (n + i) = - wave n w i.
Proof.
  intros Hn Ho. destruct w as [[A a] phi]. cbn [fst snd] in Ho. unfold wave.
  assert (HN : INR n <> 0) by (apply not_0_INR; lia). apply Nat.odd_spec in Ho. destruct Ho as [b Hb].
  replace (INR (n + i) * (PI * INR a / INR n) + phi)
    with (INR i * (PI * INR a / INR n) + phi + PI + 2 * INR b * PI).
  2: { rewrite plus_INR, Hb, plus_INR, mult_INR. cbn [INR]. field. auto. }
  rewrite cos_period, neg_cos. ring.
Qed.

Lemma wave_prod n A a p A' a' p' i : (a <= a')%nat ->
  wave n (A, a, p) i * wave n (A', a', p') i =
  A * A' / 2 * cos (INR i * (PI * INR (a' + a) / INR n) + (p' + p)) +
  A * A' / 2 * cos (INR i * (PI * INR (a' - a) / INR n) + (p' - p)).
Proof.
  intros H. unfold wave. rewrite minus_INR, plus_INR by auto.
  replace (INR i * (PI * (INR a' + INR a) / INR n) + (p' + p))
    with ((INR i * (PI * INR a' / INR n) + p') + (INR i * (PI * INR a / INR n) + p)) by (unfold Rdiv; ring).
  replace (INR i * (PI * (INR a' - INR a) / INR n) + (p' - p))
    with ((INR i * (PI * INR a' / INR n) + p') - (INR i * (PI * INR a / INR n) + p)) by (unfold Rdiv; ring).
  generalize (INR i * (PI * INR a' / INR n) + p') (INR i * (PI * INR a / INR n) + p). intros x y.
  rewrite cos_plus, cos_minus. field.
Qed.

Lemma cos_even_freq n m c : (1 <= n)%nat -> (0 < m < n)%nat ->
  Rsum (map (fun i => cos (INR i * (PI * INR (2 * m) / INR n) + c)) (seq 1 (2 * n))) = 0.
Proof.
  intros Hn Hm. rewrite <- (cos_roots (2 * m) (2 * n) c 1) by lia. apply Rsum_map_ext. intros i _.
  f_equal. f_equal. f_equal. rewrite !mult_INR. replace (INR 2) with 2 by (simpl; lra). field. apply not_0_INR. lia.
Qed.

Definition wsum n w w' := Rsum (map (fun i => wave n w i * wave n w' i) (seq 1 (2 * n))).
Lemma wsum_diff n A a p A' a' p' : Nat.odd a = true -> Nat.odd a' = true -> (a < a' <= n)%nat ->
  wsum n (A, a, p) (A', a', p') = 0.
Proof.
  intros Ho Ho' [H1 H2]. unfold wsum.
  rewrite (Rsum_map_ext _ _ _ (fun i _ => wave_prod n A a p A' a' p' i ltac:(lia))).
  rewrite Rsum_map_plus, !Rsum_map_scal. apply Nat.odd_spec in Ho, Ho'. destruct Ho as [b Hb], Ho' as [b' Hb'].
  replace (a' + a)%nat with (2 * (b + b' + 1))%nat by lia. replace (a' - a)%nat with (2 * (b' - b))%nat by lia.
  rewrite !cos_even_freq by lia. ring.
Qed.
Lemma wsum_same n A a p A' p' : Nat.odd a = true -> (a < n)%nat ->
  wsum n (A, a, p) (A', a, p') = INR n * (A * A') * cos (p' - p).
Proof.
  intros Ho H1. unfold wsum.
  rewrite (Rsum_map_ext _ _ _ (fun i _ => wave_prod n A a p A' a p' i ltac:(lia))).
  rewrite Rsum_map_plus, !Rsum_map_scal. apply Nat.odd_spec in Ho. destruct Ho as [b Hb].
  replace (a + a)%nat with (2 * (b + b + 1))%nat by lia. rewrite cos_even_freq by lia.
  rewrite Nat.sub_diag. rewrite (Rsum_map_ext _ (fun i => cos (p' - p))).
  2: { intros i _. f_equal. cbn [INR]. unfold Rdiv. ring. }
  rewrite Rsum_map_const, seq_length, mult_INR. cbn [INR]. field.
Qed.
Lemma wsum_top n A p : (1 <= n)%nat -> wsum n (A, n, p) (A, n, p) = 2 * INR n * (A * A) * (cos p * cos p).
Proof.
  intros H. unfold wsum. rewrite (Rsum_map_ext _ (fun i => (A * A) * (cos p * cos p))).
  { rewrite Rsum_map_const, seq_length, mult_INR. cbn [INR]. ring. }
  intros i _. unfold wave.
  replace (INR i * (PI * INR n / INR n) + p) with (p + INR i * PI) by (field; apply not_0_INR; lia).
  replace (A * cos (p + INR i * PI) * (A * cos (p + INR i * PI))) with (A * A * (cos (p + INR i * PI) * cos (p + INR i * PI))) by ring.
  f_equal. induction i as [|i IH].
  { cbn [INR]. rewrite Rmult_0_l, Rplus_0_r. auto. }
  rewrite <- IH. rewrite S_INR. replace (p + (INR i + 1) * PI) with (p + INR i * PI + PI) by ring. rewrite neg_cos. ring.
Qed.

(* ------------------------------------------------------------------ the coordinates of the scheme *)
Definition coords (n : nat) (s23 s3 : R) : list (R * nat * R) :=
  flat_map (fun k => [(s23, (2 * k - 1)%nat, 0); (s23, (2 * k - 1)%nat, - (PI / 2))]) (seq 1 (n / 2))
  ++ (if Nat.odd n then [(1 / s3, n, PI)] else []).
Lemma cos_iPI i : cos (INR i * PI) = if Nat.odd i then -1 else 1.
Proof.
  induction i as [|i IH]; [cbn; rewrite Rmult_0_l; apply cos_0|].
  rewrite S_INR. replace ((INR i + 1) * PI) with (INR i * PI + PI) by ring. rewrite neg_cos, IH, Nat.odd_succ, <- Nat.negb_odd.
  destruct (Nat.odd i); simpl; ring.
Qed.
Lemma point_waves n s23 s3 i : (1 <= n)%nat ->
  stroud_1957_3_point n s23 s3 i = map (fun w => wave n w i) (coords n s23 s3).
Proof.
  intros Hn. unfold stroud_1957_3_point, coords. rewrite map_app. f_equal.
  - assert (H : forall k, In k (seq 1 (n / 2)) -> (1 <= k)%nat) by (intros k Hk; apply in_seq in Hk; lia).
    induction (seq 1 (n / 2)) as [|k l IH]; auto. cbn [flat_map app map].
    rewrite IH by (intros; apply H; right; auto). specialize (H k (or_introl eq_refl)).
    assert (E : INR (2 * k - 1) = 2 * INR k - 1) by (rewrite minus_INR, mult_INR by lia; simpl; ring).
    unfold wave. rewrite E. f_equal; [|f_equal].
    + f_equal. f_equal. unfold Rdiv. ring.
    + f_equal. rewrite <- cos_shift. rewrite <- cos_neg. f_equal. unfold Rdiv. ring.
  - destruct (Nat.odd n); auto. cbn [map]. f_equal. unfold wave.
    replace (INR i * (PI * INR n / INR n) + PI) with (INR i * PI + PI) by (field; apply not_0_INR; lia).
    rewrite neg_cos, cos_iPI. destruct (Nat.odd i); ring.
Qed.

Lemma odd_2k1 k : (1 <= k)%nat -> Nat.odd (2 * k - 1) = true.
Proof. intros H. apply Nat.odd_spec. exists (k - 1)%nat. lia. Qed.
Lemma coords_odd n s23 s3 w : In w (coords n s23 s3) -> Nat.odd (snd (fst w)) = true.
Proof.
  intros H. apply in_app_or in H. destruct H as [H|H].
  - apply in_flat_map in H. destruct H as [k [Hk Hw]]. apply in_seq in Hk.
    destruct Hw as [<-|[<-|[]]]; cbn [fst snd]; apply odd_2k1; lia.
  - destruct (Nat.odd n) eqn:E; [|destruct H]. destruct H as [<-|[]]. auto.
Qed.
Lemma coords_len n s23 s3 : length (coords n s23 s3) = n.
Proof.
  unfold coords. rewrite app_length.
  assert (F : forall l, length (flat_map (fun k => [(s23, (2 * k - 1)%nat, 0); (s23, (2 * k - 1)%nat, - (PI / 2))]) l)
    = (2 * length l)%nat) by (induction l; cbn [flat_map app length]; lia).
  rewrite F, seq_length. clear F. assert (E := Nat.div_mod n 2 ltac:(lia)). assert (Eo := Nat.bit0_mod n).
  change (Nat.testbit n 0) with (Nat.odd n) in Eo. destruct (Nat.odd n); simpl in *; lia.
Qed.
Lemma coords_norm n s23 s3 : (1 <= n)%nat -> s23 * s23 = 2/3 -> s3 * s3 = 3 ->
  Forall (fun w => wsum n w w = 2 * INR n / 3) (coords n s23 s3).
Proof.
  intros Hn H1 H2. apply Forall_forall. intros w H. apply in_app_or in H. destruct H as [H|H].
  - apply in_flat_map in H. destruct H as [k [Hk Hw]]. apply in_seq in Hk.
    assert (L := Nat.div_mod n 2 ltac:(lia)).
    destruct Hw as [<-|[<-|[]]]; rewrite wsum_same by (try apply odd_2k1; lia);
      rewrite Rminus_diag_eq by auto; rewrite cos_0, H1; field.
  - destruct (Nat.odd n) eqn:E; [|destruct H]. destruct H as [<-|[]]. rewrite wsum_top by auto.
    rewrite cos_PI. assert (s3 <> 0) by (intros ->; lra).
    replace (1 / s3 * (1 / s3)) with (1 / (s3 * s3)) by (field; auto). rewrite H2. field.
Qed.
Lemma coords_ortho n s23 s3 : (1 <= n)%nat ->
  ForallOrdPairs (fun w w' => wsum n w w' = 0) (coords n s23 s3).
Proof.
  intros Hn. unfold coords. assert (L := Nat.div_mod n 2 ltac:(lia)).
  set (tl := if Nat.odd n then [(1 / s3, n, PI)] else []).
  assert (Htl : forall w, In w tl -> snd (fst w) = n /\ Nat.odd n = true).
  { unfold tl. destruct (Nat.odd n); intros w Hw; [|destruct Hw]. destruct Hw as [<-|[]]. auto. }
  assert (Hlen : (length tl <= 1)%nat) by (unfold tl; destruct (Nat.odd n); simpl; lia).
  assert (G : forall m s, (1 <= s)%nat -> (s + m = n / 2 + 1)%nat -> ForallOrdPairs (fun w w' => wsum n w w' = 0)
    (flat_map (fun k => [(s23, (2 * k - 1)%nat, 0); (s23, (2 * k - 1)%nat, - (PI / 2))]) (seq s m) ++ tl)).
  { induction m as [|m IH]; intros s Hs Hm.
    { cbn [seq flat_map app]. destruct tl as [|w [|]]; simpl in Hlen; try lia; repeat constructor. }
    cbn [seq flat_map app].
    assert (R : forall q, Forall (fun w' => wsum n (s23, (2 * s - 1)%nat, q) w' = 0)
      (flat_map (fun k => [(s23, (2 * k - 1)%nat, 0); (s23, (2 * k - 1)%nat, - (PI / 2))]) (seq (S s) m) ++ tl)).
    { intros q. apply Forall_forall. intros w' Hw. apply in_app_or in Hw. destruct Hw as [Hw|Hw].
      - apply in_flat_map in Hw. destruct Hw as [k [Hk Hw]]. apply in_seq in Hk.
        destruct Hw as [<-|[<-|[]]]; apply wsum_diff; try apply odd_2k1; lia.
      - destruct w' as [[A' a'] p']. apply Htl in Hw. cbn [fst snd] in Hw. destruct Hw as [-> Ho].
        apply wsum_diff; auto; [apply odd_2k1; lia|]. lia. }
    constructor; [constructor; [|apply R]|constructor; [apply R|apply IH; lia]].
    rewrite wsum_same by (try apply odd_2k1; lia). replace (- (PI / 2) - 0) with (- (PI / 2)) by ring.
    rewrite cos_neg, cos_PI2. ring. }
  apply G; lia.
Qed.

Theorem stroud_1957_3_exact n : (1 <= n)%nat -> cube_scheme n 3 (stroud_1957_3 n).
Proof.
  intros Hn. unfold stroud_1957_3. apply bind_sqrt; [lra|]. intros s23 P23 E23. apply bind_sqrt; [lra|]. intros s3 P3 E3.
  assert (HN : INR n <> 0) by (apply not_0_INR; lia).
  apply bind_div; [lra|]. intros w Hw. eexists. split; [reflexivity|]. cbn [s_dim s_degree s_rule from_data].
  split; auto. split; auto.
  set (C := coords n s23 s3). assert (LC : length C = n) by apply coords_len.
  split.
  { unfold points_in_dim. rewrite mk_rule_untangle. cbn [flat_map fst snd]. rewrite app_nil_r. apply Forall_forall.
    intros wp H. apply in_map_iff in H. destruct H as [p [<- Hp]]. apply in_map_iff in Hp. destruct Hp as [i [<- Hi]].
    cbn [snd]. rewrite point_waves by auto. rewrite map_length. apply coords_len. }
  intros k Hk Hd. rewrite apply_untangle. unfold data_sum. cbn [map Rsum fst snd]. rewrite Rplus_0_r.
  rewrite map_map. unfold cubeI. rewrite cube_mean_mono by auto.
  rewrite (Rsum_map_ext _ (fun i => mono k (map (fun v => v i) (map (wave n) C)))).
  2: { intros i _. rewrite point_waves by auto. f_equal. rewrite map_map. auto. }
  assert (Hcase : tdeg k = 0%nat \/ tdeg k = 2%nat \/ Nat.odd (tdeg k) = true).
  { destruct (tdeg k) as [|[|[|[|t]]]]; auto. lia. }
  destruct Hcase as [H0 | [H2 | Ho]].
  - rewrite (Rsum_map_ext _ (fun _ => 1)) by (intros; apply mono0; auto).
    rewrite Rsum_map_const, seq_length, mult_INR. cbn [INR].
    replace (cube_moment k) with 1; [subst w; field; auto|].
    rewrite (tdeg0 k H0). clear. induction (length k) as [|m IHm]; cbn [repeat]; [reflexivity|]. rewrite cube_moment_cons, <- IHm. cbn. lra.
  - rewrite (mono2_sum _ _ (2 * INR n / 3)).
    + subst w. field. auto.
    + rewrite map_length. lia.
    + auto.
    + apply Forall_map. apply (coords_norm n s23 s3); auto.
    + assert (O := coords_ortho n s23 s3 Hn). fold C in O. clear -O. induction O; cbn [map]; constructor; auto.
      apply Forall_map. exact H.
  - assert (Hx : existsb Nat.odd k = true).
    { destruct (existsb Nat.odd k) eqn:E; auto. apply even_tdeg in E. rewrite <- Nat.negb_odd, Ho in E. discriminate. }
    rewrite cube_moment_odd by auto.
    replace (2 * n)%nat with (n + n)%nat by lia. rewrite seq_app, map_app, Rsum_app.
    enough (Q : Rsum (map (fun i => mono k (map (fun v => v i) (map (wave n) C))) (seq (1 + n) n)) =
      - Rsum (map (fun i => mono k (map (fun v => v i) (map (wave n) C))) (seq 1 n))) by (rewrite Q; ring).
    replace (seq (1 + n) n) with (map (Nat.add n) (seq 1 n)).
    2: { clear. rewrite Nat.add_comm. assert (X : forall m s, map (Nat.add n) (seq s m) = seq (n + s) m).
         { induction m as [|m IHm]; intros s; auto. cbn [seq map]. f_equal. rewrite IHm. f_equal. lia. }
         apply X. }
    rewrite map_map. replace (- Rsum (map (fun i => mono k (map (fun v => v i) (map (wave n) C))) (seq 1 n)))
      with (-1 * Rsum (map (fun i => mono k (map (fun v => v i) (map (wave n) C))) (seq 1 n))) by ring.
    rewrite <- Rsum_map_scal. apply Rsum_map_ext. intros i _.
    replace (map (fun v => v (n + i)%nat) (map (wave n) C)) with (map Ropp (map (fun v => v i) (map (wave n) C))).
    2: { rewrite !map_map. apply map_ext_in. intros a Ha. rewrite wave_flip; auto. apply (coords_odd n s23 s3); auto. }
    rewrite mono_opp by (rewrite !map_length; lia). apply Nat.odd_spec in Ho. destruct Ho as [b Hb]. rewrite Hb.
    rewrite pow_add, pow_1, pow_mult. replace ((-1) ^ 2) with 1 by ring. rewrite pow1. ring.
Qed.
