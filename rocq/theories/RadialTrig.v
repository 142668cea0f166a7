(** Equally spaced points on a closed trigonometric curve (sn.stroud_1957, enr2.xiu); scaled copies of a sphere rule
    (sn.stroud_1967_7_c, enr2.stroud_enr2_7_4); rules with the four orbits 0, (r), (s,...,s), (t,t) of degree 7. *)
From Coq Require Import Reals List Arith Lia Lra Permutation Bool.
From Verif Require Import Spec RsumLemmas CombModel CombProofs CombProofs2 Moments SymExact
  IntegralSpec IntegralProofs PyBase SymmModel SymmProofs MiscModel CnModel SchemeTools CnTools CnProofs IntegralProofs2 CnProofs2 CnProofs4
  TrigSums CnProofs5 SphereSpec SphereInt RadialInt RadialTools UnModel UnProofs NsimplexProofs SnModel.
Import ListNotations.
Set Bullet Behavior "Strict Subproofs".
Open Scope R_scope.

(* ------------------------------------------------------------------ trigonometric curves *)
Definition wv (N : nat) (w : R * nat * R) (i : nat) : R := let '(A, a, phi) := w in A * cos (INR i * (2 * PI * INR a / INR N) + phi).
Definition wvs N w w' := Rsum (map (fun i => wv N w i * wv N w' i) (seq 0 N)).
Lemma wv_prod N A a p A' a' p' i : (a <= a')%nat ->
  wv N (A, a, p) i * wv N (A', a', p') i =
  A * A' / 2 * cos (INR i * (2 * PI * INR (a' + a) / INR N) + (p' + p)) + A * A' / 2 * cos (INR i * (2 * PI * INR (a' - a) / INR N) + (p' - p)).
Proof.
  intros H. unfold wv. rewrite minus_INR, plus_INR by auto.
  replace (INR i * (2 * PI * (INR a' + INR a) / INR N) + (p' + p))
    with ((INR i * (2 * PI * INR a' / INR N) + p') + (INR i * (2 * PI * INR a / INR N) + p)) by (unfold Rdiv; ring).
  replace (INR i * (2 * PI * (INR a' - INR a) / INR N) + (p' - p))
    with ((INR i * (2 * PI * INR a' / INR N) + p') - (INR i * (2 * PI * INR a / INR N) + p)) by (unfold Rdiv; ring).
  generalize (INR i * (2 * PI * INR a' / INR N) + p') (INR i * (2 * PI * INR a / INR N) + p). intros x y.
  rewrite cos_plus, cos_minus. field.
Qed.
Lemma wvs_diff N A a p A' a' p' : (0 < a < a')%nat -> (a + a' < N)%nat -> wvs N (A, a, p) (A', a', p') = 0.
Proof.
  intros H1 H2. unfold wvs. rewrite (Rsum_map_ext _ _ _ (fun i _ => wv_prod N A a p A' a' p' i ltac:(lia))).
  rewrite Rsum_map_plus, !Rsum_map_scal, !cos_roots by lia. ring.
Qed.
Lemma wvs_same N A a p A' p' : (0 < a)%nat -> (a + a < N)%nat -> wvs N (A, a, p) (A', a, p') = INR N * (A * A' / 2) * cos (p' - p).
Proof.
  intros H1 H2. unfold wvs. rewrite (Rsum_map_ext _ _ _ (fun i _ => wv_prod N A a p A' a p' i ltac:(lia))).
  rewrite Rsum_map_plus, !Rsum_map_scal, cos_roots by lia. rewrite Nat.sub_diag.
  rewrite (Rsum_map_ext _ (fun i => cos (p' - p))). 2: { intros i _. f_equal. cbn [INR]. unfold Rdiv. ring. }
  rewrite Rsum_map_const, seq_length. ring.
Qed.
Lemma wvs_top N A a : (0 < a)%nat -> (a + a = N)%nat -> wvs N (A, a, 0) (A, a, 0) = INR N * (A * A).
Proof.
  intros H1 H2. unfold wvs. rewrite (Rsum_map_ext _ (fun i => A * A)); [rewrite Rsum_map_const, seq_length; auto|].
  intros i _. unfold wv. assert (0 < INR a) by (apply lt_0_INR; auto).
  replace (INR i * (2 * PI * INR a / INR N) + 0) with (INR i * PI) by (rewrite <- H2, plus_INR; field; lra).
  rewrite cos_iPI. destruct (Nat.odd i); ring.
Qed.
Lemma wv_sum N w : (0 < snd (fst w) < N)%nat -> Rsum (map (wv N w) (seq 0 N)) = 0.
Proof. destruct w as [[A a] p]. cbn [fst snd]. intros H. unfold wv. rewrite Rsum_map_scal, cos_roots by auto. ring. Qed.

Definition tcoords (n : nat) (c d : R) : list (R * nat * R) :=
  flat_map (fun k => [(c, k, 0); (c, k, - (PI / 2))]) (seq 1 (n / 2)) ++ (if Nat.odd n then [(d, (n / 2 + 1)%nat, 0)] else []).
Lemma half_odd n : Nat.odd n = true -> (n / 2 + 1 + (n / 2 + 1) = n + 1)%nat.
Proof. intros H. assert (E := Nat.div_mod n 2 ltac:(lia)). assert (Eo := Nat.bit0_mod n). change (Nat.testbit n 0) with (Nat.odd n) in Eo. rewrite H in Eo. cbn [Nat.b2n] in Eo. lia. Qed.
Lemma half_le n : (2 * (n / 2) <= n)%nat.
Proof. assert (E := Nat.div_mod n 2 ltac:(lia)). lia. Qed.
Lemma tcoords_len n c d : length (tcoords n c d) = n.
Proof.
  unfold tcoords. rewrite app_length.
  assert (F : forall l : list nat, length (flat_map (fun k : nat => [(c, k, 0); (c, k, - (PI / 2))]) l) = (2 * length l)%nat) by (induction l; cbn [flat_map app length]; lia).
  rewrite F, seq_length. clear F. assert (E := Nat.div_mod n 2 ltac:(lia)). assert (Eo := Nat.bit0_mod n).
  change (Nat.testbit n 0) with (Nat.odd n) in Eo. destruct (Nat.odd n); simpl in *; lia.
Qed.
Lemma trig_waves n c d i : trig_point n c d i = map (fun w => wv (n + 1) w i) (tcoords n c d).
Proof.
  unfold trig_point, tcoords. rewrite map_app. assert (EN : INR (n + 1) = INR n + 1) by (rewrite plus_INR; simpl; ring). assert (PN := pos_INR n). f_equal.
  - induction (seq 1 (n / 2)) as [|k l IH]; auto. cbn [flat_map app map]. rewrite IH. unfold wv. rewrite EN. f_equal; [|f_equal].
    + f_equal. f_equal. unfold Rdiv. ring.
    + f_equal. rewrite <- cos_shift. rewrite <- cos_neg. f_equal. unfold Rdiv. ring.
  - destruct (Nat.odd n) eqn:Ho; auto. cbn [map]. f_equal. unfold wv. rewrite <- (half_odd n Ho).
    assert (0 < INR (n / 2 + 1)) by (apply lt_0_INR; lia).
    replace (INR i * (2 * PI * INR (n / 2 + 1) / INR (n / 2 + 1 + (n / 2 + 1))) + 0) with (INR i * PI) by (rewrite (plus_INR (n / 2 + 1) (n / 2 + 1)); field; lra).
    rewrite cos_iPI. destruct (Nat.odd i); ring.
Qed.
Lemma tcoords_freq n c d w : In w (tcoords n c d) -> (0 < snd (fst w) < n + 1)%nat.
Proof.
  intros H. assert (L := half_le n). apply in_app_or in H. destruct H as [H|H].
  - apply in_flat_map in H. destruct H as [k [Hk Hw]]. apply in_seq in Hk. destruct Hw as [<-|[<-|[]]]; cbn [fst snd]; lia.
  - destruct (Nat.odd n) eqn:E; [|destruct H]. apply half_odd in E. destruct H as [<-|[]]. cbn [fst snd]. lia.
Qed.
Lemma tcoords_norm n c d v : c * c = 2 * v -> d * d = v -> Forall (fun w => wvs (n + 1) w w = INR (n + 1) * v) (tcoords n c d).
Proof.
  intros H1 H2. apply Forall_forall. intros w H. assert (L := half_le n). apply in_app_or in H. destruct H as [H|H].
  - apply in_flat_map in H. destruct H as [k [Hk Hw]]. apply in_seq in Hk.
    destruct Hw as [<-|[<-|[]]]; rewrite wvs_same by lia; rewrite Rminus_diag_eq by auto; rewrite cos_0, H1; field.
  - destruct (Nat.odd n) eqn:E; [|destruct H]. apply half_odd in E. destruct H as [<-|[]]. rewrite wvs_top by lia. rewrite H2. auto.
Qed.
Lemma tcoords_ortho n c d : ForallOrdPairs (fun w w' => wvs (n + 1) w w' = 0) (tcoords n c d).
Proof.
  unfold tcoords. assert (L := half_le n). set (tl := if Nat.odd n then [(d, (n / 2 + 1)%nat, 0)] else []).
  assert (Htl : forall w, In w tl -> w = (d, (n / 2 + 1)%nat, 0) /\ (n / 2 + 1 + (n / 2 + 1) = n + 1)%nat).
  { unfold tl. destruct (Nat.odd n) eqn:E; intros w Hw; [|destruct Hw]. apply half_odd in E. destruct Hw as [<-|[]]. auto. }
  assert (Hlen : (length tl <= 1)%nat) by (unfold tl; destruct (Nat.odd n); simpl; lia).
  assert (G : forall m s, (1 <= s)%nat -> (s + m = n / 2 + 1)%nat -> ForallOrdPairs (fun w w' => wvs (n + 1) w w' = 0)
    (flat_map (fun k => [(c, k, 0); (c, k, - (PI / 2))]) (seq s m) ++ tl)).
  { induction m as [|m IH]; intros s Hs Hm.
    { cbn [seq flat_map app]. destruct tl as [|w [|]]; simpl in Hlen; try lia; repeat constructor. }
    cbn [seq flat_map app].
    assert (R : forall q, Forall (fun w' => wvs (n + 1) (c, s, q) w' = 0) (flat_map (fun k => [(c, k, 0); (c, k, - (PI / 2))]) (seq (S s) m) ++ tl)).
    { intros q. apply Forall_forall. intros w' Hw. apply in_app_or in Hw. destruct Hw as [Hw|Hw].
      - apply in_flat_map in Hw. destruct Hw as [k [Hk Hw]]. apply in_seq in Hk. destruct Hw as [<-|[<-|[]]]; apply wvs_diff; lia.
      - apply Htl in Hw. destruct Hw as [-> Hw]. apply wvs_diff; lia. }
    constructor; [constructor; [|apply R]|constructor; [apply R|apply IH; lia]].
    rewrite wvs_same by lia. replace (- (PI / 2) - 0) with (- (PI / 2)) by ring. rewrite cos_neg, cos_PI2. ring. }
  apply G; lia.
Qed.
Lemma mono1_sum {I} (is : list I) (us : list (I -> R)) k : length k = length us -> tdeg k = 1%nat ->
  Forall (fun v => Rsum (map v is) = 0) us -> Rsum (map (fun i => mono k (map (fun v => v i) us)) is) = 0.
Proof.
  intros Hl Hd HF. rewrite <- (mono1_zero is (fun _ => 1) us k); auto.
  - apply Rsum_map_ext. intros; ring.
  - eapply Forall_impl; [|exact HF]. intros v Hv. cbn beta in *. rewrite <- Hv. apply Rsum_map_ext. intros; ring.
Qed.
Lemma cube_moment_zeros m : cube_moment (repeat 0%nat m) = 1.
Proof. induction m as [|m IH]; cbn [repeat]; [reflexivity|]. rewrite cube_moment_cons, IH. cbn. lra. Qed.
Lemma cube_rmoment2 h k : tdeg k = 2%nat -> rmoment h k = h 1%nat * (3 * cube_moment k).
Proof.
  intros H. rewrite rmoment_cases by lia. rewrite H. induction k as [|a k IH]; [discriminate|]. rewrite tdeg_cons in H. rewrite cube_moment_cons. cbn [existsb].
  destruct a as [|[|[|a]]]; [| | |lia].
  - change (Nat.odd 0 || existsb Nat.odd k)%bool with (existsb Nat.odd k). rewrite IH by lia. cbn [Nat.even INR]. field.
  - cbn. ring.
  - rewrite (tdeg0 k) by lia. rewrite cube_moment_zeros. assert (Z : forall m, existsb Nat.odd (repeat 0%nat m) = false) by (induction m; auto).
    rewrite Z. cbn. field.
Qed.
Theorem trig2_exact n c d w I h : (forall k, length k = n -> I k = rmoment h k) -> h 0%nat = 1 -> c * c = 2 * h 1%nat -> d * d = h 1%nat ->
  w = 1 / (INR n + 1) -> good_scheme n 2 I (Some (from_data n [(w, map (trig_point n c d) (seq 0 (n + 1)))] 2)).
Proof.
  intros HI H0 Hc Hd Hw. assert (PN := pos_INR n). assert (EN : INR (n + 1) = INR n + 1) by (rewrite plus_INR; simpl; ring).
  eexists. split; [reflexivity|]. cbn [s_dim s_degree s_rule from_data]. split; auto. split; auto.
  set (C := tcoords n c d). assert (LC : length C = n) by apply tcoords_len. split.
  { unfold points_in_dim. rewrite mk_rule_untangle. cbn [flat_map fst snd]. rewrite app_nil_r. apply Forall_forall.
    intros wp H. apply in_map_iff in H. destruct H as [p [<- Hp]]. apply in_map_iff in Hp. destruct Hp as [i [<- Hi]].
    cbn [snd]. rewrite trig_waves, map_length. apply tcoords_len. }
  intros k Hk Hkd. rewrite apply_untangle. unfold data_sum. cbn [map Rsum fst snd]. rewrite Rplus_0_r, map_map, HI by auto.
  rewrite (Rsum_map_ext _ (fun i => mono k (map (fun v => v i) (map (wv (n + 1)) C)))).
  2: { intros i _. rewrite trig_waves. f_equal. rewrite map_map. auto. }
  destruct (tdeg k) as [|[|[|t]]] eqn:Ht; [| | |lia].
  - rewrite (Rsum_map_ext _ (fun _ => 1)) by (intros; apply mono0; auto). rewrite Rsum_map_const, seq_length, EN.
    rewrite (tdeg0 k Ht), <- (app_nil_l (repeat 0%nat (length k))), rmoment_zeros, rm_0, H0, Hw. field. lra.
  - rewrite mono1_sum; [|rewrite map_length; lia|auto|].
    + rewrite rmoment_cases by lia. rewrite Ht. destruct (existsb Nat.odd k); ring.
    + apply Forall_map, Forall_forall. intros v Hv. apply wv_sum. eapply tcoords_freq. exact Hv.
  - rewrite (mono2_sum _ _ (INR (n + 1) * h 1%nat)); [|rewrite map_length; lia|auto| |].
    + rewrite cube_rmoment2, EN, Hw by auto. field. lra.
    + apply Forall_map. apply (tcoords_norm n c d); auto.
    + assert (O := tcoords_ortho n c d). fold C in O. clear -O. induction O; cbn [map]; constructor; auto. apply Forall_map. exact H.
Qed.

(* ------------------------------------------------------------------ scaled copies of a rule *)
Lemma mono_vscale r k x : length k = length x -> mono k (vscale r x) = r ^ tdeg k * mono k x.
Proof.
  revert x; induction k as [|a k IH]; intros [|t x] H; try discriminate; unfold vscale; cbn [map mono]. { unfold tdeg. cbn. ring. }
  fold (vscale r x). rewrite IH by (simpl in H; lia). rewrite tdeg_cons, pow_add, Rpow_mult_distr. ring.
Qed.
Lemma rise_split a m : rise a (S m) = a * rise (a + 2) m.
Proof. reflexivity. Qed.
Theorem scaled_exact n d h h' I I' s r1 r2 A1 A2 f : (forall k, length k = n -> I k = rmoment h k) -> (forall k, length k = n -> I' k = rmoment h' k) ->
  good_scheme n d I (Some s) ->
  (forall m, (2 * m <= d)%nat -> f * (A1 * (r1 * r1) ^ m + A2 * (r2 * r2) ^ m) * h m = h' m) ->
  good_scheme n d I' (Some (mk_scheme n (scaled_copies (s_rule s) r1 r2 A1 A2 f) d)).
Proof.
  intros HI HI' Hs Hm. apply good_pts in Hs. destruct Hs as [_ [_ [HP HE]]].
  eexists. split; [reflexivity|]. split; [auto|]. split; [auto|]. cbn [s_rule]. unfold points_in_dim in *. rewrite Forall_forall in HP. split.
  - unfold points_in_dim. apply Forall_app. split; apply Forall_map, Forall_forall; intros wp Hwp; cbn [snd]; unfold vscale; rewrite map_length; auto.
  - intros k Hk Hd. unfold scaled_copies. rewrite apply_app. unfold apply. rewrite !map_map. cbn [fst snd].
    assert (E : forall r A, Rsum (map (fun x => f * (A * fst x) * mono k (vscale r (snd x))) (s_rule s)) = f * A * r ^ tdeg k * I k).
    { intros r A. rewrite <- HE by auto. unfold apply. rewrite <- Rsum_map_scal. apply Rsum_map_ext. intros wp Hwp.
      rewrite mono_vscale by (rewrite HP; auto). ring. }
    rewrite !E, HI, HI' by auto. unfold rmoment. destruct (existsb Nat.odd k) eqn:Ho; [ring|].
    apply even_tdeg in Ho. apply Nat.even_spec in Ho. destruct Ho as [m Em].
    rewrite Em, Nat.mul_comm, Nat.div_mul by lia. rewrite (Nat.mul_comm m 2), !pow_mult. 
    replace (r1 ^ 2) with (r1 * r1) by ring. replace (r2 ^ 2) with (r2 * r2) by ring. rewrite <- (Hm m) by lia. ring.
Qed.

(* ------------------------------------------------------------------ degree 7 with orbits 0, (r), (s..s), (t,t) *)
Ltac lhs_only n := match goal with Hl : (length _ <= n)%nat |- _ => moment_lhs n Hl end.
Theorem seven_exact n I h r s t r2 s2 t2 A B C D : (2 <= n)%nat -> fs_functional n I (rmoment h) -> h 0%nat = 1 -> r * r = r2 -> s * s = s2 -> t * t = t2 ->
  0 < r2 -> 0 < s2 -> 0 < t2 ->
  B = h 3%nat * (8 - INR n) / r2 ^ 3 -> C = h 3%nat / (s2 ^ 3 * 2 ^ n) -> D = h 3%nat / (2 * t2 ^ 3) ->
  A = 1 - 2 * INR n * B - 2 ^ n * C - 2 * INR n * (INR n - 1) * D ->
  h 3%nat * (1 / s2 + 2 / t2) = h 2%nat ->
  h 3%nat * (2 * (8 - INR n) / r2 + 1 / s2 + 2 * (INR n - 1) / t2) = 3 * h 2%nat ->
  h 3%nat * (2 * (8 - INR n) / r2 ^ 2 + 1 / s2 ^ 2 + 2 * (INR n - 1) / t2 ^ 2) = h 1%nat ->
  good_scheme n 7 I (let! p1 := Rfsd n [(r, 1%nat)] in let! p2 := Rfsd n [(t, 2%nat)] in
    Some (from_data n [(A, Rz n); (B, p1); (C, Rpm (repeat s n)); (D, p2)] 7)).
Proof.
  intros Hn Fs H0 Qr Qs Qt Pr Ps Pt HB HC HD HA E1 E2 E3. assert (P2 := pow2_nz n).
  assert (2 <= INR n) by (apply (le_INR 2); lia).
  fsd_step. fsd_step. rewrite Rz_combine, Rpm_combine by (intros ->; lra).
  apply (from_data_good n [(A, [([0], n)]); (B, [([r; - r], 1%nat); ([0], (n - 1)%nat)]); (C, [([s; - s], n)]); (D, [([t; - t], 2%nat); ([0], (n - 2)%nat)])]).
  rad_even Fs. all: lhs_only n.
  all: rewrite ?rm_0, ?rm_2, ?rm_4, ?rm_22, ?rm_6, ?rm_42, ?rm_222, ?H0, <- ?E3, <- ?E2, <- ?E1; rewrite ?Qr, ?Qs, ?Qt, ?HA, ?HB, ?HC, ?HD.
  all: clear E1 E2 E3 HA HB HC HD. all: prep n; intros; field; side.
Qed.
