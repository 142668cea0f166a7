(** McNamee-Stenger: when the construction succeeds; the n-cube instances. *)
From Coq Require Import Reals List Arith Lia Lra Permutation Bool.
From Verif Require Import Spec RsumLemmas CombModel CombProofs CombProofs2 Moments SymExact
  IntegralSpec IntegralProofs IntegralProofs2 PyBase SymmModel SymmProofs MiscModel CnModel SchemeTools CnTools
  CnProofs MsModel MsProofs.
Import ListNotations.
Open Scope R_scope.

Lemma ms_roots_pos a b c sw : a < 0 -> b < 0 -> c < 0 -> 0 < b ^ 2 - 4 * a * c ->
  exists u v, ms_roots a b c sw = Some (u, v) /\ 0 < u /\ 0 < v /\ u - v <> 0.
Proof.
  intros Ha Hb Hc Hd. unfold ms_roots. rewrite rsqrt_ok by lra. cbn [bind].
  assert (Ps := sqrt_lt_R0 _ Hd). assert (Qs := sqrt_sqrt _ (Rlt_le _ _ Hd)).
  set (s := sqrt (b ^ 2 - 4 * a * c)) in *. rewrite !rdiv_ok by lra. cbn [bind].
  assert (s < - b) by nra.
  assert (P1 : 0 < (b + s) / (2 * a)).
  { replace ((b + s) / (2 * a)) with ((- b - s) / (- (2 * a))) by (field; lra). apply Rdiv_lt_0_compat; lra. }
  assert (P2 : 0 < (b - s) / (2 * a)).
  { replace ((b - s) / (2 * a)) with ((- b + s) / (- (2 * a))) by (field; lra). apply Rdiv_lt_0_compat; lra. }
  assert (D1 : (b + s) / (2 * a) - (b - s) / (2 * a) <> 0).
  { replace ((b + s) / (2 * a) - (b - s) / (2 * a)) with (s / a) by (field; lra).
    unfold Rdiv. apply Rmult_integral_contrapositive_currified; [lra|]. apply Rinv_neq_0_compat. lra. }
  destruct sw; do 2 eexists; (split; [reflexivity|]); repeat split; auto. lra.
Qed.
Lemma ms_solve_ok p q r s x y : p * s - q * r <> 0 -> exists X Y, ms_solve p q r s x y = Some (X, Y).
Proof. intros H. unfold ms_solve. cbv zeta. rewrite !rdiv_ok by auto. cbn [bind]. eauto. Qed.
Lemma ms_scheme_ok n data I0 d : I0 <> 0 -> exists s, ms_scheme n data I0 d = Some s.
Proof.
  intros H. unfold ms_scheme. destruct (Req_EM_T I0 0); [contradiction|]. destruct (untangle data). eauto.
Qed.
Lemma Rfsd_ok n ts : (list_sum (map snd ts) <= n)%nat -> exists p, Rfsd n ts = Some p.
Proof. intros H. unfold Rfsd, fsd. destruct (Nat.leb_spec (list_sum (map snd ts)) n); [eauto|lia]. Qed.

Ltac run_fsd := match goal with |- context [bind (Rfsd ?n ?ts) _] =>
  let p := fresh "p" in let E := fresh "E" in
  destruct (Rfsd_ok n ts) as [p E]; [cbn; lia|]; rewrite E; cbn [bind]; clear E end.
Ltac run_solve := match goal with |- context [bind (ms_solve ?p ?q ?r ?s ?x ?y) _] =>
  let X := fresh "X" in let Y := fresh "Y" in let E := fresh "E" in
  destruct (ms_solve_ok p q r s x y) as [X [Y E]]; [|rewrite E; cbn [bind]; clear E] end.

Theorem ms3_defined n integ : (1 <= n)%nat -> 0 < integ [] -> 0 < integ [2%nat] -> exists s, ms3 n integ = Some s.
Proof.
  intros Hn H0 H2. unfold ms3. cbv zeta. rewrite rdiv_ok by lra. cbn [bind].
  assert (0 < integ [2%nat] / integ []) by (apply Rdiv_lt_0_compat; auto).
  rewrite rdiv_ok by lra. cbn [bind]. rewrite rsqrt_ok by lra. cbn [bind]. rewrite !rdiv_ok by lra. cbn [bind].
  run_fsd. eauto.
Qed.
Theorem ms5_defined n integ : (2 <= n)%nat -> 0 < integ [] -> 0 < integ [2%nat] -> 0 < integ [4%nat] ->
  exists s, ms5 n integ = Some s.
Proof.
  intros Hn H0 H2 H4. unfold ms5. cbv zeta. replace (2 <=? n)%nat with true by (symmetry; apply Nat.leb_le; auto).
  cbn [guard]. rewrite rdiv_ok by lra. cbn [bind].
  assert (0 < integ [4%nat] / integ [2%nat]) by (apply Rdiv_lt_0_compat; auto).
  rewrite rsqrt_ok by lra. cbn [bind]. rewrite rdiv_ok by lra. cbn [bind]. do 2 run_fsd. apply ms_scheme_ok. lra.
Qed.

Definition ms7_abc (integ : list nat -> R) : R * R * R :=
  (integ [2%nat] ^ 2 - integ [] * integ [4%nat], integ [2%nat] * integ [4%nat] - integ [] * integ [6%nat],
   integ [4%nat] ^ 2 - integ [2%nat] * integ [6%nat]).
Definition ms9_abc (integ : list nat -> R) : R * R * R :=
  (integ [4%nat] ^ 2 - integ [2%nat] * integ [6%nat], integ [4%nat] * integ [6%nat] - integ [2%nat] * integ [8%nat],
   integ [6%nat] ^ 2 - integ [4%nat] * integ [8%nat]).
Definition good_abc (abc : R * R * R) : Prop :=
  let '(a, b, c) := abc in a < 0 /\ b < 0 /\ c < 0 /\ 0 < b ^ 2 - 4 * a * c.
(** scaling the functional does not change the sign conditions *)
Lemma good_abc_scale t a b c a' b' c' : 0 < t -> a = t * a' -> b = t * b' -> c = t * c' ->
  good_abc (a', b', c') -> good_abc (a, b, c).
Proof.
  intros Ht -> -> -> [H1 [H2 [H3 H4]]]. unfold good_abc. repeat split; try nra.
  replace ((t * b') ^ 2 - 4 * (t * a') * (t * c')) with (t ^ 2 * (b' ^ 2 - 4 * a' * c')) by ring.
  apply Rmult_lt_0_compat; [apply pow_lt; auto|auto].
Qed.

Theorem ms7_defined n integ sw : (3 <= n)%nat -> integ [] <> 0 -> good_abc (ms7_abc integ) ->
  exists s, ms7 n integ sw = Some s.
Proof.
  intros Hn H0 [Ha [Hb [Hc Hd]]]. unfold ms7. cbv zeta. replace (3 <=? n)%nat with true by (symmetry; apply Nat.leb_le; auto).
  cbn [guard]. destruct (ms_roots_pos _ _ _ sw Ha Hb Hc Hd) as [u [v [E [Pu [Pv Duv]]]]]. rewrite E. cbn [bind].
  assert (Pp : forall k, 0 < u ^ k) by (intros; apply pow_lt; auto). assert (Pq : forall k, 0 < v ^ k) by (intros; apply pow_lt; auto).
  rewrite rdiv_ok. 2: { apply Rgt_not_eq, pow_lt. lra. }
  cbn [bind]. run_solve.
  { replace (u ^ 2 * v ^ 3 - v ^ 2 * u ^ 3) with (- (u ^ 2 * v ^ 2) * (u - v)) by ring.
    assert (0 < u ^ 2 * v ^ 2) by (apply Rmult_lt_0_compat; auto). apply Rmult_integral_contrapositive_currified; auto. lra. }
  run_solve.
  { replace (u * v ^ 2 - v * u ^ 2) with (- (u * v) * (u - v)) by ring.
    assert (0 < u * v) by (apply Rmult_lt_0_compat; auto). apply Rmult_integral_contrapositive_currified; auto. lra. }
  rewrite !rsqrt_ok by lra. cbn [bind]. do 5 run_fsd. apply ms_scheme_ok. auto.
Qed.
Theorem ms9_defined n integ sw : (4 <= n)%nat -> integ [] <> 0 -> good_abc (ms9_abc integ) ->
  exists s, ms9 n integ sw = Some s.
Proof.
  intros Hn H0 [Ha [Hb [Hc Hd]]]. unfold ms9. cbv zeta. replace (4 <=? n)%nat with true by (symmetry; apply Nat.leb_le; auto).
  cbn [guard]. destruct (ms_roots_pos _ _ _ sw Ha Hb Hc Hd) as [u [v [E [Pu [Pv Duv]]]]]. rewrite E. cbn [bind].
  assert (Pp : forall k, 0 < u ^ k) by (intros; apply pow_lt; auto). assert (Pq : forall k, 0 < v ^ k) by (intros; apply pow_lt; auto).
  rewrite rdiv_ok. 2: { apply Rgt_not_eq, pow_lt. lra. }
  assert (D1 : u ^ 3 * v ^ 4 - v ^ 3 * u ^ 4 <> 0).
  { replace (u ^ 3 * v ^ 4 - v ^ 3 * u ^ 4) with (- (u ^ 3 * v ^ 3) * (u - v)) by ring.
    assert (0 < u ^ 3 * v ^ 3) by (apply Rmult_lt_0_compat; auto). apply Rmult_integral_contrapositive_currified; auto. lra. }
  cbn [bind]. run_solve; [auto|].
  rewrite rdiv_ok.
  2: { assert (0 < 2 ^ 2 * u * v) by (assert (0 < u * v) by (apply Rmult_lt_0_compat; auto); lra).
       apply Rmult_integral_contrapositive_currified; [lra|]. apply pow_nonzero. auto. }
  cbn [bind]. run_solve; [auto|]. run_solve.
  { replace (u * v ^ 2 - v * u ^ 2) with (- (u * v) * (u - v)) by ring.
    assert (0 < u * v) by (apply Rmult_lt_0_compat; auto). apply Rmult_integral_contrapositive_currified; auto. lra. }
  rewrite !rsqrt_ok by lra. cbn [bind]. do 8 run_fsd. apply ms_scheme_ok. auto.
Qed.

(* ------------------------------------------------------- the cube *)
Lemma cube_integ_val n l : ms_cube_integrator n l = 2 ^ n * cube_moment l.
Proof.
  unfold ms_cube_integrator. destruct (existsb Nat.odd l) eqn:E.
  { rewrite cube_moment_odd by auto. ring. }
  rewrite prod_list_Rprod. unfold Rdiv. f_equal. induction l as [|a l IH].
  { unfold cube_moment. simpl. field. }
  cbn [existsb] in E. apply orb_false_iff in E. destruct E as [Ea El]. unfold cube_moment in *. cbn [map Rprod].
  rewrite <- IH by auto. rewrite <- Nat.negb_odd, Ea. cbn [negb]. replace (a + 1)%nat with (S a) by lia.
  rewrite Rinv_mult. unfold Rdiv. ring.
Qed.
Lemma cube_ms_integ n : ms_integ n (ms_cube_integrator n) cube_moment.
Proof.
  split.
  - rewrite cube_integ_val. unfold cube_moment. cbn. assert (H := pow2_nz n). lra.
  - intros l _. rewrite !cube_integ_val. unfold cube_moment at 2. cbn [map Rprod]. ring.
Qed.
Lemma cube_integ_pos n l : existsb Nat.odd l = false -> 0 < ms_cube_integrator n l.
Proof.
  intros E. rewrite cube_integ_val. apply Rmult_lt_0_compat; [apply pow_lt; lra|].
  induction l as [|a l IH]; [unfold cube_moment; cbn; lra|].
  cbn [existsb] in E. apply orb_false_iff in E. destruct E as [Ea El]. specialize (IH El).
  unfold cube_moment in *. cbn [map Rprod]. apply Rmult_lt_0_compat; auto. rewrite <- Nat.negb_odd, Ea. cbn [negb].
  apply Rdiv_lt_0_compat; [lra|]. apply lt_0_INR. lia.
Qed.

Lemma cube_scheme_of n d r : (exists s, r = Some s) -> (forall s, r = Some s -> scheme_ok n d (cubeI n) s) ->
  cube_scheme n d r.
Proof. intros [s E] H. exists s. split; auto. exact (H s E). Qed.

Theorem cn_ms3_exact n : (1 <= n)%nat -> cube_scheme n 3 (cn_mcnamee_stenger_3 n).
Proof.
  intros H. unfold cn_mcnamee_stenger_3. replace (1 <=? n)%nat with true by (symmetry; apply Nat.leb_le; auto). cbn [guard].
  apply cube_scheme_of.
  - apply ms3_defined; auto; apply cube_integ_pos; auto.
  - intros s Hs. apply (ms3_exact n _ _ _ s (cube_fs n) (cube_ms_integ n)); auto.
Qed.
Theorem cn_ms5_exact n : (2 <= n)%nat -> cube_scheme n 5 (cn_mcnamee_stenger_5 n).
Proof.
  intros H. apply cube_scheme_of.
  - apply ms5_defined; auto; apply cube_integ_pos; auto.
  - intros s Hs. apply (ms5_exact n _ _ _ s (cube_fs n) (cube_ms_integ n)); auto.
Qed.
Lemma pow4 n : 4 ^ n = 2 ^ n * 2 ^ n.
Proof. rewrite <- Rpow_mult_distr. replace (2 * 2) with 4 by ring. auto. Qed.
Lemma cube_good7 n : good_abc (ms7_abc (ms_cube_integrator n)).
Proof.
  unfold ms7_abc. rewrite !cube_integ_val.
  apply (good_abc_scale (4 ^ n) _ _ _ (-4/45) (-8/105) (-4/525)); [apply pow_lt; lra| | | |].
  1,2,3: rewrite pow4; unfold cube_moment; cbn [map Rprod Nat.even]; inr_lits; field.
  unfold good_abc. repeat split; lra.
Qed.
Lemma cube_good9 n : good_abc (ms9_abc (ms_cube_integrator n)).
Proof.
  unfold ms9_abc. rewrite !cube_integ_val.
  apply (good_abc_scale (4 ^ n) _ _ _ (-4/525) (-8/945) (-4/2205)); [apply pow_lt; lra| | | |].
  1,2,3: rewrite pow4; unfold cube_moment; cbn [map Rprod Nat.even]; inr_lits; field.
  unfold good_abc. repeat split; lra.
Qed.
Theorem cn_ms7_exact n sw : (3 <= n)%nat -> cube_scheme n 7 (ms7 n (ms_cube_integrator n) sw).
Proof.
  intros H. apply cube_scheme_of.
  - apply ms7_defined; auto; [apply Rgt_not_eq, cube_integ_pos; auto|apply cube_good7].
  - intros s Hs. apply (ms7_exact n _ _ _ sw s (cube_fs n) (cube_ms_integ n)); auto.
Qed.
Theorem cn_ms9_exact n sw : (4 <= n)%nat -> cube_scheme n 9 (ms9 n (ms_cube_integrator n) sw).
Proof.
  intros H. apply cube_scheme_of.
  - apply ms9_defined; auto; [apply Rgt_not_eq, cube_integ_pos; auto|apply cube_good9].
  - intros s Hs. destruct (ms9_core n _ _ _ sw s (cube_fs n) (cube_ms_integ n) Hs) as [E1 [E2 [E3 _]]].
    split; auto. split; auto. apply E3. unfold ms9_relation. rewrite !cube_integ_val. unfold cube_moment.
    cbn [map Rprod Nat.even]. inr_lits. field.
Qed.
