(** Exactness of the sphere schemes, for every dimension. *)
From Coq Require Import Reals List Arith Lia Lra Permutation Bool.
From Verif Require Import Spec RsumLemmas CombModel CombProofs CombProofs2 Moments SymExact
  IntegralSpec IntegralProofs PyBase SymmModel SymmProofs MiscModel CnModel SchemeTools CnTools CnProofs IntegralProofs2 CnProofs4
  SphereSpec SphereInt RadialInt RadialTools UnModel.
Import ListNotations.
Set Bullet Behavior "Strict Subproofs".
Open Scope R_scope.

Ltac un_even n := let F := fresh "Fs" in assert (F := sphere_fs n ltac:(lia)); rad_even F.
Lemma sq_pos_nz r x : 0 < x -> r * r = x -> r <> 0.
Proof. intros H E ->. lra. Qed.

Theorem stroud_un_3_1_exact n : (1 <= n)%nat -> good_scheme n 3 (sphereI n) (stroud_un_3_1 n).
Proof.
  intros H. unfold stroud_un_3_1. inr_pos n. apply bind_div; [lra|]. intros w Hw. fsd_step.
  apply (from_data_good n [(w, [([1; - (1)], 1%nat); ([0], (n - 1)%nat)])]). subst w.
  un_even n. all: rad_pre n; prep n; intros; field; side.
Qed.
Theorem stroud_un_3_2_exact n : (1 <= n)%nat -> good_scheme n 3 (sphereI n) (stroud_un_3_2 n).
Proof.
  intros H. unfold stroud_un_3_2. inr_pos n. apply bind_div; [lra|]. intros q Hq.
  apply bind_sqrt; [subst; apply Rlt_le, Rdiv_lt_0_compat; lra|]. intros r Pr Qr.
  rewrite Rpm_combine by (apply (sq_pos_nz r q); auto; subst; apply Rdiv_lt_0_compat; lra).
  apply (from_data_good n [(1 / 2 ^ n, [([r; - r], n)])]).
  un_even n. all: rad_pre n; rewrite ?Qr, ?Hq; clear Hq; prep n; intros; field; side.
Qed.
Theorem stroud_un_5_1_exact n : (2 <= n)%nat -> good_scheme n 5 (sphereI n) (stroud_un_5_1 n).
Proof.
  intros H. unfold stroud_un_5_1. cbv zeta. inr_pos n. apply bind_div; [nra|]. intros B1 H1. apply bind_div; [nra|]. intros B2 H2.
  fsd_step. apply bind_sqrt; [lra|]. intros r Pr Qr. fsd_step.
  apply (from_data_good n [(B1, [([1; - (1)], 1%nat); ([0], (n - 1)%nat)]); (B2, [([r; - r], 2%nat); ([0], (n - 2)%nat)])]). subst B1 B2.
  un_even n. all: rad_pre n; rewrite ?Qr; prep n; intros; field; side.
Qed.
Theorem stroud_un_5_2_exact n : (1 <= n)%nat -> good_scheme n 5 (sphereI n) (stroud_un_5_2 n).
Proof.
  intros H. unfold stroud_un_5_2. cbv zeta. inr_pos n. assert (P2 := pow2_nz n). apply bind_div; [nra|]. intros B1 H1.
  apply bind_div; [apply Rmult_integral_contrapositive; split; lra|]. intros B2 H2.
  fsd_step. apply bind_div; [lra|]. intros q Hq. assert (0 < q) by (subst; apply Rdiv_lt_0_compat; lra).
  apply bind_sqrt; [lra|]. intros r Pr Qr. rewrite Rpm_combine by (apply (sq_pos_nz r q); auto).
  apply (from_data_good n [(B1, [([1; - (1)], 1%nat); ([0], (n - 1)%nat)]); (B2, [([r; - r], n)])]). subst B1 B2.
  un_even n. all: rad_pre n; rewrite ?Qr, ?Hq; clear Hq; prep n; intros; field; side.
Qed.
Lemma stroud_un_5_3_data_run n ks : (1 <= n)%nat -> stroud_un_5_3_data n (sqrt (1 / (INR n + 2))) ks =
  Some (face_list n ((INR n + 2) / INR n) (1 / (INR n + 2)) ks).
Proof.
  intros H. inr_pos n. induction ks as [|k ks IH]; [reflexivity|]. cbn [stroud_un_5_3_data]. cbv zeta. pose proof (pos_INR k).
  rewrite rdiv_ok by (apply Rmult_integral_contrapositive; split; [apply Rmult_integral_contrapositive; split|]; lra).
  rewrite rsqrt_ok by (apply Rlt_le, Rdiv_lt_0_compat; lra). rewrite IH. cbn [bind]. unfold face_list. cbn [map]. unfold face_entry at 2. f_equal. f_equal. f_equal.
  - assert (2 ^ n <> 0) by apply pow2_nz. field. repeat split; auto; lra.
  - replace ((INR k + 2) * (1 / (INR n + 2))) with ((INR k + 2) / (INR n + 2)) by (field; lra). auto.
Qed.
Theorem stroud_un_5_3_exact n : (1 <= n)%nat -> good_scheme n 5 (sphereI n) (stroud_un_5_3 n).
Proof.
  intros H. unfold stroud_un_5_3. inr_pos n. assert (P : 0 < 1 / (INR n + 2)) by (apply Rdiv_lt_0_compat; lra). rewrite rsqrt_ok by lra. cbn [bind].
  rewrite stroud_un_5_3_data_run by auto. cbn [bind]. eexists. split; [reflexivity|]. split; [auto|]. split; [auto|].
  apply (face_exact n ((INR n + 2) / INR n) (1 / (INR n + 2)) 0 _ (h_sphere n)); auto.
  - intros. apply sphereI_val; auto.
  - apply h_sphere_0.
  - unfold h_sphere. cbn. field. lra.
  - unfold h_sphere. cbn. field. lra.
  - field. lra.
  - intros f. ring.
  - apply face_dims. apply Forall_forall. intros k Hk. apply in_seq in Hk. lia.
Qed.
Theorem stroud_un_5_4_exact n : (1 <= n)%nat -> good_scheme n 5 (sphereI n) (stroud_un_5_4 n).
Proof.
  intros H. unfold stroud_un_5_4. cbv zeta. inr_pos n. assert (P2 := pow2_nz n).
  apply bind_sqrt; [lra|]. intros s Ps Qs. assert (2 < s) by nra.
  apply bind_div; [lra|]. intros u0 Hu. apply bind_sqrt.
  { subst. apply Rmult_le_pos; [apply Rmult_le_pos|]; [nra| |]; apply Rlt_le, Rinv_0_lt_compat; lra. }
  intros u Pu Qu. apply bind_div; [lra|]. intros v0 Hv. apply bind_sqrt.
  { subst. apply Rmult_le_pos; [apply Rmult_le_pos|]; [nra| |]; apply Rlt_le, Rinv_0_lt_compat; lra. }
  intros v Pv Qv. apply bind_div; [apply Rmult_integral_contrapositive; split; lra|]. intros w Hw. apply bind_fsd_full; auto.
  apply (from_data_good n [(w, [([u; - u], 1%nat); ([v; - v], (n - 1)%nat)])]).
  assert (Eq : INR n = (s * s - 4) / 2) by lra.
  un_even n. all: rad_pre n; rewrite ?Qu, ?Qv, ?Hu, ?Hv, ?Hw; clear Hu Hv Hw Qu Qv.
  all: inr_lits; rewrite ?pow1, ?pow2_pred by lia; nz_facts n; generalize dependent (INR n); intros N; intros; subst N.
  all: field; side; try (intros ?; nra).
Qed.
Theorem stroud_un_7_2_exact n : (1 <= n)%nat -> good_scheme n 7 (sphereI n) (stroud_un_7_2 n).
Proof.
  intros H. unfold stroud_un_7_2. cbv zeta. inr_pos n. assert (P3 := pow2_nz (n + 3)).
  apply bind_div; [apply Rmult_integral_contrapositive; split; lra|]. intros A HA.
  apply bind_div; [repeat (apply Rmult_integral_contrapositive; split); lra|]. intros B HB.
  apply bind_div; [lra|]. intros q Hq. assert (0 < q) by (subst; apply Rdiv_lt_0_compat; lra).
  apply bind_sqrt; [lra|]. intros r Pr Qr. apply bind_sqrt; [apply Rlt_le, Rdiv_lt_0_compat; lra|]. intros s Ps Qs.
  apply bind_sqrt; [apply Rlt_le, Rdiv_lt_0_compat; lra|]. intros t Pt Qt.
  apply bind_fsd_full; auto. rewrite Rpm_combine by (apply (sq_pos_nz r q); auto).
  apply (from_data_good n [(A, [([r; - r], n)]); (B, [([s; - s], 1%nat); ([t; - t], (n - 1)%nat)])]).
  replace (2 ^ (n + 3)) with (8 * 2 ^ n) in HA, HB by (rewrite pow_add; ring). clear P3.
  un_even n. all: rad_pre n; rewrite ?Qr, ?Qs, ?Qt, ?Hq, ?HA, ?HB; clear Hq HA HB Qr Qs Qt.
  all: inr_lits; rewrite ?pow1, ?pow2_pred by lia; nz_facts n; generalize dependent (INR n); intros N; intros.
  all: field; side.
Qed.
Definition un67_groups (n : nat) (B C D s t : R) : list group :=
  [(B, [([1; - (1)], 1%nat); ([0], (n - 1)%nat)]); (C, [([s; - s], n)]); (D, [([t; - t], 2%nat); ([0], (n - 2)%nat)])].
Lemma stroud_1967_data_run n : (2 <= n)%nat -> exists B C D s t, stroud_1967_data n = Some (gdata (un67_groups n B C D s t)) /\
  s * s = 1 / INR n /\ t * t = 1/2 /\ exact n 7 (sphereI n) (sym_rule (un67_groups n B C D s t)).
Proof.
  intros H. unfold stroud_1967_data. cbv zeta. inr_pos n. assert (P2 := pow2_nz n).
  rewrite rdiv_ok by lra. cbn [bind]. assert (0 < 1 / INR n) by (apply Rdiv_lt_0_compat; lra).
  rewrite rsqrt_ok by lra. assert (Qs : sqrt (1 / INR n) * sqrt (1 / INR n) = 1 / INR n) by (apply sqrt_sqrt; lra).
  cbn [bind]. rewrite rsqrt_ok by lra. assert (Qt : sqrt (1 / 2) * sqrt (1 / 2) = 1 / 2) by (apply sqrt_sqrt; lra).
  cbn [bind]. rewrite !rdiv_ok by (repeat (apply Rmult_integral_contrapositive; split); lra). cbn [bind].
  apply bind_fsd; [cbn; lia|]. apply bind_fsd; [cbn; lia|]. cbn [map fst snd list_sum fold_right app Nat.add].
  set (s := sqrt (1 / INR n)) in *. set (t := sqrt (1 / 2)) in *. rewrite Rpm_combine by (apply (sq_pos_nz s (1 / INR n)); auto). clearbody s t.
  do 5 eexists. split; [reflexivity|]. split; [auto|]. split; [auto|]. unfold un67_groups.
  un_even n. all: rad_pre n; rewrite ?Qs, ?Qt; clear Qs Qt; prep n; intros; field; side.
Qed.
Theorem stroud_1967_exact n : (2 <= n)%nat -> good_scheme n 7 (sphereI n) (stroud_1967 n).
Proof.
  intros H. unfold stroud_1967. destruct (stroud_1967_data_run n H) as [B [C [D [s [t [E [_ [_ Hx]]]]]]]]. rewrite E. cbn [bind].
  apply from_data_good. auto.
Qed.
