(** C76: the n-dimensional schemes of Stenger and of Stroud (1967) whose data are tables of decimal numbers per dimension: for every
    dimension in the table the rule agrees with the mean value over the ball (sn) or with the weight exp(-|x|^2) (enr2) on every
    polynomial of the declared degree, up to a stated multiple of the scheme's own test_tolerance; for every other dimension the
    constructor raises. *)
From Coq Require Import Reals List Arith Lia Lra Permutation Bool ZArith QArith Qreals.
From Verif Require Import Spec CombModel PyBase SymmModel CnModel MsModel S2Model IntegralSpec SphereSpec SphereInt RadialInt Tower TowerMoments NearTools DecSpec DecTools
  SchemeTools FsNear StengerModel StengerProofs.
Import ListNotations.
Open Scope R_scope.

Ltac outside f table := let n := fresh "n" in let H := fresh "H" in intros n H; unfold f, table;
  do 8 (destruct n as [|n]; [try reflexivity; exfalso; apply H; cbn; tauto|]); reflexivity.

Theorem C76_sn_stenger_7a :
  reaches 1 (ball_mean 3) 3 7 (sn_stenger_7a 3) /\
  reaches 1 (ball_mean 4) 4 7 (sn_stenger_7a 4) /\
  reaches 1 (ball_mean 5) 5 7 (sn_stenger_7a 5) /\
  reaches 2 (ball_mean 6) 6 7 (sn_stenger_7a 6) /\
  (forall n, ~ In n [3; 4; 5; 6]%nat -> sn_stenger_7a n = None).
Proof. repeat match goal with |- _ /\ _ => split end; [sn_near sn_stenger_7a_table|sn_near sn_stenger_7a_table|sn_near sn_stenger_7a_table|sn_near sn_stenger_7a_table|outside sn_stenger_7a sn_stenger_7a_table]. Qed.
Print Assumptions C76_sn_stenger_7a.

Theorem C76_sn_stenger_7b :
  reaches 1 (ball_mean 3) 3 7 (sn_stenger_7b 3) /\
  reaches 2 (ball_mean 4) 4 7 (sn_stenger_7b 4) /\
  reaches 1 (ball_mean 5) 5 7 (sn_stenger_7b 5) /\
  reaches 1 (ball_mean 6) 6 7 (sn_stenger_7b 6) /\
  (forall n, ~ In n [3; 4; 5; 6]%nat -> sn_stenger_7b n = None).
Proof. repeat match goal with |- _ /\ _ => split end; [sn_near sn_stenger_7b_table|sn_near sn_stenger_7b_table|sn_near sn_stenger_7b_table|sn_near sn_stenger_7b_table|outside sn_stenger_7b sn_stenger_7b_table]. Qed.
Print Assumptions C76_sn_stenger_7b.

Theorem C76_sn_stenger_9a :
  reaches 1 (ball_mean 3) 3 9 (sn_stenger_9a 3) /\
  reaches 1 (ball_mean 4) 4 9 (sn_stenger_9a 4) /\
  reaches 1 (ball_mean 5) 5 9 (sn_stenger_9a 5) /\
  reaches 1 (ball_mean 6) 6 9 (sn_stenger_9a 6) /\
  (forall n, ~ In n [3; 4; 5; 6]%nat -> sn_stenger_9a n = None).
Proof. repeat match goal with |- _ /\ _ => split end; [sn_near sn_stenger_9a_table|sn_near sn_stenger_9a_table|sn_near sn_stenger_9a_table|sn_near sn_stenger_9a_table|outside sn_stenger_9a sn_stenger_9a_table]. Qed.
Print Assumptions C76_sn_stenger_9a.

Theorem C76_sn_stenger_9b :
  reaches 1 (ball_mean 4) 4 9 (sn_stenger_9b 4) /\
  reaches 1 (ball_mean 5) 5 9 (sn_stenger_9b 5) /\
  reaches 1 (ball_mean 6) 6 9 (sn_stenger_9b 6) /\
  (forall n, ~ In n [4; 5; 6]%nat -> sn_stenger_9b n = None).
Proof. repeat match goal with |- _ /\ _ => split end; [sn_near sn_stenger_9b_table|sn_near sn_stenger_9b_table|sn_near sn_stenger_9b_table|outside sn_stenger_9b sn_stenger_9b_table]. Qed.
Print Assumptions C76_sn_stenger_9b.

Theorem C76_sn_stenger_11a :
  reaches 1 (ball_mean 3) 3 11 (sn_stenger_11a 3) /\
  reaches 1 (ball_mean 4) 4 11 (sn_stenger_11a 4) /\
  (forall n, ~ In n [3; 4]%nat -> sn_stenger_11a n = None).
Proof. repeat match goal with |- _ /\ _ => split end; [sn_near sn_stenger_11a_table|sn_near sn_stenger_11a_table|outside sn_stenger_11a sn_stenger_11a_table]. Qed.
Print Assumptions C76_sn_stenger_11a.

Theorem C76_sn_stenger_11b :
  reaches 1 (ball_mean 4) 4 11 (sn_stenger_11b 4) /\
  reaches 2 (ball_mean 5) 5 11 (sn_stenger_11b 5) /\
  (forall n, ~ In n [4; 5]%nat -> sn_stenger_11b n = None).
Proof. repeat match goal with |- _ /\ _ => split end; [sn_near sn_stenger_11b_table|sn_near sn_stenger_11b_table|outside sn_stenger_11b sn_stenger_11b_table]. Qed.
Print Assumptions C76_sn_stenger_11b.

Theorem C76_enr2_stenger_7a :
  reaches 1 (enr2_mean 3) 3 7 (enr2_stenger_7a 3) /\
  reaches 2 (enr2_mean 4) 4 7 (enr2_stenger_7a 4) /\
  reaches 7 (enr2_mean 6) 6 7 (enr2_stenger_7a 6) /\
  (forall n, ~ In n [3; 4; 6]%nat -> enr2_stenger_7a n = None).
Proof. repeat match goal with |- _ /\ _ => split end; [enr2_near enr2_stenger_7a_table|enr2_near enr2_stenger_7a_table|enr2_near enr2_stenger_7a_table|outside enr2_stenger_7a enr2_stenger_7a_table]. Qed.
Print Assumptions C76_enr2_stenger_7a.

Theorem C76_enr2_stenger_7b :
  reaches 2 (enr2_mean 3) 3 7 (enr2_stenger_7b 3) /\
  reaches 2 (enr2_mean 4) 4 7 (enr2_stenger_7b 4) /\
  reaches 2 (enr2_mean 5) 5 7 (enr2_stenger_7b 5) /\
  reaches 2 (enr2_mean 6) 6 7 (enr2_stenger_7b 6) /\
  (forall n, ~ In n [3; 4; 5; 6]%nat -> enr2_stenger_7b n = None).
Proof. repeat match goal with |- _ /\ _ => split end; [enr2_near enr2_stenger_7b_table|enr2_near enr2_stenger_7b_table|enr2_near enr2_stenger_7b_table|enr2_near enr2_stenger_7b_table|outside enr2_stenger_7b enr2_stenger_7b_table]. Qed.
Print Assumptions C76_enr2_stenger_7b.

Theorem C76_enr2_stenger_9a :
  reaches 5 (enr2_mean 3) 3 9 (enr2_stenger_9a 3) /\
  reaches 5 (enr2_mean 4) 4 9 (enr2_stenger_9a 4) /\
  reaches 4 (enr2_mean 5) 5 9 (enr2_stenger_9a 5) /\
  reaches 4 (enr2_mean 6) 6 9 (enr2_stenger_9a 6) /\
  (forall n, ~ In n [3; 4; 5; 6]%nat -> enr2_stenger_9a n = None).
Proof. repeat match goal with |- _ /\ _ => split end; [enr2_near enr2_stenger_9a_table|enr2_near enr2_stenger_9a_table|enr2_near enr2_stenger_9a_table|enr2_near enr2_stenger_9a_table|outside enr2_stenger_9a enr2_stenger_9a_table]. Qed.
Print Assumptions C76_enr2_stenger_9a.

Theorem C76_enr2_stenger_9b :
  reaches 4 (enr2_mean 4) 4 9 (enr2_stenger_9b 4) /\
  reaches 4 (enr2_mean 5) 5 9 (enr2_stenger_9b 5) /\
  reaches 5 (enr2_mean 6) 6 9 (enr2_stenger_9b 6) /\
  (forall n, ~ In n [4; 5; 6]%nat -> enr2_stenger_9b n = None).
Proof. repeat match goal with |- _ /\ _ => split end; [enr2_near enr2_stenger_9b_table|enr2_near enr2_stenger_9b_table|enr2_near enr2_stenger_9b_table|outside enr2_stenger_9b enr2_stenger_9b_table]. Qed.
Print Assumptions C76_enr2_stenger_9b.

Theorem C76_enr2_stenger_11a :
  reaches 1 (enr2_mean 3) 3 11 (enr2_stenger_11a 3) /\
  reaches 3 (enr2_mean 4) 4 11 (enr2_stenger_11a 4) /\
  (forall n, ~ In n [3; 4]%nat -> enr2_stenger_11a n = None).
Proof. repeat match goal with |- _ /\ _ => split end; [enr2_near enr2_stenger_11a_table|enr2_near enr2_stenger_11a_table|outside enr2_stenger_11a enr2_stenger_11a_table]. Qed.
Print Assumptions C76_enr2_stenger_11a.

Theorem C76_enr2_stenger_11b :
  reaches 1 (enr2_mean 3) 3 11 (enr2_stenger_11b 3) /\
  reaches 1 (enr2_mean 4) 4 11 (enr2_stenger_11b 4) /\
  reaches 2 (enr2_mean 5) 5 11 (enr2_stenger_11b 5) /\
  (forall n, ~ In n [3; 4; 5]%nat -> enr2_stenger_11b n = None).
Proof. repeat match goal with |- _ /\ _ => split end; [enr2_near enr2_stenger_11b_table|enr2_near enr2_stenger_11b_table|enr2_near enr2_stenger_11b_table|outside enr2_stenger_11b enr2_stenger_11b_table]. Qed.
Print Assumptions C76_enr2_stenger_11b.

Theorem C76_sn_stroud_1967_5_a :
  reaches 1 (ball_mean 4) 4 5 (sn_stroud_1967_5_a 4) /\
  reaches 1 (ball_mean 5) 5 5 (sn_stroud_1967_5_a 5) /\
  reaches 1 (ball_mean 6) 6 5 (sn_stroud_1967_5_a 6) /\
  reaches 1 (ball_mean 7) 7 5 (sn_stroud_1967_5_a 7) /\
  (forall n, ~ In n [4; 5; 6; 7]%nat -> sn_stroud_1967_5_a n = None).
Proof.
  repeat match goal with |- _ /\ _ => split end.
  - s67_near (ball_moments 4) (ballQ_perm 4) false sn_stroud_1967_5_a_table (@None Q).
  - s67_near (ball_moments 5) (ballQ_perm 5) false sn_stroud_1967_5_a_table (@None Q).
  - s67_near (ball_moments 6) (ballQ_perm 6) false sn_stroud_1967_5_a_table (@None Q).
  - s67_near (ball_moments 7) (ballQ_perm 7) false sn_stroud_1967_5_a_table (Some 0.493827160493827e-01%Q).
  - outside sn_stroud_1967_5_a sn_stroud_1967_5_a_table.
Qed.
Print Assumptions C76_sn_stroud_1967_5_a.

Theorem C76_sn_stroud_1967_5_b :
  reaches 1 (ball_mean 4) 4 5 (sn_stroud_1967_5_b 4) /\
  reaches 1 (ball_mean 5) 5 5 (sn_stroud_1967_5_b 5) /\
  reaches 1 (ball_mean 6) 6 5 (sn_stroud_1967_5_b 6) /\
  reaches 1 (ball_mean 7) 7 5 (sn_stroud_1967_5_b 7) /\
  (forall n, ~ In n [4; 5; 6; 7]%nat -> sn_stroud_1967_5_b n = None).
Proof.
  repeat match goal with |- _ /\ _ => split end.
  - s67_near (ball_moments 4) (ballQ_perm 4) false sn_stroud_1967_5_b_table (@None Q).
  - s67_near (ball_moments 5) (ballQ_perm 5) false sn_stroud_1967_5_b_table (@None Q).
  - s67_near (ball_moments 6) (ballQ_perm 6) false sn_stroud_1967_5_b_table (@None Q).
  - s67_near (ball_moments 7) (ballQ_perm 7) false sn_stroud_1967_5_b_table (Some 0.493827160493827e-01%Q).
  - outside sn_stroud_1967_5_b sn_stroud_1967_5_b_table.
Qed.
Print Assumptions C76_sn_stroud_1967_5_b.

Theorem C76_enr2_stroud_1967_5_a :
  reaches 1 (enr2_mean 2) 2 5 (enr2_stroud_1967_5_a 2) /\
  reaches 1 (enr2_mean 3) 3 5 (enr2_stroud_1967_5_a 3) /\
  reaches 1 (enr2_mean 4) 4 5 (enr2_stroud_1967_5_a 4) /\
  reaches 1 (enr2_mean 5) 5 5 (enr2_stroud_1967_5_a 5) /\
  reaches 0 (enr2_mean 6) 6 5 (enr2_stroud_1967_5_a 6) /\
  (forall n, ~ In n [2; 3; 4; 5; 6]%nat -> enr2_stroud_1967_5_a n = None).
Proof.
  repeat match goal with |- _ /\ _ => split end.
  - s67_near (enr2_moments 1) (enr2Q_perm 2) true enr2_stroud_1967_5_a_table (@None Q).
  - s67_near (enr2_moments 2) (enr2Q_perm 3) true enr2_stroud_1967_5_a_table (@None Q).
  - s67_near (enr2_moments 3) (enr2Q_perm 4) true enr2_stroud_1967_5_a_table (@None Q).
  - s67_near (enr2_moments 4) (enr2Q_perm 5) true enr2_stroud_1967_5_a_table (@None Q).
  - rewrite enr2_1967_6_run; apply (reaches_exact _ 6 5 (enr2Q 6)); [exact (enr2_moments 5)|reflexivity|lra|exact enr2_1967_6_exact].
  - outside enr2_stroud_1967_5_a enr2_stroud_1967_5_a_table.
Qed.
Print Assumptions C76_enr2_stroud_1967_5_a.

Theorem C76_enr2_stroud_1967_5_b :
  reaches 1 (enr2_mean 3) 3 5 (enr2_stroud_1967_5_b 3) /\
  reaches 1 (enr2_mean 5) 5 5 (enr2_stroud_1967_5_b 5) /\
  reaches 1 (enr2_mean 6) 6 5 (enr2_stroud_1967_5_b 6) /\
  reaches 1 (enr2_mean 7) 7 5 (enr2_stroud_1967_5_b 7) /\
  (forall n, ~ In n [3; 5; 6; 7]%nat -> enr2_stroud_1967_5_b n = None).
Proof.
  repeat match goal with |- _ /\ _ => split end.
  - s67_near (enr2_moments 2) (enr2Q_perm 3) true enr2_stroud_1967_5_b_table (@None Q).
  - s67_near (enr2_moments 4) (enr2Q_perm 5) true enr2_stroud_1967_5_b_table (@None Q).
  - s67_near (enr2_moments 5) (enr2Q_perm 6) true enr2_stroud_1967_5_b_table (@None Q).
  - s67_near (enr2_moments 6) (enr2Q_perm 7) true enr2_stroud_1967_5_b_table (Some (2 * (1 / 9))%Q).
  - outside enr2_stroud_1967_5_b enr2_stroud_1967_5_b_table.
Qed.
Print Assumptions C76_enr2_stroud_1967_5_b.

(** Where the factor exceeds 1 for the constant 1: the weights do not sum to 1 within test_tolerance. *)
Theorem C76_within_own_tolerance_refuted :
  misses 1 (ball_mean 6) 6 7 (sn_stenger_7a 6) /\
  misses 1 (ball_mean 4) 4 7 (sn_stenger_7b 4) /\
  misses 1 (ball_mean 5) 5 11 (sn_stenger_11b 5) /\
  misses 1 (enr2_mean 4) 4 7 (enr2_stenger_7a 4) /\
  misses 6 (enr2_mean 6) 6 7 (enr2_stenger_7a 6).
Proof.
  repeat match goal with |- _ /\ _ => split end.
  - sn_far sn_stenger_7a_table.
  - sn_far sn_stenger_7b_table.
  - sn_far sn_stenger_11b_table.
  - enr2_far enr2_stenger_7a_table (repeat 0%nat 4).
  - enr2_far enr2_stenger_7a_table (repeat 0%nat 6).
Qed.
Print Assumptions C76_within_own_tolerance_refuted.

(** Non-vacuity: a polynomial of degree 11 in four variables and the rules it is used with. *)
Example C76_use s tol : sn_stenger_11a 4 = Some (s, tol) ->
  Rabs (apply (s_rule s) (mpeval [(3, [4; 2; 4; 0]%nat); (-2, [1; 0; 0; 9]%nat)]) - ball_mean 4 (mpeval [(3, [4; 2; 4; 0]%nat); (-2, [1; 0; 0; 9]%nat)])) <= 5 * tol.
Proof.
  intros E. destruct C76_sn_stenger_11a as [_ [[s' [tol' [E' [_ [_ [_ H]]]]]] _]]. rewrite E in E'. injection E' as -> ->.
  eapply Rle_trans; [apply H; repeat constructor|]. cbn [map Rsum fst]. rewrite (Rabs_pos_eq 3), (Rabs_left (-2)) by lra. lra.
Qed.
Example C76_runs : exists s tol, sn_stenger_11a 4 = Some (s, tol) /\ s_dim s = 4%nat.
Proof.
  destruct C76_sn_stenger_11a as [_ [[s [tol [E _]]] _]]. exists s, tol. split; [exact E|].
  revert E. unfold sn_stenger_11a. cbn [sn_stenger_11a_table bind]. destruct (opt_all _); [|discriminate]. cbn [bind]. unfold ms_scheme. destruct (Req_EM_T _ _); [discriminate|].
  destruct (untangle l). cbn [bind]. intros E. injection E as <- _. reflexivity.
Qed.
