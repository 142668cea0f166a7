(** C77: the schemes that mix closed forms with decimal literals.  The specification is in DecSpec.v and RestSpec.v; the integrals
    are those of IntegralSpec.v, SphereSpec.v and PyraSpec.v; leggauss_ok is in LegSpec.v. *)
From Coq Require Import Reals List Arith Lia Lra.
From Verif Require Import Spec IntegralSpec SphereSpec PyraSpec PyBase GeomModel PyraModel FixSpec DecSpec LegSpec PropS2S3 RestModel RestSpec RestProofs RestConical RestSphere.
Import ListNotations.
Open Scope R_scope.

(** c3.sarma_stroud returns a scheme that is exact up to degree 7, whatever the digits of its parameter. *)
Theorem C77_c3_sarma_stroud : exists s, c3_sarma_stroud = Some (s, 1.0e-14) /\ delivers (cube_mean 3) 3 7 (Some s).
Proof. exact c3_sarma_stroud_ok. Qed.
Print Assumptions C77_c3_sarma_stroud.
Theorem C77_s2_mysovskih_3 : reaches 1 (ball_mean 2) 2 15 s2_mysovskih_3.
Proof. exact s2_mysovskih_3_ok. Qed.
Print Assumptions C77_s2_mysovskih_3.
(** felippa_9 on every pyramid with a parallelogram as base. *)
Theorem C77_p3_felippa_9 : reaches_pyramid 1 5 p3_felippa_9.
Proof. exact p3_felippa_9_ok. Qed.
Print Assumptions C77_p3_felippa_9.
(** The conical product rules, for every leggauss that keeps its contract. *)
Theorem C77_conical leggauss : leggauss_ok leggauss ->
  reaches 1 (simplex_mean 2) 3 7 (t2_stroud_7_1 leggauss) /\ reaches 1 (simplex_mean 3) 4 7 (t3_stroud_7_1 leggauss).
Proof. intros H. split; [apply t2_stroud_7_1_ok|apply t3_stroud_7_1_ok]; auto. Qed.
Print Assumptions C77_conical.
Example C77_leggauss_exists : exists leggauss, leggauss_ok leggauss.
Proof. exact C57_leggauss_exists. Qed.
(** u3.mclaren_10 = u3.stroud_u3_14_1, and the rule for the ball built from it. *)
Theorem C77_u3_mclaren_10 : reaches 1 (sphere_mean 3) 3 14 u3_mclaren_10.
Proof. exact u3_mclaren_10_ok. Qed.
Print Assumptions C77_u3_mclaren_10.
Theorem C77_s3_stroud_14_1 : reaches 1 (ball_mean 3) 3 14 s3_stroud_14_1_full.
Proof. exact s3_stroud_14_1_ok. Qed.
Print Assumptions C77_s3_stroud_14_1.
(** e3r2.stroud_e3r2_14_1 misses its own tolerance: on the monomial x^14 by more than a factor 20, on no polynomial by more than a
    factor 40. *)
Theorem C77_e3r2_stroud_14_1 : reaches 40 (enr2_mean 3) 3 14 e3r2_stroud_14_1.
Proof. exact e3r2_stroud_14_1_ok. Qed.
Print Assumptions C77_e3r2_stroud_14_1.
Theorem C77_tolerance_refuted : misses 20 (enr2_mean 3) 3 14 e3r2_stroud_14_1.
Proof. exact e3r2_stroud_14_1_miss. Qed.
Print Assumptions C77_tolerance_refuted.
(** A polynomial of degree 14 and a pyramid that the theorems speak about. *)
Example C77_poly : mp_ok 3 14 [(3, [14; 0; 0]%nat); (-1, [2; 4; 6]%nat); (5, [1; 0; 0]%nat)].
Proof. repeat constructor; cbn; lia. Qed.
Example C77_pyramid : det 3 [[2; 0; 0]; [0; 3; 0]; [1; 1; 4]] = 24.
Proof. cbn. lra. Qed.
