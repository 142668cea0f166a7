(** C62, C63: the schemes for the triangle and the tetrahedron.
    [delivers M n d r] (FixSpec.v): the call [r] returns a scheme which declares degree d and gives exactly the mean value M
    of every monomial in n variables of total degree at most d.  The variables are the barycentric coordinates of the
    simplex (n = 3 for the triangle and n = 4 for the tetrahedron), so that every polynomial on the simplex is covered;
    [simplex_mean] is in IntegralSpec.v. *)
From Coq Require Import Reals List Arith ZArith Lia Lra.
From Verif Require Import Spec IntegralSpec PyBase FixSpec GwModel GwSpec T2Model T2Proofs T2Lether T3Model T3Proofs T3Cubic PropGw.
Import ListNotations.
Set Bullet Behavior "Strict Subproofs".
Open Scope R_scope.

(* ------------------------------------------------------------------ C62 *)
Theorem C62_triangle : List.Forall (fun c => delivers (simplex_mean 2) 3 (fst c) (snd c))
    [(3, t2_albrecht_collatz); (1, t2_centroid); (1, t2_vertex); (3, t2_seven_point);
     (1, t2_hammer_marlowe_stroud_1); (2, t2_hammer_marlowe_stroud_2); (2, t2_hammer_marlowe_stroud_3); (3, t2_hammer_marlowe_stroud_4);
     (5, t2_hammer_marlowe_stroud_5); (1, t2_hillion_01); (2, t2_hillion_02); (2, t2_hillion_03);
     (2, t2_hillion_04); (2, t2_hillion_05); (2, t2_hillion_06); (3, t2_hillion_07);
     (3, t2_hillion_08); (3, t2_hillion_09); (3, t2_hillion_10); (2, t2_liu_vinokur_03);
     (2, t2_liu_vinokur_04); (3, t2_liu_vinokur_05); (3, t2_liu_vinokur_06); (4, t2_liu_vinokur_08);
     (4, t2_liu_vinokur_09); (4, t2_liu_vinokur_10); (4, t2_liu_vinokur_11); (5, t2_liu_vinokur_12);
     (5, t2_liu_vinokur_13); (2, t2_lyness_jespersen_01); (2, t2_lyness_jespersen_02); (3, t2_lyness_jespersen_03);
     (4, t2_lyness_jespersen_06); (4, t2_lyness_jespersen_07); (5, t2_lyness_jespersen_08); (5, t2_lyness_jespersen_09);
     (6, t2_lyness_jespersen_11); (5, t2_walkington_p5)]%nat.
Proof.
  constructor; [exact t2_albrecht_collatz_ok|].
  constructor; [exact t2_centroid_ok|].
  constructor; [exact t2_vertex_ok|].
  constructor; [exact t2_seven_point_ok|].
  constructor; [exact t2_hammer_marlowe_stroud_1_ok|].
  constructor; [exact t2_hammer_marlowe_stroud_2_ok|].
  constructor; [exact t2_hammer_marlowe_stroud_3_ok|].
  constructor; [exact t2_hammer_marlowe_stroud_4_ok|].
  constructor; [exact t2_hammer_marlowe_stroud_5_ok|].
  constructor; [exact t2_hillion_01_ok|].
  constructor; [exact t2_hillion_02_ok|].
  constructor; [exact t2_hillion_03_ok|].
  constructor; [exact t2_hillion_04_ok|].
  constructor; [exact t2_hillion_05_ok|].
  constructor; [exact t2_hillion_06_ok|].
  constructor; [exact t2_hillion_07_ok|].
  constructor; [exact t2_hillion_08_ok|].
  constructor; [exact t2_hillion_09_ok|].
  constructor; [exact t2_hillion_10_ok|].
  constructor; [exact t2_liu_vinokur_03_ok|].
  constructor; [exact t2_liu_vinokur_04_ok|].
  constructor; [exact t2_liu_vinokur_05_ok|].
  constructor; [exact t2_liu_vinokur_06_ok|].
  constructor; [exact t2_liu_vinokur_08_ok|].
  constructor; [exact t2_liu_vinokur_09_ok|].
  constructor; [exact t2_liu_vinokur_10_ok|].
  constructor; [exact t2_liu_vinokur_11_ok|].
  constructor; [exact t2_liu_vinokur_12_ok|].
  constructor; [exact t2_liu_vinokur_13_ok|].
  constructor; [exact t2_lyness_jespersen_01_ok|].
  constructor; [exact t2_lyness_jespersen_02_ok|].
  constructor; [exact t2_lyness_jespersen_03_ok|].
  constructor; [exact t2_lyness_jespersen_06_ok|].
  constructor; [exact t2_lyness_jespersen_07_ok|].
  constructor; [exact t2_lyness_jespersen_08_ok|].
  constructor; [exact t2_lyness_jespersen_09_ok|].
  constructor; [exact t2_lyness_jespersen_11_ok|].
  constructor; [exact t2_walkington_p5_ok|].
  constructor.
Qed.
Print Assumptions C62_triangle.
(** The conical product rule t2.lether(n), of every order; [eigh] is the eigenvalue solver behind the one-dimensional rules
    it is made of (GwSpec.v). *)
Theorem C62_lether : forall eigh n, eigen_solver eigh -> (1 <= n)%nat -> delivers (simplex_mean 2) 3 (2 * (n - 1)) (t2_lether eigh n).
Proof. exact t2_lether_ok. Qed.
Print Assumptions C62_lether.
Example C62_ex_lether : exists eigh, delivers (simplex_mean 2) 3 8 (t2_lether eigh 5).
Proof. destruct C33_solver_exists as [eigh HE]. exists eigh. apply (C62_lether eigh 5 HE). lia. Qed.

(* ------------------------------------------------------------------ C63 *)
Theorem C63_tetrahedron : List.Forall (fun c => delivers (simplex_mean 3) 4 (fst c) (snd c))
    [(2, t3_hammer_marlowe_stroud_1); (2, t3_hammer_marlowe_stroud_2); (3, t3_hammer_marlowe_stroud_3); (1, t3_liu_vinokur_01);
     (1, t3_liu_vinokur_02); (2, t3_liu_vinokur_03); (2, t3_liu_vinokur_04); (3, t3_liu_vinokur_05);
     (3, t3_liu_vinokur_06); (4, t3_liu_vinokur_07); (4, t3_liu_vinokur_08); (4, t3_liu_vinokur_09);
     (4, t3_liu_vinokur_10); (4, t3_liu_vinokur_11); (5, t3_liu_vinokur_13); (5, t3_liu_vinokur_14)]%nat.
Proof.
  constructor; [exact t3_hammer_marlowe_stroud_1_ok|].
  constructor; [exact t3_hammer_marlowe_stroud_2_ok|].
  constructor; [exact t3_hammer_marlowe_stroud_3_ok|].
  constructor; [exact t3_liu_vinokur_01_ok|].
  constructor; [exact t3_liu_vinokur_02_ok|].
  constructor; [exact t3_liu_vinokur_03_ok|].
  constructor; [exact t3_liu_vinokur_04_ok|].
  constructor; [exact t3_liu_vinokur_05_ok|].
  constructor; [exact t3_liu_vinokur_06_ok|].
  constructor; [exact t3_liu_vinokur_07_ok|].
  constructor; [exact t3_liu_vinokur_08_ok|].
  constructor; [exact t3_liu_vinokur_09_ok|].
  constructor; [exact t3_liu_vinokur_10_ok|].
  constructor; [exact t3_liu_vinokur_11_ok|].
  constructor; [exact t3_liu_vinokur_13_ok|].
  constructor; [exact t3_liu_vinokur_14_ok|].
  constructor.
Qed.
Print Assumptions C63_tetrahedron.
(** liu_vinokur_12 takes its parameter from the trigonometric solution of a cubic. *)
Theorem C63_liu_vinokur_12 : delivers (simplex_mean 3) 4 5 t3_liu_vinokur_12.
Proof. exact t3_liu_vinokur_12_ok. Qed.
Print Assumptions C63_liu_vinokur_12.
