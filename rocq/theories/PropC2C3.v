(** C56, C58, C59: the closed-form schemes for the square and the hexahedron.
    [delivers M n d r] (FixSpec.v): the call [r] returns a scheme which declares degree d and gives exactly the mean value M
    of every monomial in n variables of total degree at most d; [cube_mean n] is the iterated integral over [-1,1]^n
    divided by the volume (IntegralSpec.v). *)
From Coq Require Import Reals List Arith Lia Lra.
From Verif Require Import Spec IntegralSpec PyBase FixSpec C2Model C2Proofs C2Param C3Model C3Proofs C3Param.
Import ListNotations.
Set Bullet Behavior "Strict Subproofs".
Open Scope R_scope.

(* ------------------------------------------------------------------ C56 *)
(** c2.franke_1(lmbda) on the open interval of admitted parameters, c2.waldron(r, alpha) for every angle, and
    c3.hammer_wymore(lmbda) for every parameter for which it does not fail. *)
Theorem C56_franke_1 : forall lmbda, - (9/5) < lmbda < 9/4 -> delivers (cube_mean 2) 2 5 (c2_franke_1 lmbda).
Proof. exact franke_1_ok. Qed.
Print Assumptions C56_franke_1.
Theorem C56_waldron : forall r alpha, 1/3 < r ^ 2 -> delivers (cube_mean 2) 2 3 (c2_waldron r alpha).
Proof. exact waldron_ok. Qed.
Print Assumptions C56_waldron.
Theorem C56_hammer_wymore : forall lmbda s, c3_hammer_wymore lmbda = Some s -> delivers (cube_mean 3) 3 7 (Some s).
Proof. exact hammer_wymore_ok. Qed.
Print Assumptions C56_hammer_wymore.
(** The end points that the assertions of the code admit are divisions by zero. *)
Theorem C56_end_points_refuted :
  c2_franke_1 (-(9/5)) = None /\ c2_franke_1 (9/4) = None /\ (forall r alpha, r ^ 2 = 1/3 -> c2_waldron r alpha = None).
Proof. split; [apply franke_1_ends; auto|]. split; [apply franke_1_ends; auto|apply waldron_end]. Qed.
Print Assumptions C56_end_points_refuted.
Example C56_ex_franke_1 : delivers (cube_mean 2) 2 5 (c2_franke_1 0). Proof. apply C56_franke_1; lra. Qed.
Example C56_ex_waldron : delivers (cube_mean 2) 2 3 (c2_waldron 1 (1/7)). Proof. apply C56_waldron; lra. Qed.
Example C56_ex_hammer_wymore : delivers (cube_mean 3) 3 7 (c3_hammer_wymore (27/20)). Proof. exact hammer_wymore_default. Qed.

(* ------------------------------------------------------------------ C58 *)
Theorem C58_square : List.Forall (fun c => delivers (cube_mean 2) 2 (fst c) (snd c))
    [(3, c2_albrecht_collatz_1); (5, c2_albrecht_collatz_2); (5, c2_albrecht_collatz_3); (5, c2_albrecht_collatz_4);
     (5, c2_burnside); (3, c2_cohen_gismalla_1); (7, c2_franke_6); (3, c2_hammer_stroud_1_2);
     (5, c2_hammer_stroud_2_2); (3, c2_irwin_1); (5, c2_irwin_2); (7, c2_maxwell);
     (7, c2_meister); (1, c2_miller); (7, c2_phillips); (1, c2_stroud_1_1);
     (3, c2_stroud_3_1); (5, c2_stroud_5_4); (1, c2_stroud_7_4); (5, c2_tyler_1);
     (7, c2_tyler_2); (7, c2_tyler_3); (1, c2_dunavant_00); (3, c2_dunavant_01);
     (5, c2_dunavant_02)]%nat.
Proof.
  constructor; [exact c2_albrecht_collatz_1_ok|].
  constructor; [exact c2_albrecht_collatz_2_ok|].
  constructor; [exact c2_albrecht_collatz_3_ok|].
  constructor; [exact c2_albrecht_collatz_4_ok|].
  constructor; [exact c2_burnside_ok|].
  constructor; [exact c2_cohen_gismalla_1_ok|].
  constructor; [exact c2_franke_6_ok|].
  constructor; [exact c2_hammer_stroud_1_2_ok|].
  constructor; [exact c2_hammer_stroud_2_2_ok|].
  constructor; [exact c2_irwin_1_ok|].
  constructor; [exact c2_irwin_2_ok|].
  constructor; [exact c2_maxwell_ok|].
  constructor; [exact c2_meister_ok|].
  constructor; [exact c2_miller_ok|].
  constructor; [exact c2_phillips_ok|].
  constructor; [exact c2_stroud_1_1_ok|].
  constructor; [exact c2_stroud_3_1_ok|].
  constructor; [exact c2_stroud_5_4_ok|].
  constructor; [exact c2_stroud_7_4_ok|].
  constructor; [exact c2_tyler_1_ok|].
  constructor; [exact c2_tyler_2_ok|].
  constructor; [exact c2_tyler_3_ok|].
  constructor; [exact c2_dunavant_00_ok|].
  constructor; [exact c2_dunavant_01_ok|].
  constructor; [exact c2_dunavant_02_ok|].
  constructor.
Qed.
Print Assumptions C58_square.

(* ------------------------------------------------------------------ C59 *)
Theorem C59_hexahedron : List.Forall (fun c => delivers (cube_mean 3) 3 (fst c) (snd c))
    [(1, c3_midpoint); (1, c3_vertex); (3, c3_face_midpoint); (3, c3_albrecht_collatz);
     (3, c3_hammer_stroud_1_3); (5, c3_hammer_stroud_2_3); (5, c3_hammer_stroud_4_3); (7, c3_hammer_stroud_5_3a);
     (7, c3_hammer_stroud_5_3b); (3, c3_mustard_lyness_blatt_1); (3, c3_mustard_lyness_blatt_2); (3, c3_mustard_lyness_blatt_3);
     (5, c3_mustard_lyness_blatt_4); (5, c3_mustard_lyness_blatt_5); (5, c3_mustard_lyness_blatt_6); (5, c3_mustard_lyness_blatt_7);
     (5, c3_sadowsky); (3, c3_stroud_3_2); (5, c3_stroud_1967); (3, c3_tyler_1);
     (5, c3_tyler_2)]%nat.
Proof.
  constructor; [exact c3_midpoint_ok|].
  constructor; [exact c3_vertex_ok|].
  constructor; [exact c3_face_midpoint_ok|].
  constructor; [exact c3_albrecht_collatz_ok|].
  constructor; [exact c3_hammer_stroud_1_3_ok|].
  constructor; [exact c3_hammer_stroud_2_3_ok|].
  constructor; [exact c3_hammer_stroud_4_3_ok|].
  constructor; [exact c3_hammer_stroud_5_3a_ok|].
  constructor; [exact c3_hammer_stroud_5_3b_ok|].
  constructor; [exact c3_mustard_lyness_blatt_1_ok|].
  constructor; [exact c3_mustard_lyness_blatt_2_ok|].
  constructor; [exact c3_mustard_lyness_blatt_3_ok|].
  constructor; [exact c3_mustard_lyness_blatt_4_ok|].
  constructor; [exact c3_mustard_lyness_blatt_5_ok|].
  constructor; [exact c3_mustard_lyness_blatt_6_ok|].
  constructor; [exact c3_mustard_lyness_blatt_7_ok|].
  constructor; [exact c3_sadowsky_ok|].
  constructor; [exact c3_stroud_3_2_ok|].
  constructor; [exact c3_stroud_1967_ok|].
  constructor; [exact c3_tyler_1_ok|].
  constructor; [exact c3_tyler_2_ok|].
  constructor.
Qed.
Print Assumptions C59_hexahedron.
