(** C25, C64: Stroud's formula of degree 11 for the sphere (un.stroud_1969, u3.stroud_u3_11_2).
    [builds_sphere_scheme n d r] (PropRadial.v): the call r returns a scheme in n variables which declares degree d and gives
    exactly the mean value over the unit sphere of every monomial of total degree at most d; [linear_solver] (what
    np.linalg.solve promises) is in RootSpec.v. *)
From Coq Require Import Reals List Arith Lia Lra.
From Verif Require Import Spec IntegralSpec SphereSpec RootSpec RootSat PyBase CnModel FixSpec UnModel UnModel2 UnProofs5 PropRadial.
Import ListNotations.
Set Bullet Behavior "Strict Subproofs".
Open Scope R_scope.

Theorem C25_stroud_1969 : forall solve, linear_solver solve -> forall n, (3 <= n)%nat -> builds_sphere_scheme n 11 (un_stroud_1969 solve n).
Proof. intros solve HS n Hn. exact (un_stroud_1969_exact solve n HS Hn). Qed.
Print Assumptions C25_stroud_1969.
(** for smaller dimensions the call fails *)
Theorem C25_stroud_1969_domain : forall solve n, (n <= 2)%nat -> un_stroud_1969 solve n = None.
Proof. intros solve n H. destruct n as [|[|[|n]]]; [reflexivity..|lia]. Qed.
Theorem C64_stroud_u3_11_2 : forall solve, linear_solver solve -> delivers (sphere_mean 3) 3 11 (un_stroud_1969 solve 3).
Proof.
  intros solve HS. destruct (C25_stroud_1969 solve HS 3 ltac:(lia)) as [s [E [D [G [Hd He]]]]]. exists s. auto.
Qed.
Print Assumptions C64_stroud_u3_11_2.
Example C25_stroud_1969_ex : exists solve, linear_solver solve /\ builds_sphere_scheme 3 11 (un_stroud_1969 solve 3) /\
  builds_sphere_scheme 4 11 (un_stroud_1969 solve 4) /\ builds_sphere_scheme 7 11 (un_stroud_1969 solve 7).
Proof. destruct linear_solver_exists as [f Hf]. exists f. split; auto. repeat split; apply C25_stroud_1969; auto; lia. Qed.
