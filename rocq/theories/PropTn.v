(** C20-C22: the schemes for the n-simplex.
    Points are given in barycentric coordinates (n+1 numbers); the reference is the mean over the unit simplex,
    as an iterated Riemann integral (IntegralSpec.simplex_mean).  Every theorem holds for all n in the range for
    which the constructor returns a scheme.  Root finders and linear solvers are parameters that meet the
    contracts of RootSpec.v; RootSat.v shows such functions exist. *)
From Coq Require Import Reals List Arith Lia Lra.
From Verif Require Import Spec IntegralSpec IntegralProofs PyBase TnModel TnTools RootSpec RootSat
  TnProofs TnProofs2 TnProofs3 TnProofs4 TnProofs5.
Import ListNotations.
Open Scope R_scope.

(** The constructor call [r] returns a scheme in dimension n that declares degree d and whose rule reproduces
    the mean over the simplex of every monomial of total degree at most d in the n+1 barycentric coordinates. *)
Definition builds_simplex_scheme (n d : nat) (r : option scheme) : Prop :=
  exists s, r = Some s /\ s_dim s = n /\ s_degree s = d /\
    Forall (fun wp => length (snd wp) = (n + 1)%nat) (s_rule s) /\
    forall k, length k = (n + 1)%nat -> (tdeg k <= d)%nat -> apply (s_rule s) (mono k) = simplex_mean n (mono k).

(* ------------------------------------------------------------------ C20 *)
Theorem C20_stroud_tn_1_1 : forall n, builds_simplex_scheme n 1 (Some (stroud_tn_1_1 n)).
Proof. exact stroud_tn_1_1_exact. Qed.
Theorem C20_lauffer_1 : forall n, builds_simplex_scheme n 1 (lauffer_1 n).
Proof. exact lauffer_1_exact. Qed.
Theorem C20_lauffer_2 : forall n, (1 <= n)%nat -> builds_simplex_scheme n 2 (lauffer_2 n).
Proof. exact lauffer_2_exact. Qed.
Theorem C20_hammer_stroud_1a : forall n, (1 <= n)%nat -> builds_simplex_scheme n 2 (hammer_stroud_1a n).
Proof. exact hammer_stroud_1a_exact. Qed.
Theorem C20_hammer_stroud_1b : forall n, (1 <= n)%nat -> builds_simplex_scheme n 2 (hammer_stroud_1b n).
Proof. exact hammer_stroud_1b_exact. Qed.
Print Assumptions C20_stroud_tn_1_1.
Print Assumptions C20_lauffer_1.
Print Assumptions C20_lauffer_2.
Print Assumptions C20_hammer_stroud_1a.
Print Assumptions C20_hammer_stroud_1b.
(** The reference means are not trivial: e.g. the mean of x_0 x_1 over the triangle is 1/12. *)
Example C20_ex : simplex_mean 2 (mono [1; 1; 0]%nat) = 1 / 12.
Proof. rewrite simplex_mean_mono by reflexivity. unfold simplex_moment. cbn. field. Qed.

(* ------------------------------------------------------------------ C21 *)
Theorem C21_lauffer_3 : forall n, (2 <= n)%nat -> builds_simplex_scheme n 3 (lauffer_3 n).
Proof. exact lauffer_3_exact. Qed.
Theorem C21_hammer_stroud_2 : forall n, (1 <= n)%nat -> builds_simplex_scheme n 3 (hammer_stroud_2 n).
Proof. exact hammer_stroud_2_exact. Qed.
Theorem C21_stroud_1961 : forall n, (1 <= n)%nat -> builds_simplex_scheme n 3 (stroud_1961 n).
Proof. exact stroud_1961_exact. Qed.
Theorem C21_stroud_1964 : forall roots (variant_a : bool) n, root_finder roots -> (2 <= n)%nat ->
  (variant_a = true -> (n <= 8)%nat) -> builds_simplex_scheme n 3 (stroud_1964 roots variant_a n).
Proof. exact stroud_1964_exact. Qed.
Theorem C21_stroud_1966_1 : forall n, (1 <= n)%nat -> builds_simplex_scheme n 3 (stroud_1966_1 n).
Proof. exact stroud_1966_1_exact. Qed.
Theorem C21_stroud_1966_2 : forall min_root n, min_root_finder min_root -> (1 <= n)%nat -> n <> 2%nat ->
  builds_simplex_scheme n 3 (stroud_1966_2 min_root n).
Proof. exact stroud_1966_2_built. Qed.
(** In dimension 2 the only admissible root makes a denominator vanish: no scheme is built. *)
Theorem C21_stroud_1966_2_refuted : forall min_root, min_root_finder min_root -> stroud_1966_2 min_root 2 = None.
Proof. exact stroud_1966_2_dim2. Qed.
Theorem C21_stroud_1966_3 : forall n, (3 <= n)%nat -> builds_simplex_scheme n 3 (stroud_1966_3 n).
Proof. exact stroud_1966_3_exact. Qed.
Theorem C21_stroud_1966_4 : forall n, (3 <= n)%nat -> builds_simplex_scheme n 3 (stroud_1966_4 n).
Proof. exact stroud_1966_4_exact. Qed.
Theorem C21_stroud_1966_5 : forall n, (2 <= n)%nat -> builds_simplex_scheme n 3 (stroud_1966_5 n).
Proof. exact stroud_1966_5_exact. Qed.
Theorem C21_stroud_1966_6 : forall n, (3 <= n)%nat -> n <> 5%nat -> builds_simplex_scheme n 3 (stroud_1966_6 n).
Proof. exact stroud_1966_6_exact. Qed.
Theorem C21_stroud_1966_7 : forall n, (3 <= n)%nat -> n <> 5%nat -> builds_simplex_scheme n 3 (stroud_1966_7 n).
Proof. exact stroud_1966_7_exact. Qed.
Theorem C21_walkington_1 : forall n, builds_simplex_scheme n 1 (walkington_1 n).
Proof. exact walkington_1_exact. Qed.
Theorem C21_walkington_2 : forall n, (1 <= n)%nat -> builds_simplex_scheme n 1 (walkington_2 n).
Proof. exact walkington_2_exact. Qed.
Theorem C21_walkington_3 : forall n, (1 <= n)%nat -> builds_simplex_scheme n 3 (walkington_3 n).
Proof. exact walkington_3_exact. Qed.
Print Assumptions C21_lauffer_3.
Print Assumptions C21_hammer_stroud_2.
Print Assumptions C21_stroud_1961.
Print Assumptions C21_stroud_1964.
Print Assumptions C21_stroud_1966_1.
Print Assumptions C21_stroud_1966_2.
Print Assumptions C21_stroud_1966_2_refuted.
Print Assumptions C21_stroud_1966_3.
Print Assumptions C21_stroud_1966_4.
Print Assumptions C21_stroud_1966_5.
Print Assumptions C21_stroud_1966_6.
Print Assumptions C21_stroud_1966_7.
Print Assumptions C21_walkington_1.
Print Assumptions C21_walkington_2.
Print Assumptions C21_walkington_3.
(** The hypotheses on root finders are met: there is a root finder, and it builds the scheme in dimension 8. *)
Example C21_ex_roots : exists roots, root_finder roots /\ builds_simplex_scheme 8 3 (stroud_1964 roots true 8).
Proof. destruct root_finder_exists as [f Hf]. exists f. split; auto. apply C21_stroud_1964; auto; lia. Qed.
Example C21_ex_min_root : exists min_root, min_root_finder min_root /\ builds_simplex_scheme 3 3 (stroud_1966_2 min_root 3).
Proof. destruct min_root_finder_exists as [f Hf]. exists f. split; auto. apply C21_stroud_1966_2; auto; lia. Qed.
Example C21_ex : simplex_mean 3 (mono [2; 1; 0; 0]%nat) = 1 / 60.
Proof. rewrite simplex_mean_mono by reflexivity. unfold simplex_moment. cbn. field. Qed.

(* ------------------------------------------------------------------ C22 *)
Theorem C22_lauffer_4 : forall n, (3 <= n)%nat -> builds_simplex_scheme n 4 (lauffer_4 n).
Proof. exact lauffer_4_exact. Qed.
Theorem C22_lauffer_5 : forall n, (4 <= n)%nat -> builds_simplex_scheme n 5 (lauffer_5 n).
Proof. exact lauffer_5_exact. Qed.
Theorem C22_stroud_1969 : forall solve n, linear_solver solve -> (3 <= n)%nat -> builds_simplex_scheme n 5 (stroud_1969 solve n).
Proof. exact stroud_1969_exact. Qed.
Theorem C22_walkington_5 : forall n, n = 2%nat \/ n = 3%nat -> builds_simplex_scheme n 5 (walkington_5 n).
Proof. exact walkington_5_exact. Qed.
Theorem C22_walkington_7 : builds_simplex_scheme 3 7 (walkington_7 3).
Proof. exact walkington_7_exact. Qed.
Print Assumptions C22_lauffer_4.
Print Assumptions C22_lauffer_5.
Print Assumptions C22_stroud_1969.
Print Assumptions C22_walkington_5.
Print Assumptions C22_walkington_7.
Example C22_ex_solve : exists solve, linear_solver solve /\ builds_simplex_scheme 3 5 (stroud_1969 solve 3) /\
  builds_simplex_scheme 7 5 (stroud_1969 solve 7).
Proof. destruct linear_solver_exists as [f Hf]. exists f. split; auto. split; apply C22_stroud_1969; auto; lia. Qed.
