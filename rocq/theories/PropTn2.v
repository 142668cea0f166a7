(** C23, C24: Grundmann-Moeller and Silvester rules, and exactness on all polynomials for every proved scheme on
    cube and simplex. *)
From Coq Require Import Reals List Arith Lia Lra.
From Verif Require Import Spec IntegralSpec IntegralProofs IntegralPoly PyBase TnModel TnModel2 TnTools PropCn PropTn GmProofs SilProofs.
Import ListNotations.
Open Scope R_scope.

(* ------------------------------------------------------------------ C23 *)
Theorem C23_grundmann_moeller : forall n s, builds_simplex_scheme n (2 * s + 1) (grundmann_moeller n s).
Proof. exact grundmann_moeller_exact. Qed.
Print Assumptions C23_grundmann_moeller.
(** e.g. degree 9 in dimension 3, where the mean of x_0^4 x_1^5 is 3! 4! 5! / 12! *)
Example C23_ex : builds_simplex_scheme 3 9 (grundmann_moeller 3 4).
Proof. apply (C23_grundmann_moeller 3 4). Qed.

(* ------------------------------------------------------------------ C24 *)
Theorem C24_silvester : forall dim closed n, (1 <= n)%nat -> builds_simplex_scheme dim n (silvester dim closed n).
Proof. exact silvester_exact. Qed.
Print Assumptions C24_silvester.
(** The claim does not extend to n = 0: both variants raise. *)
Theorem C24_silvester_0_refuted : forall dim closed, silvester dim closed 0 = None.
Proof. reflexivity. Qed.
Example C24_ex : builds_simplex_scheme 4 6 (silvester 4 false 6).
Proof. apply C24_silvester. lia. Qed.

(* ------------------------------------------------------------------ all polynomials *)
(** Schemes that are exact on the monomials up to the declared degree integrate every polynomial
    sum_j c_j x^(k_j) of at most that degree exactly. *)
Theorem C16_every_polynomial : forall n d r s p, builds_cube_scheme n d r -> r = Some s -> mp_ok n d p ->
  apply (s_rule s) (mpeval p) = cube_mean n (mpeval p).
Proof.
  intros n d r s p (s' & E & _ & _ & H1 & H2) Er Hp. rewrite E in Er. injection Er as <-.
  apply (cube_exact_poly n d); auto. split; auto.
Qed.
Print Assumptions C16_every_polynomial.
Theorem C20_every_polynomial : forall n d r s p, builds_simplex_scheme n d r -> r = Some s -> mp_ok (n + 1) d p ->
  apply (s_rule s) (mpeval p) = simplex_mean n (mpeval p).
Proof.
  intros n d r s p (s' & E & _ & _ & H1 & H2) Er Hp. rewrite E in Er. injection Er as <-.
  apply (simplex_exact_poly n d); auto. split; auto.
Qed.
Print Assumptions C20_every_polynomial.
(** e.g. 3 x_0^2 - 2 x_1 + 5 over the triangle *)
Example C20_poly_ex : mp_ok 3 2 [(3, [2; 0; 0]%nat); (-2, [0; 1; 0]%nat); (5, [0; 0; 0]%nat)].
Proof. repeat constructor. Qed.
