(** C39, C40: integration over arbitrary simplices and their volumes (tn/_helpers.py). *)
From Coq Require Import Reals List Arith Bool Lia Lra Permutation.
From Verif Require Import Spec RsumLemmas IntegralSpec IntegralProofs IntegralPoly CombModel PyBase TnModel TnModel2
  GeomModel GeomProofs PolyFun SimplexVol SimplexInt PropTn PropTn2.
Import ListNotations.
Open Scope R_scope.

(* ------------------------------------------------------------------ C40 *)
(** [edges S] are the differences of the vertices to the first one; [det] is the determinant by expansion. *)
Theorem C40_volume : forall n (S : list point), length S = (n + 1)%nat -> Forall (fun p : point => length p = n) S ->
  get_vol S = Some (Rabs (det n (edges S)) / INR (fact n)).
Proof. exact get_vol_det. Qed.
Print Assumptions C40_volume.
(** Triangles in the plane: half the cross product; segments on the line: the length. *)
Theorem C40_triangle x0 y0 x1 y1 x2 y2 :
  get_vol [[x0; y0]; [x1; y1]; [x2; y2]] = Some (Rabs ((x1 - x0) * (y2 - y0) - (x2 - x0) * (y1 - y0)) / 2).
Proof.
  rewrite (get_vol_det 2) by (cbn; auto). f_equal. cbn [fact Nat.mul Nat.add INR]. 
  replace (det 2 _) with ((x1 - x0) * (y2 - y0) - (x2 - x0) * (y1 - y0)); [auto|]. unfold edges, det, vsub. cbn. ring.
Qed.
Print Assumptions C40_triangle.
Theorem C40_segment a b : get_vol [[a]; [b]] = Some (Rabs (b - a)).
Proof.
  rewrite (get_vol_det 1) by (cbn; auto). f_equal. cbn [fact Nat.mul Nat.add INR]. unfold Rdiv. rewrite Rinv_1, Rmult_1_r.
  f_equal. unfold edges, det, vsub. cbn. ring.
Qed.
Print Assumptions C40_segment.
(** Triangles in any ambient space: half the area of the parallelogram spanned by two edges. *)
Theorem C40_triangle_in_space d a b c : tri_ok d (a, b, c) ->
  get_vol [a; b; c] = Some (sqrt (vdot (vsub a b) (vsub a b) * vdot (vsub a c) (vsub a c) - vdot (vsub a b) (vsub a c) ^ 2) / 2).
Proof.
  intros H. change [a; b; c] with (tri_list (a, b, c)). rewrite (get_vol_triangle d) by auto. f_equal. unfold tri_area.
  rewrite (tri_radicand d) by auto. unfold sqd.
  replace (_ / 4) with ((vdot (vsub a b) (vsub a b) * vdot (vsub a c) (vsub a c) - vdot (vsub a b) (vsub a c) ^ 2) * Rsqr (/ 2)) by (unfold Rsqr; field).
  rewrite sqrt_mult; [rewrite sqrt_Rsqr; lra| |apply Rle_0_sqr].
  pose proof (cauchy_schwarz (vsub a b) (vsub a c)). lra.
Qed.
Print Assumptions C40_triangle_in_space.
Theorem C40_vertex_order : forall S S', Permutation S S' -> get_vol S = get_vol S'.
Proof. exact get_vol_perm. Qed.
Print Assumptions C40_vertex_order.
(** e.g. the tetrahedron spanned by the unit vectors has volume 1/6 *)
Example C40_ex : get_vol [[0; 0; 0]; [1; 0; 0]; [0; 1; 0]; [0; 0; 1]] = Some (1 / 6).
Proof.
  rewrite (C40_volume 3) by (cbn; auto). f_equal. unfold edges, vsub. cbn.
  match goal with |- Rabs ?x / _ = _ => replace x with 1 by ring end. rewrite Rabs_R1. lra.
Qed.

(* ------------------------------------------------------------------ C39 *)
(** A scheme that is exact to degree d for the means over the unit simplex integrates every polynomial of degree
    at most d exactly over every simplex of n-dimensional space. *)
Theorem C39_exact : forall n d q (S : list point) p,
  exact (n + 1) d (fun k => simplex_mean n (mono k)) q ->
  length S = (n + 1)%nat -> Forall (fun v : point => length v = n) S -> mp_ok n d p ->
  tn_integrate n q (mpeval p) S = Some (simplex_integral n S (mpeval p)).
Proof. exact tn_integrate_exact. Qed.
Print Assumptions C39_exact.
(** Putting the pieces together for one constructor: the Grundmann-Moeller scheme of order s in dimension n. *)
Theorem C39_grundmann_moeller : forall n s (S : list point) p sch, grundmann_moeller n s = Some sch ->
  length S = (n + 1)%nat -> Forall (fun v : point => length v = n) S -> mp_ok n (2 * s + 1) p ->
  tn_integrate n (s_rule sch) (mpeval p) S = Some (simplex_integral n S (mpeval p)).
Proof.
  intros n s S p sch E HS Hv Hp. destruct (C23_grundmann_moeller n s) as (s' & E' & _ & _ & H1 & H2).
  rewrite E in E'. injection E' as <-. apply (C39_exact n (2 * s + 1)); auto. split; auto.
Qed.
Print Assumptions C39_grundmann_moeller.
(** A symmetric scheme gives the same value for every order of the vertices, whatever the integrand. *)
Theorem C39_vertex_order : forall n q f (S : list point) s d, symmetric_rule (n + 1) q -> points_in_dim (n + 1) q ->
  Permutation s (seq 0 (n + 1)) -> Forall (fun p : point => length p = d) S -> length S = (n + 1)%nat ->
  tn_integrate n q f (@permute point [] s S) = tn_integrate n q f S.
Proof. exact tn_integrate_order. Qed.
Print Assumptions C39_vertex_order.
(** Constants: the value is the volume times the sum of the weights. *)
Theorem C39_constants : forall n q c (S : list point) v, get_vol S = Some v -> length S = (n + 1)%nat ->
  tn_integrate n q (fun _ => c) S = Some (v * (c * Rsum (map fst q))).
Proof. exact tn_integrate_const. Qed.
Print Assumptions C39_constants.
(** A wrong number of vertices is rejected. *)
Theorem C39_wrong_shape : forall n q f (S : list point), length S <> (n + 1)%nat -> tn_integrate n q f S = None.
Proof.
  intros n q f S H. unfold tn_integrate, guard. destruct (length S =? n + 1)%nat eqn:E; auto. apply Nat.eqb_eq in E. congruence.
Qed.
Print Assumptions C39_wrong_shape.
(** e.g. the degree 5 scheme over a tetrahedron that is neither unit nor axis-parallel; and the vertex rule is
    symmetric *)
Example C39_ex sch : grundmann_moeller 3 2 = Some sch ->
  tn_integrate 3 (s_rule sch) (mpeval [(2, [1; 3; 1]%nat); (-1, [0; 0; 2]%nat)]) [[1; 2; 0]; [3; 1; 1]; [0; 5; 2]; [1; 1; 7]] =
  Some (simplex_integral 3 [[1; 2; 0]; [3; 1; 1]; [0; 5; 2]; [1; 1; 7]] (mpeval [(2, [1; 3; 1]%nat); (-1, [0; 0; 2]%nat)])).
Proof. intros E. apply (C39_grundmann_moeller 3 2 _ _ sch E); repeat constructor. Qed.
Example C39_sym_ex w : symmetric_rule 2 [(w, [1; 0]); (w, [0; 1])].
Proof.
  intros s Hs. assert (C : s = [0; 1]%nat \/ s = [1; 0]%nat).
  { apply Permutation_sym, Permutation_length_2_inv in Hs. auto. }
  destruct C as [-> | ->]; cbn; [apply Permutation_refl|apply perm_swap].
Qed.
