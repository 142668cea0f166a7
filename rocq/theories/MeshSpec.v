(** Meshes obtained from a box or a simplex by cutting it, and its parts, again and again (C91).  Nothing in this file refers to the model of the code. *)
From Coq Require Import Reals List Permutation.
From Verif Require Import Spec ConvNdSpec.
Import ListNotations.
Open Scope R_scope.

(** a box [a_1, b_1] x ... x [a_n, b_n] is left as it is, or cut at c_i on one axis; the two parts may be cut further *)
Inductive boxes_of : list (R * R) -> list (list (R * R)) -> Prop :=
  | box_whole : forall lim, boxes_of lim [lim]
  | box_cut : forall pre a b post c m1 m2, a <= c <= b ->
      boxes_of (pre ++ (a, c) :: post) m1 -> boxes_of (pre ++ (c, b) :: post) m2 -> boxes_of (pre ++ (a, b) :: post) (m1 ++ m2).
(** the point (1 - t) u + t v of the edge from u to v *)
Definition between (t : R) (u v : point) : point := map (fun ab => (1 - t) * fst ab + t * snd ab) (List.combine u v).
(** a simplex is left as it is, or cut in two at a point of the edge between two of its vertices; the order of the vertices does not matter *)
Inductive simplices_of : list point -> list (list point) -> Prop :=
  | simplex_whole : forall V, simplices_of V [V]
  | simplex_reorder : forall V V' m, Permutation V V' -> simplices_of V' m -> simplices_of V m
  | simplex_cut : forall u v rest t m1 m2, 0 <= t <= 1 ->
      simplices_of (u :: between t u v :: rest) m1 -> simplices_of (between t u v :: v :: rest) m2 -> simplices_of (u :: v :: rest) (m1 ++ m2).
(** sizes: the longest edge of a box, the largest difference of a coordinate of two vertices *)
Definition box_size_below (h : R) (lim : list (R * R)) : Prop := Forall (fun e => snd e - fst e < h) lim.
Definition simplex_size_below (h : R) (V : list point) : Prop := forall u v, In u V -> In v V -> close h u v.
