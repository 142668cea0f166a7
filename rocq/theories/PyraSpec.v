(** Integrals over pyramids with a parallelogram as base and over prisms with a triangle as base (C66). *)
From Coq Require Import Reals List Arith.
From Coquelicot Require Import Coquelicot.
From Verif Require Import Spec IntegralSpec GeomModel.
Import ListNotations.
Open Scope R_scope.

(** Over the pyramid with base [-1,1]^2 at height -1 and apex (0, 0, 1). *)
Definition pyramid_int (f : point -> R) : R :=
  RInt (fun z => RInt (fun y => RInt (fun x => f [x; y; z]) (- ((1 - z) / 2)) ((1 - z) / 2)) (- ((1 - z) / 2)) ((1 - z) / 2)) (-1) 1.
(** Over the wedge { x, y >= 0, x + y <= 1, -1 <= z <= 1 }. *)
Definition wedge_int (f : point -> R) : R :=
  RInt (fun z => RInt (fun x => RInt (fun y => f [x; y; z]) 0 (1 - x)) 0 1) (-1) 1.

(** The affine map o + x a + y b + z c. *)
Definition affine (o a b c xi : point) : point :=
  map (fun m => nth m o 0 + nth 0 xi 0 * nth m a 0 + nth 1 xi 0 * nth m b 0 + nth 2 xi 0 * nth m c 0) (seq 0 3).
(** The integral over the image of the reference pyramid (wedge) under that map. *)
Definition pyramid_integral (o a b c : point) (f : point -> R) : R := Rabs (det 3 [a; b; c]) * pyramid_int (fun xi => f (affine o a b c xi)).
Definition wedge_integral (o a b c : point) (f : point -> R) : R := Rabs (det 3 [a; b; c]) * wedge_int (fun xi => f (affine o a b c xi)).
(** The images of the vertices. *)
Definition pyramid_vertices (o a b c : point) : list point := map (affine o a b c) [[-1; -1; -1]; [1; -1; -1]; [1; 1; -1]; [-1; 1; -1]; [0; 0; 1]].
Definition wedge_vertices (o a b c : point) : list point := map (affine o a b c) [[0; 0; -1]; [1; 0; -1]; [0; 1; -1]; [0; 0; 1]; [1; 0; 1]; [0; 1; 1]].
