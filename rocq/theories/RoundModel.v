(** Model of integrate() for disks, balls, circles and spheres with centre and radius. *)
From Coq Require Import Reals List Arith.
From Coquelicot Require Import Coquelicot.
From Verif Require Import Spec IntegralSpec SphereSpec GeomModel.
Import ListNotations.
Open Scope R_scope.

(** rr = outer(radius, points); f((rr + center).T); dot(ff, weights): the part all the integrate() functions share
    (sn/_helpers.py:21-33, s2/_helpers.py:54-65, s3/_helpers.py:35-46, un/_helpers.py:13-19, u2/_helpers.py:45-51,
    u3/_helpers.py:64-74).  The check of the shape of f's return value is not modelled: f is scalar valued. *)
Definition round_dot (q : rule) (f : point -> R) (center : point) (radius : R) : R :=
  Rsum (map (fun wp => fst wp * f (vadd center (vscale radius (snd wp)))) q).
(** sn/_helpers.py:21-33; ndim.nball.volume(n, r) is external and modelled by what it computes, the volume of the ball *)
Definition sn_integrate (n : nat) (q : rule) (f : point -> R) (center : point) (radius : R) : R :=
  ball_int n radius (fun _ => 1) * round_dot q f center radius.
(** un/_helpers.py:13-19; ndim.nsphere.volume(n, r), likewise *)
Definition un_integrate (n : nat) (q : rule) (f : point -> R) (center : point) (radius : R) : R :=
  radius ^ (n - 1) * sphere_int n (fun _ => 1) * round_dot q f center radius.
(** s2/_helpers.py:54-65 *)
Definition s2_integrate (q : rule) (f : point -> R) (center : point) (radius : R) : R := PI * radius ^ 2 * round_dot q f center radius.
(** s3/_helpers.py:35-46 *)
Definition s3_integrate (q : rule) (f : point -> R) (center : point) (radius : R) : R := 4 / 3 * PI * radius ^ 3 * round_dot q f center radius.
(** u2/_helpers.py:45-51 *)
Definition u2_integrate (q : rule) (f : point -> R) (center : point) (radius : R) : R := 2 * PI * radius * round_dot q f center radius.
(** u3/_helpers.py:64-74, 98-99 *)
Definition u3_integrate (q : rule) (f : point -> R) (center : point) (radius : R) : R := 4 * PI * radius ^ 2 * round_dot q f center radius.

(** Arrays of centres and radii.  The arrays are
      rr = outer(radius, points.T)         rr[k][i] = radius[k] * p_i
      rr = swapaxes(rr, 0, -2)             rr[i][k]
      x = (rr + center).T                  x[.][k][i] = rr[i][k] + center[k]
      dot(f(x), weights)                   entry k
    (same lines as above; [vol] is the volume factor of the domain, applied entry by entry) *)
Definition swapaxes (rows cols : nat) (a : list (list point)) : list (list point) :=
  map (fun i => map (fun k => nth i (nth k a []) []) (seq 0 cols)) (seq 0 rows).
Definition round_many (vol : R -> R) (q : rule) (f : point -> R) (centers : list point) (radii : list R) : list R :=
  let ws := map fst q in let ps := map snd q in
  let rr := map (fun r => map (vscale r) ps) radii in
  let rr := swapaxes (length ps) (length radii) rr in
  let x := map (fun row => map (fun pc => vadd (snd pc) (fst pc)) (List.combine row centers)) rr in
  let fx := map (fun k => map (fun i => f (nth k (nth i x []) [])) (seq 0 (length ps))) (seq 0 (length radii)) in
  map (fun rk => vol (fst rk) * Rsum (map (fun fw => fst fw * snd fw) (List.combine (snd rk) ws))) (List.combine radii fx).
