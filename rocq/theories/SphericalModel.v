(** Model of the spherical coordinates of the schemes on the unit sphere (quadpy/u3/_helpers.py). *)
From Coq Require Import Reals List Arith.
From Verif Require Import Spec.
Import ListNotations.
Open Scope R_scope.

(** np.arctan2(y, x) and sympy.atan2(y, x) on real numbers: the angle of the point (x, y), in (-PI, PI].  At the origin
    numpy returns 0 (there is only one zero here) and sympy a NaN, which u3/_helpers.py:144-152 (_atan2_0) replaces by 0. *)
Definition atan2 (y x : R) : R :=
  if Rlt_dec 0 x then atan (y / x)
  else if Rlt_dec x 0 then (if Rle_dec 0 y then atan (y / x) + PI else atan (y / x) - PI)
  else if Rlt_dec 0 y then PI / 2
  else if Rlt_dec y 0 then - (PI / 2)
  else 0.
(** u3/_helpers.py:141-142 and 156-158 (cartesian_to_spherical and its sympy twin), for one point. *)
Definition cartesian_to_spherical (X : point) : R * R := (acos (nth 2 X 0), atan2 (nth 1 X 0) (nth 0 X 0)).
(** u3/_helpers.py:26-43: the attribute theta_phi that the constructor computes, together with the weights. *)
Definition theta_phi (q : rule) : list (R * (R * R)) := map (fun wp => (fst wp, cartesian_to_spherical (snd wp))) q.
(** u3/_helpers.py:76-81 (integrate_spherical), 98-99 (area of the unit sphere). *)
Definition u3_integrate_spherical (q : rule) (f : R -> R -> R) : R :=
  4 * PI * 1 ^ 2 * Rsum (map (fun wp => fst wp * f (fst (snd wp)) (snd (snd wp))) (theta_phi q)).
