(** Spherical coordinates on the unit sphere: polar angle theta in [0, PI], azimuth phi in (-PI, PI]. *)
From Coq Require Import Reals List.
From Verif Require Import Spec PyBase.
Import ListNotations.
Open Scope R_scope.

Definition on_unit_sphere (x : point) : Prop := Rsum (map (fun t => t ^ 2) x) = 1.
(** The point with polar angle theta and azimuth phi. *)
Definition sphere_point (theta phi : R) : point := [sin theta * cos phi; sin theta * sin phi; cos theta].
(** The call returns a scheme all of whose points are on the unit sphere. *)
Definition on_sphere (r : option scheme) : Prop := exists s, r = Some s /\ List.Forall (fun wp => on_unit_sphere (snd wp)) (s_rule s).
