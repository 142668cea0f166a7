(** Drawings of a scheme (C88). *)
From Coq Require Import Reals List.
From Verif Require Import Spec.
Import ListNotations.
Open Scope R_scope.

Inductive color := blue | red.
(** A disk or ball with its radius, or a spherical cap with its opening angle. *)
Record mark := mk_mark { m_center : point; m_size : R; m_color : color }.
(** A drawing shows the scheme q if there is one mark for each point, in the place of the point, whose measure is the share |w| / sum(w) of
    [total], blue for positive and red for negative weights. *)
Definition shows (measure : R -> R) (total : R) (place : point -> point) (q : rule) (ds : list mark) : Prop :=
  Forall2 (fun wp d => m_center d = place (snd wp) /\ 0 <= m_size d /\ measure (m_size d) = Rabs (fst wp) / Rsum (map fst q) * total /\
                       (0 < fst wp -> m_color d = blue) /\ (fst wp < 0 -> m_color d = red)) q ds.
Definition disk_area (r : R) : R := PI * r ^ 2.
Definition diameter (r : R) : R := 2 * r.
Definition ball_volume (r : R) : R := 4 / 3 * PI * r ^ 3.
(** the area of a cap of the unit sphere with opening angle t *)
Definition cap_area (t : R) : R := 2 * PI * (1 - cos t).
Definition total_measure (measure : R -> R) (ds : list mark) : R := Rsum (map (fun d => measure (m_size d)) ds).
(** twice the signed area of a triangle in the plane, and the area of a convex quadrilateral with the corners p00, p10, p11, p01 in turn *)
Definition turn (a b c : point) : R := (nth 0 b 0 - nth 0 a 0) * (nth 1 c 0 - nth 1 a 0) - (nth 1 b 0 - nth 1 a 0) * (nth 0 c 0 - nth 0 a 0).
Definition quad_area (p00 p10 p11 p01 : point) : R := (Rabs (turn p00 p10 p11) + Rabs (turn p00 p11 p01)) / 2.
(** two corners of a cube are joined by an edge if their indices differ in exactly one place *)
Fixpoint differ (i j : list nat) : nat :=
  match i, j with x :: i', y :: j' => (if Nat.eqb x y then 0 else 1) + differ i' j' | _, _ => 0 end.
