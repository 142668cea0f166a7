(** Continuity of functions of several variables.  Nothing in this file refers to the model of the code. *)
From Coq Require Import Reals List.
From Verif Require Import Spec.
Import ListNotations.
Open Scope R_scope.

(** the points of the cube [-1, 1]^n *)
Definition in_cube (n : nat) (x : point) : Prop := length x = n /\ List.Forall (fun t => -1 <= t <= 1) x.
(** every coordinate of [x] is closer than [d] to that of [y] *)
Definition close (d : R) (x y : point) : Prop := Forall2 (fun a b => Rabs (a - b) < d) x y.
(** [f] is continuous on the set [D] (only its values there matter) *)
Definition continuous_in (D : point -> Prop) (f : point -> R) : Prop :=
  forall x, D x -> forall eps, 0 < eps -> exists delta, 0 < delta /\
    forall y, D y -> close delta y x -> Rabs (f y - f x) < eps.
(** the sum of the absolute values of the weights *)
Definition weights_abs (q : rule) : R := Rsum (map (fun wp => Rabs (fst wp)) q).
(** the closed unit ball, the unit sphere, the barycentric coordinates of a simplex *)
Definition in_ball (n : nat) (x : point) : Prop := length x = n /\ Rsum (map (fun t => t ^ 2) x) <= 1.
Definition on_sphere (n : nat) (x : point) : Prop := length x = n /\ Rsum (map (fun t => t ^ 2) x) = 1.
Definition in_bary (n : nat) (x : point) : Prop := length x = S n /\ List.Forall (fun t => 0 <= t) x /\ Rsum x = 1.
(** the box [a_1, b_1] x ... x [a_n, b_n], the ball and the sphere with centre [c] and radius [r] *)
Definition in_box (lim : list (R * R)) (x : point) : Prop := Forall2 (fun e t => fst e <= t <= snd e) lim x.
Definition dist2 (c x : point) : R := Rsum (map (fun ab => (snd ab - fst ab) ^ 2) (List.combine c x)).
Definition in_ball_at (c : point) (r : R) (x : point) : Prop := length x = length c /\ dist2 c x <= r ^ 2.
Definition on_sphere_at (c : point) (r : R) (x : point) : Prop := length x = length c /\ dist2 c x = r ^ 2.
(** the points sum_i l_i v_i with l_i >= 0, sum l_i = 1, of the simplex with the vertices v_0, ..., v_n in R^n *)
Definition in_simplex (n : nat) (vertices : list point) (x : point) : Prop :=
  exists l, in_bary n l /\ x = map (fun i => Rsum (map (fun lv => fst lv * nth i (snd lv) 0) (List.combine l vertices))) (seq 0 n).
(** a sequence of rules whose degrees of exactness tend to infinity (with respect to the moments [I]), with all points in [D] and
    with bounded sums of |w_i| *)
Definition growing_rules (D : point -> Prop) (nc : nat) (I : list nat -> R) (q : nat -> option rule) : Prop :=
  exists W, forall m, exists N, forall k, (N <= k)%nat -> exists r, q k = Some r /\ exact nc m I r /\
    List.Forall (fun wp => D (snd wp)) r /\ weights_abs r <= W.
(** weights not negative, points in [D] *)
Definition positive_in (D : point -> Prop) (q : rule) : Prop := List.Forall (fun wp => 0 <= fst wp /\ D (snd wp)) q.
