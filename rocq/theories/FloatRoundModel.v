(** Model of integrate() on balls, spheres, whole spaces and simplices in floating point arithmetic.  The model with real numbers:
    RoundModel.v, E23Model.v, GeomModel.v. *)
From Coq Require Import Reals List.
From Verif Require Import Spec FloatSpec FloatModel.
Import ListNotations.
Open Scope R_scope.

(** np.pi and math.pi *)
Definition fl_pi : R := rnd PI.
(** x ** k for k >= 3 is a call of the C function pow.  Its results are not prescribed by IEEE 754; assumed here is an error of at
    most two roundings. *)
Definition fl_pow (x : R) (k : nat) (y : R) : Prop := Rabs (y - x ^ k) <= gamma 2 * Rabs (x ^ k).
(** The last line of all the integrate() functions: volume * dot(f(x), weights), [xs] being the points at which f is called
    (s2/_helpers.py:65, s3/_helpers.py:46, sn/_helpers.py:33, u2/_helpers.py:51, u3/_helpers.py:74, un/_helpers.py:19,
    e2r/_helpers.py:44, e2r2/_helpers.py:43, e3r/_helpers.py:25, e3r2/_helpers.py:25, enr/_helpers.py:17, enr2/_helpers.py:17,
    tn/_helpers.py:42) *)
Definition fl_rule (vol : R) (f : point -> R) (xs : list point) (weights : list R) (v : R) : Prop :=
  exists s, fl_dot (List.combine (map f xs) weights) s /\ v = rnd (vol * s).
(** outer(radius, points) + center, one point (s2/_helpers.py:56-58, s3/_helpers.py:37-39, sn/_helpers.py:23-25, u2/_helpers.py:47-49,
    un/_helpers.py:15-17; points.T * radius + center: u3/_helpers.py:67) *)
Definition fl_round_point (center : point) (radius : R) (p : point) : point :=
  map (fun cp => rnd (rnd (radius * snd cp) + fst cp)) (List.combine center p).
Definition fl_round (vol : R) (q : rule) (f : point -> R) (center : point) (radius v : R) : Prop :=
  fl_rule vol f (map (fun wp => fl_round_point center radius (snd wp)) q) (map fst q) v.
(** s2/_helpers.py:54-65: np.pi * radius ** 2 * dot; numpy computes radius ** 2 as radius * radius *)
Definition fl_s2_integrate q f center radius v : Prop := fl_round (rnd (fl_pi * rnd (radius * radius))) q f center radius v.
(** s3/_helpers.py:35-46: 4 / 3 * pi * radius ** 3 * dot *)
Definition fl_s3_integrate q f center radius v : Prop :=
  exists cube, fl_pow radius 3 cube /\ fl_round (rnd (rnd (rnd (4 / 3) * fl_pi) * cube)) q f center radius v.
(** u2/_helpers.py:45-51: 2 * np.pi * radius *)
Definition fl_u2_integrate q f center radius v : Prop := fl_round (rnd (rnd (2 * fl_pi) * radius)) q f center radius v.
(** u3/_helpers.py:64-74, 98-99: 4 * np.pi * radius ** 2 *)
Definition fl_u3_integrate q f center radius v : Prop := fl_round (rnd (rnd (4 * fl_pi) * rnd (radius * radius))) q f center radius v.

(** the schemes of whole spaces call f at the stored points *)
Definition fl_space (vol : R) (q : rule) (f : point -> R) (v : R) : Prop := fl_rule vol f (map snd q) (map fst q) v.
(** e2r/_helpers.py:41-44 *)
Definition fl_e2r_integrate q f v : Prop := fl_space (rnd (2 * fl_pi)) q f v.
(** e2r2/_helpers.py:40-43 *)
Definition fl_e2r2_integrate q f v : Prop := fl_space fl_pi q f v.
(** e3r/_helpers.py:22-25 *)
Definition fl_e3r_integrate q f v : Prop := fl_space (rnd (8 * fl_pi)) q f v.
(** e3r2/_helpers.py:22-25: sqrt(pi) ** 3 *)
Definition fl_e3r2_integrate q f v : Prop := exists cube, fl_pow (rnd (sqrt fl_pi)) 3 cube /\ fl_space cube q f v.

(** tn/_helpers.py:45-53: np.dot(simplex, points), one point; every coordinate is a dot product of a row of coordinates of the
    vertices with the barycentric coordinates *)
Definition fl_bary (simplex : list point) (lam : point) (x : point) : Prop :=
  forall i, (i < length (hd [] simplex))%nat -> fl_dot (List.combine (map (fun vtx => nth i vtx 0) simplex) lam) (nth i x 0).
(** tn/_helpers.py:24-42; [vol] is what get_vol returns *)
Definition fl_tn_integrate (vol : R) (q : rule) (f : point -> R) (simplex : list point) (v : R) : Prop :=
  exists xs, Forall2 (fun wp x => length x = length (hd [] simplex) /\ fl_bary simplex (snd wp) x) q xs /\ fl_rule vol f xs (map fst q) v.
(** helpers/_class.py:28-40: the weights and points of a scheme are binary64 arrays.  Closed forms that the code evaluates in floating point
    are not rounded correctly; then [q] is the stored rule and [store q = q]. *)
Definition store (q : rule) : rule := map (fun wp => (rnd (fst wp), map rnd (snd wp))) q.
