(** Model of C1Scheme.integrate in floating point arithmetic.  [Rules1] of the model with real numbers: AdaptModel.v. *)
From Coq Require Import Reals List Permutation.
From Flocq Require Import Core.
From Verif Require Import Spec1 FloatSpec.
Import ListNotations.
Open Scope R_scope.

(** np.dot on vectors, in any order of the additions, with or without fused multiplications (numpy leaves both to the BLAS
    library).  [fl_dot l s]: s is a possible result for the pairs l. *)
Inductive fl_dot : list (R * R) -> R -> Prop :=
| fl_dot_nil : fl_dot [] 0
| fl_dot_mul x y : fl_dot [(x, y)] (rnd (x * y))
| fl_dot_add l l1 l2 s1 s2 : Permutation l (l1 ++ l2) -> fl_dot l1 s1 -> fl_dot l2 s2 -> fl_dot l (rnd (s1 + s2))
| fl_dot_fma l l1 x y s1 : Permutation l ((x, y) :: l1) -> fl_dot l1 s1 -> fl_dot l (rnd (s1 + x * y)).

(** c1/_helpers.py:64-66: x0 = 0.5 * (1.0 - points), x1 = 0.5 * (1.0 + points), outer(iv[0], x0) + outer(iv[1], x1) *)
Definition fl_point (a b x : R) : R := rnd (rnd (a * rnd (0.5 * rnd (1 - x))) + rnd (b * rnd (0.5 * rnd (1 + x)))).
(** c1/_helpers.py:74-75 for one interval of numbers: sqrt(diff ** 2); np.sum over no axes changes nothing, numpy computes
    diff ** 2 as diff * diff *)
Definition fl_length (a b : R) : R := let diff := rnd (b - a) in rnd (sqrt (rnd (diff * diff))).
(** c1/_helpers.py:62-77 for one interval [a, b] and a scalar function: 0.5 * len_intervals * dot(fx, weights).  [q] are the weights and
    points as stored, [f] is what the function returns for a binary64 argument. *)
Definition fl_integrate (q : rule1) (f : R -> R) (a b v : R) : Prop :=
  exists s, fl_dot (map (fun wx => (f (fl_point a b (snd wx)), fst wx)) q) s /\ v = rnd (rnd (0.5 * fl_length a b) * s).
