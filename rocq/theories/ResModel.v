(** Model of U3Scheme.compute_residuals. *)
From Coq Require Import Reals List Arith.
From Verif Require Import Spec PyBase OrbitModel StrModel ResSpec.
Import ListNotations.
Open Scope R_scope.

(** self.integrate(lambda x: next(evaluator), [0, 0, 0], 1.0) (u3/_helpers.py:87-90, 64-74, 98-99): the function ignores its argument and returns the values that
    the evaluator computed at self.points. *)
Definition integrated (q : rule) (g : point -> R) : R := 4 * PI * 1 ^ 2 * Rsum (map (fun wp => fst wp * g (snd wp)) q).
(** u3/_helpers.py:87-93: np.max(np.abs(approximate - exact)) of complex numbers; [None]: the ValueError of np.max for an empty array *)
Definition residual (ev : evaluator) (int_p0 : R) (q : rule) (k : nat) : option R :=
  let exact := match k with O => int_p0 | _ => 0 end in
  np_max (map (fun h => sqrt ((integrated q (fst h) - exact) ^ 2 + (integrated q (snd h) - 0) ^ 2)) (ev k)).
(** u3/_helpers.py:83-95 *)
Definition compute_residuals (ev : evaluator) (int_p0 : R) (q : rule) (level : nat) : option (list R) :=
  mapM (residual ev int_p0 q) (seq 0 (level + 1)).
