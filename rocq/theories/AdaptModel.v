(** Model of quadpy/c1/_helpers.py (integrate), quadpy/c1/_gauss_kronrod.py (_gauss_kronrod_integrate),
    quadpy/c1/_adaptive.py and quadpy/_scipy_compat.py.
    The domain is one-dimensional (domain_shape = ()) and the integrand may be vector valued: it is a function
    [f : R -> nat -> R] whose components 0..m-1 are used (range_shape = (m,); m = 1 is the scalar case).
    Floats are modelled by exact reals. *)
From Coq Require Import Reals List Arith Bool.
From Verif Require Import Spec CombModel PyBase Spec1.
Import ListNotations.
Open Scope R_scope.

Definition interval := (R * R)%type.
Definition Rltb (x y : R) : bool := if Rlt_dec x y then true else false.
Definition Rleb (x y : R) : bool := if Rle_dec x y then true else false.

(** c1/_helpers.py:64-66, the node x of [-1,1] moved to the interval *)
Definition to_interval (iv : interval) (x : R) : R := fst iv * (0.5 * (1 - x)) + snd iv * (0.5 * (1 + x)).
(** c1/_helpers.py:74-75 (domain_shape = ()): sqrt(diff ** 2) *)
Definition interval_length (iv : interval) : R := sqrt ((snd iv - fst iv) ^ 2).
(** c1/_helpers.py:62-77, one interval and a scalar function *)
Definition c1_integrate (q : rule1) (f : R -> R) (iv : interval) : R :=
  0.5 * interval_length iv * Rsum (map (fun wx => fst wx * f (to_interval iv (snd wx))) q).

(** [l[1::2]] *)
Fixpoint odd_positions {A} (l : list A) : list A :=
  match l with
  | _ :: b :: l' => b :: odd_positions l'
  | _ => []
  end.
(** np.dot of function values and weights *)
Definition dot (fx w : list R) : R := Rsum (map (fun e => fst e * snd e) (List.combine fx w)).

(** c1/_gauss_kronrod.py:108-176 on one interval, for component j.  [gk] is gauss_kronrod(k), [gl] is
    gauss_legendre(k); only the weights of [gl] are used.  [x ** 1.5] is only applied to a number that is
    non-negative when the weights of gk are; it is x * sqrt x. *)
Definition gk_fx (gk : rule1) (f : R -> nat -> R) (iv : interval) (j : nat) : list R :=
  map (fun wx => f (to_interval iv (snd wx)) j) gk.
Definition gk_val (gk : rule1) (f : R -> nat -> R) (iv : interval) (j : nat) : R :=
  0.5 * dot (gk_fx gk f iv j) (map fst gk) * interval_length iv.
Definition gl_val (gk gl : rule1) (f : R -> nat -> R) (iv : interval) (j : nat) : R :=
  0.5 * interval_length iv * dot (odd_positions (gk_fx gk f iv j)) (map fst gl).
Definition I_tilde (gk : rule1) (f : R -> nat -> R) (iv : interval) (j : nat) : R :=
  let average_gk := 0.5 * dot (gk_fx gk f iv j) (map fst gk) in
  0.5 * interval_length iv * dot (map (fun y => Rabs (y - average_gk)) (gk_fx gk f iv j)) (map fst gk).
Definition error_estimate (gk gl : rule1) (f : R -> nat -> R) (iv : interval) (j : nat) : R :=
  let I := I_tilde gk f iv j in
  if Rltb (1 / 10 ^ 15) (Rabs I) then
    let v := 200 * Rabs (gk_val gk f iv j - gl_val gk gl f iv j) / I in
    Rmin 1 (v * sqrt v) * I
  else 1 * I.

(** criteria_connection: np.any or np.all over the list of criteria *)
Inductive connection := Any | All.
Definition connect (c : connection) (l : list bool) : bool :=
  match c with Any => existsb (fun b => b) l | All => forallb (fun b => b) l end.

Inductive outcome :=
| Returned (value error : nat -> R)
| TooManySubintervals          (* IntegrationError, _adaptive.py:94-98 *)
| IntervalTooShort             (* IntegrationError, _adaptive.py:114-118 *)
| AssertionFailed              (* _adaptive.py:28-35 *)
| ShapeError                   (* ValueError of the final reshape, _adaptive.py:141-142 *)
| StillRunning.                (* the fuel of the model is used up; not an outcome of the code *)

Section Adaptive.
Context (m : nat) (val err : interval -> nat -> R).
Context (eps_abs eps_rel : option R) (conn : connection) (min_len : R) (max_num : option nat).

Definition all_components (p : nat -> bool) : bool := forallb p (seq 0 m).
Definition opt_list {A} (o : option A) : list A := match o with Some a => [a] | None => [] end.

(** _adaptive.py:62-71 *)
Definition first_good (iv : interval) : bool :=
  connect conn
    (map (fun e => all_components (fun j => Rltb (err iv j) e)) (opt_list eps_abs)
     ++ map (fun e => all_components (fun j => Rltb (err iv j) (e * Rabs (val iv j)))) (opt_list eps_rel)).

(** np.sum over the selected intervals *)
Definition sum_over (g : interval -> nat -> R) (l : list interval) (j : nat) : R :=
  Rsum (map (fun iv => g iv j) l).

(** _adaptive.py:124-136.  [total] is np.sum(interval_lengths); for total = 0 tau is NaN and every
    comparison is False. *)
Definition later_good (gv ge : nat -> R) (ivs : list interval) (iv : interval) : bool :=
  let total := Rsum (map interval_length ivs) in
  let ttv j := gv j + sum_over val ivs j in
  let below (allowance : nat -> R) j :=
    if Req_EM_T total 0 then false else Rltb (err iv j) (allowance j * (interval_length iv / total)) in
  connect conn
    (map (fun e => all_components (below (fun j => e - ge j))) (opt_list eps_abs)
     ++ map (fun e => all_components (below (fun j => e * Rabs (ttv j) - ge j))) (opt_list eps_rel)).

(** _adaptive.py:79-87 *)
Definition midpoint_of (iv : interval) : R := 0.5 * (fst iv + snd iv).
Definition split_all (bad : list interval) : list interval :=
  map (fun iv => (fst iv, midpoint_of iv)) bad ++ map (fun iv => (midpoint_of iv, snd iv)) bad.

Definition exceeds (num : nat) : bool :=
  match max_num with None => false | Some mx => (mx <? num)%nat end.

(** _adaptive.py:76-139, the while loop.  [bad] are the intervals with is_good = False, [ngood] is
    np.sum(is_good) of the last round, [num] is num_subintervals, [gv] and [ge] the sums of accepted
    values and errors. *)
Fixpoint adapt_loop (fuel : nat) (bad : list interval) (ngood num : nat) (gv ge : nat -> R) : outcome :=
  match fuel with
  | O => StillRunning
  | S fuel' =>
      match bad with
      | [] => Returned gv ge
      | _ =>
          let ivs := split_all bad in
          let num' := (num + ngood)%nat in
          if exceeds num' then TooManySubintervals
          else if existsb (fun iv => Rltb (interval_length iv) min_len) ivs then IntervalTooShort
          else
            let good := filter (later_good gv ge ivs) ivs in
            adapt_loop fuel' (filter (fun iv => negb (later_good gv ge ivs iv)) ivs) (length good) num'
              (fun j => gv j + sum_over val good j) (fun j => ge j + sum_over err good j)
      end
  end.

(** _adaptive.py:14-143.  The final reshape to the shape of the first value estimates succeeds only
    for one input interval. *)
Definition adapt_main (fuel : nat) (ivs : list interval) : outcome :=
  if forallb (fun iv => Rleb (fst iv) (snd iv)) ivs && (match eps_abs, eps_rel with None, None => false | _, _ => true end) then
    let good := filter first_good ivs in
    match adapt_loop fuel (filter (fun iv => negb (first_good iv)) ivs) (length good) 1
            (sum_over val good) (sum_over err good) with
    | Returned v e => if (length ivs =? 1)%nat then Returned v e else ShapeError
    | o => o
    end
  else AssertionFailed.
End Adaptive.

(** c1/_adaptive.py:14-143 with the estimates of _gauss_kronrod_integrate: the value of an interval is
    out.val_gauss_legendre. *)
Definition integrate_adaptive (gk gl : rule1) (m : nat) (f : R -> nat -> R) (ivs : list interval)
    (eps_abs eps_rel : option R) (conn : connection) (min_len : R) (max_num : option nat) (fuel : nat) : outcome :=
  adapt_main m (gl_val gk gl f) (error_estimate gk gl f) eps_abs eps_rel conn min_len max_num fuel ivs.

(** A limit of integration: a float, possibly infinite. *)
Inductive limit_point := MInf | Fin (x : R) | PInf.

Definition negate (o : outcome) : outcome :=
  match o with Returned v e => Returned (fun j => - v j) e | o' => o' end.

(** _scipy_compat.py:10-42: the integrand and the limits handed to integrate_adaptive.  [f args x] is the
    Python call f(x, *args); f((..)) without *args is [f [] x].  Infinite limits that are left over make the
    asserts of integrate_adaptive fail (None); for a = b = +-inf every value is NaN, which is not modelled
    (None).  At t = 0 the code divides by zero; the nodes lie strictly inside (0, 1). *)
Definition quad_problem (f : list R -> R -> R) (a b : limit_point) (args : list R) : option ((R -> R) * R * R) :=
  match a, b with
  | MInf, PInf => Some ((fun t => (f args ((1 - t) / t) + f [] (- (1 - t) / t)) / t ^ 2), 0, 1)
  | Fin a', PInf => Some ((fun t => f args (a' + (1 - t) / t) / t ^ 2), 0, 1)
  | MInf, Fin b' => Some ((fun t => f args (b' - (1 - t) / t) / t ^ 2), 0, 1)
  | Fin a', Fin b' => Some (f args, a', b')
  | _, _ => None
  end.

(** _scipy_compat.py:8-60 *)
Definition quad (gk gl : rule1) (f : list R -> R -> R) (a b : limit_point) (args : list R)
    (epsabs epsrel : option R) (limit : option nat) (fuel : nat) : outcome :=
  match quad_problem f a b args with
  | None => AssertionFailed
  | Some (g, a', b') =>
      let run iv := integrate_adaptive gk gl 1 (fun x _ => g x) [iv] epsabs epsrel Any 0 limit fuel in
      if Rltb b' a' then negate (run (b', a')) else run (a', b')
  end.
