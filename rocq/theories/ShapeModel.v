(** Arrays of any shape in C1Scheme.integrate: shape inference and the vectorised formula (C38). *)
From Coq Require Import Reals List Arith Bool.
From Verif Require Import Spec PyBase.
Import ListNotations.
Open Scope R_scope.

(** A numpy shape tuple. *)
Definition shape := list nat.
Definition shape_eqb (a b : shape) : bool := if list_eq_dec Nat.eq_dec a b then true else false.
(** Python's s[k:]. *)
Definition slice_from (k : nat) (s : shape) : shape := skipn k s.
(** Python's s[:-k] for k >= 1 (empty if k exceeds the length). *)
Definition slice_until (k : nat) (s : shape) : shape := firstn (length s - k) s.
(** Python's s[a:-k] for k >= 1. *)
Definition slice_between (a k : nat) (s : shape) : shape := skipn a (firstn (length s - k) s).

(** quadpy/c1/_helpers.py:31-36: the loop over k in range(min(len(intervals.shape) - 1, len(fx.shape) - 1)); [n] is the number
    of rounds left.  Indices -k-1 and -k-2 are in range there. *)
Fixpoint common_tail (iv fx : shape) (k n : nat) (acc : list nat) : list nat :=
  match n with
  | O => acc
  | S n' =>
      let d := nth (length iv - k - 1) iv 0%nat in
      if negb (nth (length fx - k - 2) fx 0 =? d)%nat then acc
      else common_tail iv fx (S k) n' (acc ++ [d])
  end.

(** quadpy/c1/_helpers.py:6-54, _find_shapes on the shapes of fx, intervals and x.  [None] is a failed assertion. *)
Definition find_shapes (fx iv x : shape) (domain_shape range_shape : option shape) : option (shape * shape * shape) :=
  if negb (length x =? 1)%nat then None else
  let '(ds, rs, ss) :=
    match domain_shape, range_shape with
    | Some ds, Some rs => (ds, rs, slice_from (1 + length ds) iv)
    | Some ds, None =>
        let ss := slice_from (1 + length ds) iv in
        (ds, slice_until (length ss + 1) fx, ss)
    | None, Some rs =>
        let ss := slice_between (length rs) 1 fx in
        (if (length ss =? 0)%nat then slice_from 1 iv else slice_between 1 (length ss) iv, rs, ss)
    | None, None =>
        let ss := rev (common_tail iv fx 0 (Nat.min (length iv - 1) (length fx - 1)) []) in
        (if (length ss =? 0)%nat then slice_from 1 iv else slice_between 1 (length ss) iv, slice_until (length ss + 1) fx, ss)
    end in
  if negb (shape_eqb iv (2%nat :: ds ++ ss)) then None else
  if negb (shape_eqb fx (rs ++ ss ++ x)) then None else
  Some (ds, rs, ss).

(** A numpy array: its shape and the entry at every multi-index. *)
Record nd := mk_nd { nd_shape : shape; nd_at : list nat -> R }.
(** a[k], [None] is an IndexError. *)
Definition nd_item (k : nat) (a : nd) : option nd :=
  match nd_shape a with
  | [] => None
  | m :: s => if (k <? m)%nat then Some (mk_nd s (fun i => nd_at a (k :: i))) else None
  end.
(** np.multiply.outer(a, v) for a vector v. *)
Definition nd_outer (a : nd) (v : list R) : nd :=
  mk_nd (nd_shape a ++ [length v]) (fun i => nd_at a (removelast i) * nth (last i 0%nat) v 0).
(** a + b and a - b for arrays of one shape (the only case below; no broadcasting). *)
Definition nd_zip (op : R -> R -> R) (a b : nd) : option nd :=
  if shape_eqb (nd_shape a) (nd_shape b) then Some (mk_nd (nd_shape a) (fun i => op (nd_at a i) (nd_at b i))) else None.
(** All multi-indices of a shape. *)
Fixpoint indices (s : shape) : list (list nat) :=
  match s with
  | [] => [[]]
  | m :: s' => flat_map (fun k => map (cons k) (indices s')) (seq 0 m)
  end.
(** np.sum(a, axis=tuple(range(k))). *)
Definition nd_sum_axes (k : nat) (a : nd) : nd :=
  mk_nd (skipn k (nd_shape a)) (fun i => Rsum (map (fun d => nd_at a (d ++ i)) (indices (firstn k (nd_shape a))))).
Definition nd_map (g : R -> R) (a : nd) : nd := mk_nd (nd_shape a) (fun i => g (nd_at a i)).
(** np.dot(a, w) for a vector w: sum over the last axis; [None] is a shape mismatch. *)
Definition nd_dot (a : nd) (w : list R) : option nd :=
  match nd_shape a with
  | [] => None
  | s => if (last s 0 =? length w)%nat
         then Some (mk_nd (removelast s) (fun i => Rsum (map (fun k => nd_at a (i ++ [k]) * nth k w 0) (seq 0 (length w)))))
         else None
  end.
(** a * b where the shape of a is a tail of the shape of b (numpy broadcasting; stretching axes of length one is not modelled,
    it does not occur below). *)
Definition nd_mul_tail (a b : nd) : option nd :=
  let k := (length (nd_shape b) - length (nd_shape a))%nat in
  if shape_eqb (nd_shape a) (skipn k (nd_shape b))
  then Some (mk_nd (nd_shape b) (fun i => nd_at a (skipn k i) * nd_at b i)) else None.

(** quadpy/c1/_helpers.py:62-78, C1Scheme.integrate with dot=np.dot, for a function on arrays. *)
Definition c1_integrate_nd (points weights : list R) (f : nd -> nd) (iv : nd) (domain_shape range_shape : option shape) : option nd :=
  let x0 := map (fun t => 1 / 2 * (1 - t)) points in
  let x1 := map (fun t => 1 / 2 * (1 + t)) points in
  let! iv0 := nd_item 0 iv in
  let! iv1 := nd_item 1 iv in
  let! x := nd_zip Rplus (nd_outer iv0 x0) (nd_outer iv1 x1) in
  let fx := f x in
  let! shapes := find_shapes (nd_shape fx) (nd_shape iv) [length points] domain_shape range_shape in
  let '(ds, _, _) := shapes in
  let! diff := nd_zip Rminus iv1 iv0 in
  let len_intervals := nd_map sqrt (nd_sum_axes (length ds) (nd_map (fun t => t ^ 2) diff)) in
  let! dt := nd_dot fx weights in
  nd_mul_tail (nd_map (fun t => 1 / 2 * t) len_intervals) dt.
