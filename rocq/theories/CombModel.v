(** Model of quadpy/helpers/combinatorics.py and of [untangle] from quadpy/helpers/misc.py. *)
From Coq Require Import List Arith Lia Bool.
Import ListNotations.

(** itertools.product over a list of option lists: the rightmost coordinate varies fastest.
    (Python standard library; used in combinatorics.py lines 78, 94.) *)
Fixpoint product {A : Type} (ls : list (list A)) : list (list A) :=
  match ls with
  | [] => [[]]
  | l :: ls' => flat_map (fun v => map (cons v) (product ls')) l
  end.

(** sizes[:i] + (sizes[i]-1,) + sizes[i+1:]   -- combinatorics.py line 72 *)
Fixpoint dec (i : nat) (sizes : list nat) : list nat :=
  match sizes, i with
  | [], _ => []
  | s :: ss, 0 => (s - 1) :: ss
  | s :: ss, S i' => s :: dec i' ss
  end.

(** combinatorics.py lines 66-74, the generator [partitions], as the list of everything it yields.
    Sizes are natural numbers: the code treats every non-positive size like 0.
    The recursion of the code decrements one positive size at a time, so a fuel of [list_sum sizes] is
    exactly enough; [partitions_unfold] in CombProofs.v proves the code's recursion equation. *)
Fixpoint partitions_fuel (fuel : nat) (sizes : list nat) : list (list nat) :=
  (if forallb (fun s => s =? 0) sizes then [[]] else []) ++
  match fuel with
  | 0 => []
  | S fuel' =>
      flat_map (fun i => if nth i sizes 0 =? 0 then []
                         else map (cons i) (partitions_fuel fuel' (dec i sizes)))
               (seq 0 (length sizes))
  end.
Definition partitions (sizes : list nat) : list (list nat) :=
  partitions_fuel (list_sum sizes) sizes.

(** combinatorics.py lines 51-80.  [combine( *elems)], elems = ((values, count), ...).
    [values[ti]] is [nth ti values []]; ti always is a valid index (CombProofs.v). *)
Definition combine {A : Type} (elems : list (list A * nat)) : list (list A) :=
  let values := map fst elems in
  let sizes := map snd elems in
  flat_map (fun t => product (map (fun ti => nth ti values []) t)) (partitions sizes).

Section WithZero.
  Context {A : Type} (zero : A) (opp : A -> A).

  (** combinatorics.py lines 6-7. *)
  Definition z (n : nat) : list (list A) := [repeat zero n].

  (** combinatorics.py lines 10-28; AssertionError = None.  Counts are natural numbers. *)
  Definition rd (n : nat) (items : list (A * nat)) : option (list (list A)) :=
    let sum_counts := list_sum (map snd items) in
    if forallb (fun it => 0 <? snd it) items && (sum_counts <=? n) then
      Some (combine (map (fun it => ([fst it], snd it)) items ++ [([zero], n - sum_counts)]))
    else None.

  (** combinatorics.py lines 31-40; AssertionError = None. *)
  Definition fsd (n : nat) (tuples : list (A * nat)) : option (list (list A)) :=
    let total_count := list_sum (map snd tuples) in
    if total_count <=? n then
      Some (combine (map (fun it => ([fst it; opp (fst it)], snd it)) tuples
                     ++ [([zero], n - total_count)]))
    else None.

  (** combinatorics.py lines 43-48. *)
  Definition fs_array (v : list A) : list (list A) :=
    combine (map (fun vi => ([vi; opp vi], 1)) v).

  (** combinatorics.py lines 83-94.  [eqz] decides [value == 0]. *)
  Definition pm (eqz : A -> bool) (v : list A) : list (list A) :=
    product (map (fun x => if eqz x then [zero] else [x; opp x]) v).

End WithZero.

(** np.roll(row, i) for 0 <= i <= len(row): the last i entries move to the front. *)
Definition roll {A : Type} (i : nat) (row : list A) : list A :=
  skipn (length row - i) row ++ firstn (length row - i) row.

(** combinatorics.py lines 97-109. *)
Definition pm_roll {A : Type} (zero : A) (opp : A -> A) (eqz : A -> bool) (v : list A)
  : list (list A) :=
  let n := length v in
  let pm_v := pm zero opp eqz v in
  flat_map (fun i => map (roll i) pm_v) (seq 0 n).

(** combinatorics.py lines 123-155, [augment].  The recursion of the code goes from dimension d to
    d-1 ([exponents[k][1:]]); [dim] is that length (all exponent lists have the same length, so
    [len(exponents[0]) == 0] is [dim = 0]). *)
Fixpoint augment (dim : nat) (exponents : list (list nat)) : list (list nat) :=
  match dim, exponents with
  | 0, _ => []
  | _, [] => []
  | S d, _ =>
      let with_leading_zero :=
        map (@tl nat) (filter (fun e => match e with 0 :: _ => true | _ => false end) exponents) in
      let out1 := augment d with_leading_zero in
      map (fun e => match e with a :: e' => S a :: e' | [] => [] end) exponents
      ++ map (cons 0) out1
  end.

(** combinatorics.py lines 157-173: level 0 and [max_degree] augmentations. *)
Fixpoint exponent_levels (dim : nat) (exponents : list (list nat)) (steps : nat)
  : list (list (list nat)) :=
  exponents ::
  match steps with
  | 0 => []
  | S s => exponent_levels dim (augment dim exponents) s
  end.
Definition get_all_exponents (dim max_degree : nat) : list (list (list nat)) :=
  exponent_levels dim [repeat 0 dim] max_degree.

(** misc.py lines 48-53.  weights, points = zip( *data); np.concatenate(points) and
    np.repeat(weights, [len(grp) for grp in points]). *)
Fixpoint np_repeat {A : Type} (ws : list A) (counts : list nat) : list A :=
  match ws, counts with
  | w :: ws', c :: cs' => repeat w c ++ np_repeat ws' cs'
  | _, _ => []
  end.
Definition untangle {W P : Type} (data : list (W * list P)) : list P * list W :=
  let weights := map fst data in
  let points := map snd data in
  (concat points, np_repeat weights (map (@length P) points)).
