(** Specification vocabulary for the combinatorial helpers.  Nothing here refers to the model of the code. *)
From Coq Require Import List Arith Permutation.
Import ListNotations.

(** [p] is an arrangement of the classes (values_0, count_0), (values_1, count_1), ...: the positions of p can
    be labelled by classes so that class i is used exactly count_i times and each position carries a value of
    its class. *)
Definition arrangement {A} (elems : list (list A * nat)) (p : list A) : Prop :=
  exists t : list nat,
    (forall i, count_occ Nat.eq_dec t i = nth i (map snd elems) 0) /\
    Forall2 (fun v ti => In v (nth ti (map fst elems) [])) p t.

(** Product of the factorials, and product of the powers b^c. *)
Fixpoint prodfact (sizes : list nat) : nat :=
  match sizes with [] => 1 | s :: ss => fact s * prodfact ss end.
Fixpoint prodpow (elems : list (nat * nat)) : nat :=
  match elems with [] => 1 | (b, c) :: es => b ^ c * prodpow es end.

(** The vector [v1,..,v1,v2,..,v2,..,0,..,0] of length n that holds value v_i exactly c_i times. *)
Definition base_vector {A} (zero : A) (n : nat) (items : list (A * nat)) : list A :=
  concat (map (fun it => repeat (fst it) (snd it)) items) ++ repeat zero (n - list_sum (map snd items)).

(** [p] is [q] with some of its entries negated. *)
Definition sign_variant {A} (opp : A -> A) (p q : list A) : Prop :=
  Forall2 (fun x y => x = y \/ x = opp y) p q.

(** Number of non-zero entries. *)
Definition num_nonzero {A} (eqz : A -> bool) (v : list A) : nat :=
  length (filter (fun x => negb (eqz x)) v).

(** [p] is [q] cyclically shifted to the right by [i] places. *)
Definition cyclic_shift {A} (zero : A) (i : nat) (q p : list A) : Prop :=
  length p = length q /\
  forall j, j < length q -> nth j p zero = nth ((j + length q - i) mod length q) q zero.

(** [L] lists, without repetition, exactly the exponent vectors of length [dim] and degree [d]. *)
Definition enumerates (L : list (list nat)) (dim d : nat) : Prop :=
  NoDup L /\ forall k, In k L <-> length k = dim /\ list_sum k = d.
