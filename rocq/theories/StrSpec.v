(** Reading the text of print(scheme) (C89). *)
From Coq Require Import Reals List Arith String Ascii.
From Verif Require Import Spec.
Import ListNotations.
Open Scope R_scope.
Open Scope string_scope.

(** The lines of a text, and the text with a given separator between the parts. *)
Definition newline : ascii := "010"%char.
Fixpoint lines (s : string) : list string :=
  match s with
  | EmptyString => [""]
  | String c s' => if Ascii.eqb c newline then "" :: lines s'
                   else match lines s' with l :: rest => String c l :: rest | [] => [String c ""] end
  end.
Definition one_line (s : string) : Prop := ~ In newline (list_ascii_of_string s).
(** What follows the label in the first line that starts with it. *)
Fixpoint after (label s : string) : option string :=
  match label, s with
  | EmptyString, _ => Some s
  | String a l, String b s' => if Ascii.eqb a b then after l s' else None
  | _, EmptyString => None
  end.
Fixpoint entry (label : string) (ls : list string) : option string :=
  match ls with
  | [] => None
  | l :: ls' => match after label l with Some v => Some v | None => entry label ls' end
  end.
(** The number a string of decimal digits denotes. *)
Fixpoint number_from (acc : nat) (s : string) : option nat :=
  match s with
  | EmptyString => Some acc
  | String c s' => let d := nat_of_ascii c in if andb (48 <=? d)%nat (d <=? 57)%nat then number_from (10 * acc + (d - 48))%nat s' else None
  end.
Definition number (s : string) : option nat := match s with EmptyString => None | _ => number_from 0 s end.
(** The largest of the quotients |w| / |w'| of two weights: a number, infinite if some but not all weights are 0, undefined if all are. *)
Inductive ratio := Finite (r : R) | Infinite | Undefined.
Definition is_ratio (w : list R) (x : ratio) : Prop :=
  match x with
  | Finite r => ~ In 0 w /\ (forall a b, In a w -> In b w -> Rabs a <= r * Rabs b) /\ exists a b, In a w /\ In b w /\ Rabs a = r * Rabs b
  | Infinite => In 0 w /\ exists a, In a w /\ a <> 0
  | Undefined => forall a, In a w -> a = 0
  end.
