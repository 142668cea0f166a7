(** Model of QuadratureScheme.__str__ (helpers/_class.py:56-142). *)
From Coq Require Import Reals List Arith String Ascii DecimalString.
From Verif Require Import Spec PyBase CubeModel AdaptModel StrSpec.
Import ListNotations.
Local Notation length := List.length.
Open Scope R_scope.
Open Scope string_scope.

(** helpers/misc.py:8-45: the kinds of sources (namedtuples; all fields default to None) *)
Inductive kind := Article | Book | Techreport | Phdthesis | Online.
(** The value of the field authors: nothing, a list of names, or one string. *)
Inductive authors := NoAuthors | Names (l : list string) | OneString (s : string).
Record source := mk_source { s_kind : kind; s_authors : authors; s_title : option string; s_journal : option string; s_volume : option string;
  s_number : option string; s_pages : option string; s_year : option string; s_url : option string }.
(** Whether the namedtuple has the field (otherwise reading it is an AttributeError, which __str__ catches); all kinds have authors, title, year
    and url. *)
Definition has_journal (k : kind) : bool := match k with Article => true | _ => false end.
Definition has_volume := has_journal.
Definition has_pages := has_journal.
Definition has_number (k : kind) : bool := match k with Article | Techreport => true | _ => false end.
(** The classes of schemes with the methods points_inside and points_inside_or_boundary: CnScheme (and C2Scheme, C3Scheme), TnScheme (and T2Scheme,
    T3Scheme), SnScheme (but not S2Scheme and S3Scheme); the others have none. *)
Inductive family := Cube | Simplex | Ball (dim : nat) | OtherDomain.
Record object := mk_obj { o_domain : string; o_name : string; o_source : option source; o_degree : nat; o_rule : rule; o_tol : R; o_family : family;
  o_comments : list string }.

Definition nl : string := String newline "".
(** f"{x}" of a string or None *)
Definition shown (o : option string) : string := match o with Some s => s | None => "None" end.
(** sep.join(l) *)
Fixpoint join (sep : string) (l : list string) : string :=
  match l with [] => "" | [a] => a | a :: l' => a ++ sep ++ join sep l' end.
(** if source.field: string.append(prefix + source.field), within try/except AttributeError *)
Definition optional (has : bool) (prefix : string) (v : option string) : list string :=
  if has then match v with Some s => if String.eqb s "" then [] else [prefix ++ s] | None => [] end else [].
Fixpoint characters (s : string) : list string := match s with EmptyString => [] | String c s' => String c "" :: characters s' end.
(** helpers/_class.py:66-68; join takes the characters of a string one by one *)
Definition authors_line (a : authors) : string :=
  let put l := match l with [] => "" | _ => nl ++ "                        " ++ join ", " l end in
  match a with NoAuthors => "" | Names l => put l | OneString s => put (characters s) end.
(** helpers/_class.py:59-101 *)
Definition source_text (o : option source) : string :=
  match o with
  | None => ""
  | Some s =>
      let k := s_kind s in
      let string := (optional (has_journal k) "" (s_journal s) ++ optional (has_volume k) "vol. " (s_volume s) ++ optional (has_number k) "no. " (s_number s)
        ++ optional (has_pages k) "pp. " (s_pages s) ++ optional true "" (s_year s))%list in
      nl ++ "  source:               " ++ shown (s_title s) ++ authors_line (s_authors s)
      ++ (match string with [] => "" | _ => nl ++ "                        " ++ join ", " string end)
      ++ (match s_url s with Some u => if String.eqb u "" then "" else nl ++ "                        " ++ u | None => "" end)
  end.
(** f"{n}" of an int *)
Definition decimal (n : nat) : string := NilZero.string_of_uint (Nat.to_uint n).
(** np.max, np.min; no value for an empty array (ValueError) *)
Definition np_max (l : list R) : option R := match l with [] => None | a :: l' => Some (fold_left Rmax l' a) end.
Definition np_min (l : list R) : option R := match l with [] => None | a :: l' => Some (fold_left Rmin l' a) end.
(** a / b of nonnegative numpy floats *)
Definition quotient (a b : R) : ratio := if Req_EM_T b 0 then (if Req_EM_T a 0 then Undefined else Infinite) else Finite (a / b).
(** helpers/_class.py:116-127.  [None]: the class has no method points_inside. *)
Definition position (f : family) (q : rule) : option string :=
  let choose inside closed := if inside : bool then "strictly inside" else if closed : bool then "inside + boundary" else "outside" in
  match f with
  | Cube => Some (choose (cn_points_inside q) (cn_points_inside_or_boundary q))
  | Simplex => Some (choose (tn_points_inside q) (tn_points_inside_or_boundary q))
  | Ball n => Some (choose (forallb (fun b => b) (sn_points_inside n q)) (forallb (fun b => b) (sn_points_inside_or_boundary n q)))
  | OtherDomain => None
  end.
(** helpers/_class.py:56-142.  [fmt_ratio] stands for the format .3e of a float and [fmt_float] for that of a float without a format; [None]: an
    exception. *)
Definition str (fmt_ratio : ratio -> string) (fmt_float : R -> string) (x : object) : option string :=
  let weights := map fst (o_rule x) in
  let message := "<quadrature scheme for " ++ o_domain x ++ ">" in
  let message := message ++ nl ++ "  name:                 " ++ o_name x in
  let message := message ++ source_text (o_source x) in
  let message := message ++ nl ++ "  degree:               " ++ decimal (o_degree x) in
  let message := message ++ nl ++ "  num points/weights:   " ++ decimal (length weights) in
  let! max_weight := np_max (map Rabs weights) in
  let! min_weight := np_min (map Rabs weights) in
  let message := message ++ nl ++ "  max/min weight ratio: " ++ fmt_ratio (quotient max_weight min_weight) in
  let message := message ++ nl ++ "  test tolerance:       " ++ fmt_float (o_tol x) in
  let message := message ++ (match position (o_family x) (o_rule x) with Some p => nl ++ "  point position:       " ++ p | None => "" end) in
  let message := message ++ nl ++ "  all weights positive: " ++ (if forallb (fun w => Rltb 0 w) weights then "True" else "False") in
  let message := message ++ (match o_comments x with [] => "" | _ => nl ++ "  comments:" end) in
  Some (fold_left (fun m c => m ++ nl ++ "    " ++ c) (o_comments x) message).
