(** Model of quadpy/helpers/symmetries.py. *)
From Coq Require Import Reals List Arith String.
From Verif Require Import Spec CombModel PyBase.
Import ListNotations.
Local Notation length := List.length.
Local Notation concat := List.concat.
Open Scope R_scope.

(** The keys of the dispatch table, symmetries.py:291-335 ("zero2", "zero3" and "0" share a function;
    Kd n off stands for "dN.off", symmetries.py:317-325). *)
Inductive key :=
| K0 | Ka | Ka0
| Kd4_aa | Kd4_a0 | Kc4 | Kd4_ab | Kc2_a0 | Kc2_0a | Ksxy | Kc2 | Ksx
| Kcentroid | Kvertex | Kd3_ab | Kd3_aa | Kc3_ab | Kswap_ab | Ks2_static
| Kd (n offset : nat)
| Ksymm_r00 | Ksymm_rr0 | Ksymm_rs0_roll | Ksymm_rrr | Ksymm_rrs | Ksymm_rss_pm
| Kplain.

(** How many parameter rows a key's function unpacks (0: the function ignores its data). *)
Definition arity (k : key) (dim : nat) : nat :=
  match k with
  | K0 | Kcentroid | Kvertex => 0
  | Ka | Ka0 | Kd4_aa | Kd4_a0 | Kc2_a0 | Kc2_0a | Kd3_aa | Ks2_static | Kd _ _
  | Ksymm_r00 | Ksymm_rr0 | Ksymm_rrr => 1
  | Kc4 | Kd4_ab | Ksxy | Kc2 | Ksx | Kd3_ab | Kc3_ab | Kswap_ab
  | Ksymm_rs0_roll | Ksymm_rrs | Ksymm_rss_pm => 2
  | Kplain => dim
  end.

(** The orbit of one parameter column [c] (its entries a, b), in the order in which the code lists it. *)
Definition orbit (k : key) (dim : nat) (c : list R) : list point :=
  let a := nth 0 c 0 in
  let b := nth 1 c 0 in
  match k with
  | K0 => [repeat 0 dim]                                                    (* symmetries.py:6-7 *)
  | Kd4_ab => [[a; b]; [-a; b]; [a; -b]; [-a; -b]; [b; a]; [-b; a]; [b; -a]; [-b; -a]]  (* 10-17 *)
  | Kd4_aa => [[a; a]; [-a; a]; [a; -a]; [-a; -a]]                          (* 20-24 *)
  | Kd4_a0 => [[a; 0]; [-a; 0]; [0; a]; [0; -a]]                            (* 27-32 *)
  | Kc4 => [[a; b]; [-a; -b]; [-b; a]; [b; -a]]                             (* 35-39 *)
  | Ksxy => [[a; b]; [a; -b]; [-a; b]; [-a; -b]]                            (* 42-46 *)
  | Ksx => [[a; b]; [-a; b]]                                                (* 49-53 *)
  | Kc2 => [[a; b]; [-a; -b]]                                               (* 56-60 *)
  | Kc2_a0 => [[a; 0]; [-a; 0]]                                             (* 63-67 *)
  | Kc2_0a => [[0; a]; [0; -a]]                                             (* 70-75 *)
  | Kcentroid => [[1/3; 1/3; 1/3]]                                          (* 78-79 *)
  | Kvertex => [[1; 0; 0]; [0; 1; 0]; [0; 0; 1]]                            (* 82-83 *)
  | Kd3_aa => let b := 1 - 2 * a in [[a; a; b]; [a; b; a]; [b; a; a]]       (* 86-89 *)
  | Kd3_ab => let c := 1 - a - b in
      [[a; b; c]; [c; a; b]; [b; c; a]; [b; a; c]; [c; b; a]; [a; c; b]]    (* 92-99 *)
  | Kc3_ab => let c := 1 - a - b in [[a; b; c]; [c; a; b]; [b; c; a]]       (* 102-107 *)
  | Kswap_ab => let c := 1 - a - b in [[a; b; c]; [b; a; c]]                (* 110-115 *)
  | Ks2_static => let b := 1 - 2 * a in [[a; a; b]]                         (* 118-123 *)
  | Kd n offset =>                                                          (* 126-135 *)
      map (fun i => let alpha := (2 * INR i + INR offset) * PI / INR n in [cos alpha * a; sin alpha * a])
          (seq 0 n)
  | Ksymm_r00 => [[a; 0; 0]; [-a; 0; 0]; [0; a; 0]; [0; -a; 0]; [0; 0; a]; [0; 0; -a]]  (* 138-151 *)
  | Ksymm_rr0 =>                                                            (* 154-173 *)
      [[a; a; 0]; [a; 0; a]; [0; a; a]; [a; -a; 0]; [a; 0; -a]; [0; a; -a];
       [-a; a; 0]; [-a; 0; a]; [0; -a; a]; [-a; -a; 0]; [-a; 0; -a]; [0; -a; -a]]
  | Ksymm_rs0_roll =>                                                       (* 176-196 *)
      [[a; b; 0]; [a; -b; 0]; [-a; b; 0]; [-a; -b; 0];
       [0; a; b]; [0; a; -b]; [0; -a; b]; [0; -a; -b];
       [b; 0; a]; [b; 0; -a]; [-b; 0; a]; [-b; 0; -a]]
  | Ksymm_rrr =>                                                            (* 199-213 *)
      [[a; a; a]; [-a; a; a]; [a; -a; a]; [-a; -a; a]; [a; a; -a]; [-a; a; -a]; [a; -a; -a]; [-a; -a; -a]]
  | Ksymm_rrs =>                                                            (* 216-247 *)
      [[a; a; b]; [a; b; a]; [b; a; a]; [a; -a; b]; [a; b; -a]; [b; a; -a];
       [-a; a; b]; [-a; b; a]; [b; -a; a]; [-a; -a; b]; [-a; b; -a]; [b; -a; -a];
       [a; a; -b]; [a; -b; a]; [-b; a; a]; [a; -a; -b]; [a; -b; -a]; [-b; a; -a];
       [-a; a; -b]; [-a; -b; a]; [-b; -a; a]; [-a; -a; -b]; [-a; -b; -a]; [-b; -a; -a]]
  | Ksymm_rss_pm => [[a; b; b]; [b; a; b]; [b; b; a]; [-a; -b; -b]; [-b; -a; -b]; [-b; -b; -a]]  (* 250-263 *)
  | Ka => product (repeat [a; -a] dim)                                      (* 266-271 *)
  | Ka0 => flat_map (fun i => [repeat 0 i ++ [a] ++ repeat 0 (dim - i - 1);
                               repeat 0 i ++ [-a] ++ repeat 0 (dim - i - 1)]) (seq 0 dim)  (* 274-283 *)
  | Kplain => [c]                                                           (* 334 *)
  end.

(** Columns of an array given by its rows; [nv] is the common row length. *)
Definition columns (nv : nat) (rows : list (list R)) : list (list R) :=
  map (fun j => map (fun r => nth j r 0) rows) (seq 0 nv).

(** The parameter columns a key's function is evaluated on.  [None]: shape/unpacking errors and the asserts
    of _a and _a0 (symmetries.py:267, 276).  A key that ignores its data yields one column. *)
Definition key_cols (k : key) (dim : nat) (rows : list (list R)) : option (list (list R)) :=
  let nv := match rows with [] => 1%nat | r :: _ => length r end in
  match arity k dim with
  | O => Some [[]]
  | ar =>
      let shape_ok := (Nat.eqb (length rows) ar && forallb (fun r => Nat.eqb (length r) nv) rows)%bool in
      let assert_ok := match k with Ka | Ka0 => Nat.eqb nv 1 | _ => true end in
      if (shape_ok && assert_ok)%bool then Some (columns nv rows) else None
  end.

(** np.tile(values, count) *)
Definition tile (values : list R) (count : nat) : list R := concat (repeat values count).

(** The three expand_symmetries functions of the code (helpers/symmetries.py, t3/_helpers.py, u3/_helpers.py)
    share this body; they differ in the table of keys, i.e. in [cols_of] and [orb]. *)
Section Expand.
  Context {K : Type} (cols_of : K -> list (list R) -> option (list (list R))) (orb : K -> list R -> list point).

  (** symmetries.py:336-340 for one key: the array of shape (dim, count, nv), as the list over the orbit
      positions (count) of the lists over the parameter columns (nv). *)
  Definition gen_key_points (k : K) (rows : list (list R)) : option (list (list point)) :=
    let! cols := cols_of k rows in
    let count := length (orb k []) in
    Some (map (fun i => map (fun c => nth i (orb k c) []) cols) (seq 0 count)).

  (** symmetries.py:286-343 (t3/_helpers.py:143-163, u3/_helpers.py:522-549): all points in order and the
      orbit sizes; the reshape (dim, count, nv) -> (dim, count * nv) is [concat]. *)
  Fixpoint gen_points_only (data : list (K * list (list R))) : option (list point * list nat) :=
    match data with
    | [] => Some ([], [])
    | (k, rows) :: data' =>
        let! pts := gen_key_points k rows in
        let! rest := gen_points_only data' in
        Some (concat pts ++ fst rest, length pts :: snd rest)
    end.

  (** symmetries.py:346-358 (t3/_helpers.py:166-179, u3/_helpers.py:552-564).
      data = {key: [weights, row, row, ...]}, in dictionary order. *)
  Definition gen_expand (data : list (K * (list R * list (list R)))) : option (list point * list R) :=
    let! pc := gen_points_only (map (fun kv => (fst kv, snd (snd kv))) data) in
    let weights_raw := map (fun kv => fst (snd kv)) data in
    Some (fst pc, concat (map (fun cv => tile (snd cv) (fst cv)) (List.combine (snd pc) weights_raw))).
End Expand.

(** helpers/symmetries.py:346-358 *)
Definition expand_symmetries (data : list (key * (list R * list (list R)))) (dim : nat)
  : option (list point * list R) :=
  gen_expand (fun k => key_cols k dim) (fun k => orbit k dim) data.

(** The dictionary lookup, symmetries.py:291-335; an unknown key is a KeyError ([None]). *)
Local Open Scope string_scope.
Definition key_table : list (string * key) :=
  [("zero2", K0); ("zero3", K0); ("0", K0); ("a", Ka); ("a0", Ka0);
   ("d4_aa", Kd4_aa); ("d4_a0", Kd4_a0); ("c4", Kc4); ("d4_ab", Kd4_ab); ("c2_a0", Kc2_a0); ("c2_0a", Kc2_0a);
   ("sxy", Ksxy); ("c2", Kc2); ("sx", Ksx);
   ("centroid", Kcentroid); ("vertex", Kvertex); ("d3_ab", Kd3_ab); ("d3_aa", Kd3_aa); ("c3_ab", Kc3_ab);
   ("swap_ab", Kswap_ab); ("s2_static", Ks2_static);
   ("d4.0", Kd 4 0); ("d4.1", Kd 4 1); ("d5.0", Kd 5 0); ("d6.0", Kd 6 0); ("d6.1", Kd 6 1);
   ("d8.0", Kd 8 0); ("d8.1", Kd 8 1); ("d10.0", Kd 10 0); ("d10.1", Kd 10 1);
   ("symm_r00", Ksymm_r00); ("symm_rr0", Ksymm_rr0); ("symm_rs0_roll", Ksymm_rs0_roll);
   ("symm_rrr", Ksymm_rrr); ("symm_rrs", Ksymm_rrs); ("symm_rss_pm", Ksymm_rss_pm); ("plain", Kplain)].
Definition lookup {B} (tbl : list (string * B)) (s : string) : option B :=
  option_map snd (find (fun p => String.eqb (fst p) s) tbl).
Fixpoint resolve {B V} (tbl : list (string * B)) (data : list (string * V)) : option (list (B * V)) :=
  match data with
  | [] => Some []
  | (s, v) :: data' => let! k := lookup tbl s in let! rest := resolve tbl data' in Some ((k, v) :: rest)
  end.
(** expand_symmetries as called with string keys. *)
Definition expand_symmetries_str (data : list (string * (list R * list (list R)))) (dim : nat) :=
  let! d := resolve key_table data in expand_symmetries d dim.
