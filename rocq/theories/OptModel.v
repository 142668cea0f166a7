(** The optimizer of data files (C52): quadpy/_optimize.py and quadpy/_cli.py.  Numbers are exact reals, so there are no NaNs;
    the condition number and the printed messages are omitted. *)
From Coq Require Import Reals List Arith Bool String.
From Verif Require Import Spec PyBase SymmModel OrbitModel T2Model GoodModel.
Import ListNotations.
Local Notation length := List.length.
Open Scope R_scope.
Open Scope string_scope.

(** np.array(val).shape for a list of rows: (0,) or (m, n); [None] for rows of different lengths. *)
Inductive dims := Empty | Grid (m n : nat).
Definition shape_of (rows : list (list R)) : option dims :=
  match rows with
  | [] => Some Empty
  | r :: _ => if forallb (fun r' => (length r' =? length r)%nat) rows then Some (Grid (length rows) (length r)) else None
  end.
Definition size_of (s : dims) : nat := match s with Empty => 0 | Grid m n => m * n end.
(** item.reshape(shape); [None] is a size mismatch. *)
Definition reshape (s : dims) (l : list R) : option (list (list R)) :=
  if negb (length l =? size_of s)%nat then None else
  match s with
  | Empty => Some []
  | Grid m n => Some (map (fun i => firstn n (skipn (i * n) l)) (seq 0 m))
  end.
(** l[start:stop:step] *)
Definition slice_step (start stop step : nat) (l : list R) : list R :=
  map (fun q => nth (start + q * step) l 0) (seq 0 ((Nat.min stop (length l) - start + step - 1) / step)).

(** The outcome of optimize: the new data and the residual, the RuntimeError "couldn't improve", or another exception. *)
Inductive outcome (A : Type) := Improved (d : A) (res : R) | NotImproved | Crash.
Arguments Improved {A}. Arguments NotImproved {A}. Arguments Crash {A}.

Section Optimize.
  Context {K : Type} (cols_of : K -> list (list R) -> option (list (list R))) (orb : K -> list R -> list point).
  (** np.linalg.lstsq(A, b): solution, residuals, rank; scipy's minimize(f, x0): the point and its value (an exception in f is
      passed on); the orthogonal polynomials up to the degree, in order, and the integral of the first. *)
  Context (lstsq : list (list R) -> list R -> list R * list R * nat)
          (minimize : (list R -> option R) -> list R -> option (list R * R))
          (polys : list (point -> R)) (int_p0 : R).

  (** _optimize.py:113-118, x_to_dict *)
  Fixpoint x_to_dict (ks : list (K * dims)) (x : list R) : option (list (K * list (list R))) :=
    match ks with
    | [] => Some []
    | [(k, s)] => let! v := reshape s x in Some [(k, v)]
    | (k, s) :: ks' =>
        let! v := reshape s (firstn (size_of s) x) in
        let! rest := x_to_dict ks' (skipn (size_of s) x) in
        Some ((k, v) :: rest)
    end.
  (** _optimize.py:134-141: the sums over the columns that belong to one weight, for one row of A2. *)
  Fixpoint column_sums (row : list R) (k : nat) (cs : list (nat * nat)) : list R :=
    match cs with
    | [] => []
    | (lsym, nsym) :: cs' =>
        map (fun i => Rsum (slice_step (k + i) (k + lsym * nsym) nsym row)) (seq 0 nsym)
        ++ column_sums row (k + lsym * nsym) cs'
    end.
  (** _optimize.py:120-163, get_w_from_x: the weights (if any) and the residual. *)
  Definition get_w_from_x (ks : list (K * dims)) (num_symm : list nat) (x : list R) : option (option (list R) * R) :=
    let! d := x_to_dict ks x in
    let! pc := gen_points_only cols_of orb d in
    let '(points, len_symm) := pc in
    let cs := combine len_symm num_symm in
    if negb (list_sum (map (fun ab => fst ab * snd ab) cs) =? length points)%nat then None else
    let A := map (fun p => column_sums (map p points) 0 cs) polys in
    let b := int_p0 :: repeat 0 (length A - 1) in
    let '(w, res, rank) := lstsq A b in
    if (rank <? Nat.min (length A) (length (hd [] A)))%nat then Some (None, 1)
    else let! r := nth_error res 0 in Some (Some w, sqrt r).
  (** _optimize.py:198-209: the weights are put in front of the coordinates. *)
  Fixpoint prepend_weights (d : list (K * list (list R))) (w : list R) (k : nat) : option (list (K * (list R * list (list R)))) :=
    match d with
    | [] => Some []
    | (key, value) :: d' =>
        match value with
        | [] =>
            let! wk := nth_error w k in
            let! rest := prepend_weights d' w (k + 1) in
            Some ((key, ([wk], [])) :: rest)
        | r :: _ =>
            let n := length r in
            let ws := firstn n (skipn k w) in
            if negb (length ws =? n)%nat then None else
            let! rest := prepend_weights d' w (k + n) in
            Some ((key, (ws, value)) :: rest)
        end
    end.
  (** _optimize.py:92-216 *)
  Definition optimize_data (data : list (K * (list R * list (list R)))) : outcome (list (K * (list R * list (list R)))) :=
    let num_symm := map (fun kv => length (fst (snd kv))) data in
    match mapM (fun kv => let! s := shape_of (snd (snd kv)) in Some (fst kv, s)) data with
    | None => Crash
    | Some ks =>
        let f x := let! r := get_w_from_x ks num_symm x in Some (snd r) in
        let x0 := List.concat (map (fun kv => List.concat (snd (snd kv))) data) in
        match f x0 with
        | None => Crash
        | Some r0 =>
            match minimize f x0 with
            | None => Crash
            | Some (x, fmin) =>
                if Rle_dec r0 fmin then NotImproved else
                match get_w_from_x ks num_symm x with
                | Some (Some w, _) =>
                    match (let! d := x_to_dict ks x in prepend_weights d w 0) with
                    | Some d => Improved d fmin
                    | None => Crash
                    end
                | _ => Crash
                end
            end
        end
    end.
End Optimize.

(** The keys of symmetries.py:291-335 by name, with the number of coordinates of a point of the triangle. *)
Definition t2_cols (s : string) (rows : list (list R)) : option (list (list R)) :=
  let! k := lookup key_table s in key_cols k 3 rows.
Definition t2_orb (s : string) (c : list R) : list point :=
  match lookup key_table s with Some k => orbit k 3 c | None => [] end.

(** A JSON value, as far as it matters here. *)
Inductive value :=
  | Data (d : list (string * (list R * list (list R))))
  | Number (r : R) | Integer (n : nat) | Text (s : string) | Texts (l : list string).
(** A dictionary in insertion order. *)
Definition dict := list (string * value).
Definition get (c : dict) (k : string) : option value := lookup c k.
(** c[k] = v: replaces in place or appends. *)
Fixpoint put (c : dict) (k : string) (v : value) : dict :=
  match c with
  | [] => [(k, v)]
  | (k', v') :: c' => if String.eqb k' k then (k, v) :: c' else (k', v') :: put c' k v
  end.
(** What main() leaves in the file: [Written c], the file as it was, or an exception (file as it was). *)
Inductive effect := Written (c : dict) | Unchanged | Failed.

(** str.lower() on ASCII letters. *)
Definition lower_ascii (a : Ascii.ascii) : Ascii.ascii :=
  let n := Ascii.nat_of_ascii a in if (65 <=? n)%nat && (n <=? 90)%nat then Ascii.ascii_of_nat (n + 32) else a.
Fixpoint lower (s : string) : string :=
  match s with EmptyString => EmptyString | String a s' => String (lower_ascii a) (lower s') end.

(** The names each _helpers module defines or imports among those that _optimize.py imports from it
    (c2/_helpers.py:9, s2/_helpers.py:8, u3/_helpers.py:522, 552, 567; helpers/__init__.py:18, t2/_helpers.py:76). *)
Definition exported (domain : string) : list string :=
  if String.eqb domain "t2" then ["expand_symmetries"; "expand_symmetries_points_only"; "_scheme_from_dict"]
  else if String.eqb domain "u3" then ["expand_symmetries"; "expand_symmetries_points_only"; "_scheme_from_dict"]
  else ["expand_symmetries"; "_scheme_from_dict"].
(** Whether expand_symmetries_points_only accepts the argument dim=2 (_optimize.py:122; u3/_helpers.py:522, helpers/symmetries.py:286). *)
Definition takes_dim (domain : string) : bool := negb (String.eqb domain "u3").

Section Cli.
  Context (lstsq : list (list R) -> list R -> list R * list R * nat)
          (minimize : (list R -> option R) -> list R -> option (list R * R))
          (polys : nat -> list (point -> R)) (int_p0 : R).

  (** _optimize.py:4-21 with 24-91.  For the domains other than T2 the call never gets past the imports or the first evaluation.
      exit(1) is an exception, too. *)
  Definition optimize (content : dict) : outcome (list (string * (list R * list (list R)))) :=
    match get content "domain" with
    | Some (Text domain) =>
        let dom := lower domain in
        if existsb (String.eqb dom) ["t2"; "s2"; "c2"; "u3"] then
          if negb (existsb (String.eqb "expand_symmetries_points_only") (exported dom)) then Crash
          else if negb (takes_dim dom) then Crash
          else
            match get content "degree", get content "data" with
            | Some (Integer degree), Some (Data data) => optimize_data t2_cols t2_orb lstsq minimize (polys degree) int_p0 data
            | _, _ => Crash
            end
        else Crash
    | _ => Crash
    end.
  (** _cli.py:21-24: new_data[key][0] = (np.array(item)[0] / w).tolist(); a factor of zero is not modelled (None). *)
  Definition unscale (content : dict) (data : list (string * (list R * list (list R)))) : option (list (string * (list R * list (list R)))) :=
    match get content "weight factor" with
    | None => Some data
    | Some (Number w) => mapM (fun kv => let! ws := mapM (fun v => rdiv v w) (fst (snd kv)) in Some (fst kv, (ws, snd (snd kv)))) data
    | Some _ => None
    end.
  Definition note : string := "precision improved with quadpy-optimize".
  (** _cli.py:26-33 *)
  Definition add_comment (content : dict) : option dict :=
    let! comments := match get content "comments" with None => Some [] | Some (Texts l) => Some l | Some _ => None end in
    Some (if existsb (String.eqb note) comments then content else put content "comments" (Texts (comments ++ [note])%list)).
  (** _cli.py:39-44: "data" goes last. *)
  Definition data_last (content : dict) : option dict :=
    let keys := map fst content in
    if String.eqb (last keys "") "data" then Some content
    else
      let! v := get content "data" in
      Some (filter (fun kv => negb (String.eqb (fst kv) "data")) content ++ [("data", v)])%list.
  (** _cli.py:6-54 *)
  Definition cli_main (content : dict) : effect :=
    match get content "name" with
    | None => Failed
    | Some _ =>
        match optimize content with
        | Crash => Failed
        | NotImproved => Unchanged
        | Improved new_data max_err =>
            match (let! new_data := unscale content new_data in
                   let! c := add_comment content in
                   let! prev_tol := get c "test_tolerance" in
                   data_last (put (put c "data" (Data new_data)) "test_tolerance" (Number max_err))) with
            | Some c => Written c
            | None => Failed
            end
        end
    end.
End Cli.

(** The entries of a dictionary that the readers use (t2/_helpers.py:68-72). *)
Definition content_of (c : dict) : option content :=
  match get c "degree", get c "data" with
  | Some (Integer n), Some (Data d) =>
      match get c "weight factor" with
      | None => Some (mk_content n None d)
      | Some (Number w) => Some (mk_content n (Some w) d)
      | Some _ => None
      end
  | _, _ => None
  end.
