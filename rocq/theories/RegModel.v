(** Model of the registries quadpy.<domain>.schemes: the dictionary filled by the calls of register() that run when the modules of a
    domain are imported.  The calls themselves are in RegTables.v. *)
From Coq Require Import List String.
Import ListNotations.
Open Scope string_scope.

(** A Python function object of a module: the file and the name in its def statement, which is its __name__. *)
Record fn := mk_fn { fn_file : string; fn_name : string }.
(** A Python dict with string keys: insertion order, an assignment to an existing key replaces its value. *)
Definition dict := list (string * fn).
Fixpoint dict_set (d : dict) (k : string) (v : fn) : dict :=
  match d with
  | [] => [(k, v)]
  | (k', v') :: r => if k' =? k then (k', v) :: r else (k', v') :: dict_set r k v
  end.
(** schemes[k]; None where Python raises KeyError *)
Fixpoint dict_get (d : dict) (k : string) : option fn :=
  match d with
  | [] => None
  | (k', v) :: r => if k' =? k then Some v else dict_get r k
  end.
(** c2/_helpers.py:15-17 and the same lines of c3, e2r, e2r2, e3r, e3r2, s2, s3, t2, t3, u2, u3 (_helpers.py) *)
Definition register (schemes : dict) (in_schemes : list fn) : dict :=
  fold_left (fun d scheme => dict_set d (fn_name scheme) scheme) in_schemes schemes.

(** An element of the list given to register: the identifier in the source text and the function it is bound to; [own] for a function
    defined in the same file, [from] for a function defined elsewhere or under another name. *)
Inductive entry := own (id : string) | from (id file name : string).
(** A call of register: the file and the list. *)
Definition call := (string * list entry)%type.
Definition entry_id (e : entry) : string := match e with own i => i | from i _ _ => i end.
Definition entry_fn (file : string) (e : entry) : fn := match e with own i => mk_fn file i | from _ f n => mk_fn f n end.
Definition call_fns (c : call) : list fn := map (entry_fn (fst c)) (snd c).
(** c2/_helpers.py:12 (schemes starts as the empty dict) followed by the calls *)
Definition run_calls (calls : list call) : dict := fold_left (fun d c => register d (call_fns c)) calls [].
