(** Construction of scheme objects (C53): the attributes a constructor leaves on the object, the warnings it emits and the
    exceptions it raises. *)
From Coq Require Import Reals List Arith Bool String.
Import ListNotations.
Local Notation length := List.length.
Open Scope R_scope.
Open Scope string_scope.

(** numpy dtypes, as far as the constructor tells them apart. *)
Inductive dtype := Float64 | Object | Int | Other.
Definition dtype_eqb (a b : dtype) : bool :=
  match a, b with Float64, Float64 | Object, Object | Int, Int | Other, Other => true | _, _ => false end.
(** A numpy array: dtype, shape and (exact) entries in row-major order. *)
Record array := mk_array { a_dtype : dtype; a_shape : list nat; a_entries : list R }.
(** a.astype(np.float64); rounding is not modelled. *)
Definition astype_float (a : array) : array := mk_array Float64 (a_shape a) (a_entries a).

(** The value of the attribute .domain: f"{s}", f"{s} (n={dim})" or f"{s} (n={dim}, {tol})". *)
Inductive domain := Plain (s : string) | WithDim (s : string) (dim : nat) | WithDimTol (s : string) (dim : nat) (tol : R).
(** The attributes of the object under construction; [None] is an attribute which does not exist (yet). *)
Record object := mk_object {
  o_domain : option domain; o_dim : option nat;
  o_test_tolerance : option R; o_name : option string; o_degree : option nat;
  o_weights : option array; o_weights_symbolic : option array;
  o_points : option array; o_points_symbolic : option array }.
Definition new_object : object := mk_object None None None None None None None None None.
Definition set_domain (d : domain) (o : object) : object :=
  mk_object (Some d) (o_dim o) (o_test_tolerance o) (o_name o) (o_degree o) (o_weights o) (o_weights_symbolic o) (o_points o) (o_points_symbolic o).
Definition set_dim (n : nat) (o : object) : object :=
  mk_object (o_domain o) (Some n) (o_test_tolerance o) (o_name o) (o_degree o) (o_weights o) (o_weights_symbolic o) (o_points o) (o_points_symbolic o).
Definition set_info (tol : R) (name : string) (degree : nat) (o : object) : object :=
  mk_object (o_domain o) (o_dim o) (Some tol) (Some name) (Some degree) (o_weights o) (o_weights_symbolic o) (o_points o) (o_points_symbolic o).
Definition set_weights (w : array) (s : option array) (o : object) : object :=
  mk_object (o_domain o) (o_dim o) (o_test_tolerance o) (o_name o) (o_degree o) (Some w) s (o_points o) (o_points_symbolic o).
Definition set_points (p : array) (s : option array) (o : object) : object :=
  mk_object (o_domain o) (o_dim o) (o_test_tolerance o) (o_name o) (o_degree o) (o_weights o) (o_weights_symbolic o) (Some p) s.

(** The text of the low-precision warning. *)
Inductive warning := LowPrecision (name : string) (d : domain) (tol : R).
Inductive result := Done (o : object) (ws : list warning) | AttributeError | AssertionError.
Definition then_ (r : result) (f : object -> object) : result := match r with Done o ws => Done (f o) ws | e => e end.
Definition assert (b : bool) (r : result) : result := if b then r else AssertionError.

(** quadpy/helpers/_class.py:31-45, the treatment of weights and points: [None] is a failed assertion. *)
Definition float_and_symbolic (a : array) : option (array * option array) :=
  if dtype_eqb (a_dtype a) Float64 then Some (a, None)
  else if dtype_eqb (a_dtype a) Object || dtype_eqb (a_dtype a) Int then Some (astype_float a, Some a) else None.
(** quadpy/helpers/_class.py:7-45, QuadratureScheme.__init__; source and comments are not modelled. *)
Definition base_init (name : string) (weights points : array) (degree : nat) (tol : R) (self : object) : result :=
  let store (ws : list warning) : result :=
    let self := set_info tol name degree self in
    match float_and_symbolic weights with
    | None => AssertionError
    | Some (w, wsym) =>
        let self := set_weights w wsym self in
        match float_and_symbolic points with
        | None => AssertionError
        | Some (p, psym) => Done (set_points p psym self) ws
        end
    end in
  if Rlt_dec (1 / 10 ^ 12) tol then
    match o_domain self with
    | None => AttributeError
    | Some d => store [LowPrecision name d tol]
    end
  else store [].

(** The scheme classes. *)
Inductive cls := C1 | C2 | C3 | Cn | E1r | E1r2 | E2r | E2r2 | E3r | E3r2 | Enr | Enr2 | P3 | S2 | S3 | Sn | T2 | T3 | Tn | U2 | U3 | Un | W3.
Definition axis0 (p : array) : nat := nth 0 (a_shape p) 0%nat.
Definition axis1 (p : array) : nat := nth 1 (a_shape p) 0%nat.
(** quadpy/cn/_helpers.py:11-25 *)
Definition cn_init name (dim : nat) weights points degree tol self : result :=
  let self := set_dim dim (set_domain (WithDim "Cn" dim) self) in
  assert (axis0 points =? dim)%nat (base_init name weights points degree tol self).
(** quadpy/tn/_helpers.py:11-16 *)
Definition tn_init name (dim : nat) weights points degree tol self : result :=
  let self := set_dim dim (set_domain (WithDim "Tn" dim) self) in
  base_init name weights points degree tol self.
(** The constructor of every class, on arrays: [weights], [points] are the arguments or, for the classes that take symmetry
    data, the result of expanding them (times the weight factor).  [dim] and [tol] are ignored by the classes without
    such an argument; symmetry_data and theta_phi are not modelled here.
    quadpy/c1/_helpers.py:58-60, c2/_helpers.py:21-27, c3/_helpers.py:18-22, cn/_helpers.py:11-25, e1r/_helpers.py:7-9,
    e1r2/_helpers.py:7-9, e2r/_helpers.py:17-26, e2r2/_helpers.py:17-26, e3r/_helpers.py:16-20, e3r2/_helpers.py:16-20,
    enr/_helpers.py:8-12, enr2/_helpers.py:8-12, p3/_helpers.py:7-9, s2/_helpers.py:19-35, s3/_helpers.py:18-22,
    sn/_helpers.py:9-13, t2/_helpers.py:18-36, t3/_helpers.py:18-27, tn/_helpers.py:11-16, u2/_helpers.py:14-16,
    u3/_helpers.py:19-37, un/_helpers.py:8-11, w3/_helpers.py:7-9 *)
Definition construct (c : cls) (name : string) (dim : nat) (weights points : array) (degree : nat) (tol : R) : result :=
  let self := new_object in
  let base := base_init name weights points degree in
  match c with
  | C1 => base (1 / 10 ^ 14) (set_domain (Plain "C1") self)
  | C2 => then_ (cn_init name 2 weights points degree tol self) (set_domain (Plain "C2"))
  | C3 => then_ (cn_init name 3 weights points degree tol self) (set_domain (Plain "C3"))
  | Cn => cn_init name dim weights points degree tol self
  | E1r => base (1 / 10 ^ 14) (set_domain (Plain "E1r") self)
  | E1r2 => base (1 / 10 ^ 14) (set_domain (Plain "E1r2") self)
  | E2r => assert (axis0 points =? 2)%nat (base tol (set_domain (Plain "E2r") self))
  | E2r2 => assert (axis0 points =? 2)%nat (base tol (set_domain (Plain "E2r2") self))
  | E3r => base tol (set_domain (Plain "E3r") self)
  | E3r2 => then_ (base tol self) (set_domain (Plain "E3r2"))
  | Enr => assert (axis0 points =? dim)%nat (base tol (set_dim dim (set_domain (WithDim "Enr" dim) self)))
  | Enr2 => assert (axis0 points =? dim)%nat (base tol (set_dim dim (set_domain (WithDimTol "Enr2" dim tol) self)))
  | P3 => then_ (base tol self) (set_domain (Plain "P3"))
  | S2 => assert (axis0 points =? 2)%nat (assert (axis1 points =? axis0 weights)%nat (base tol (set_domain (Plain "S2") self)))
  | S3 => then_ (base tol self) (set_domain (Plain "S3"))
  | Sn => assert (axis0 points =? dim)%nat (base tol (set_dim dim (set_domain (WithDim "Sn" dim) self)))
  | T2 => assert (axis0 points =? 3)%nat (then_ (tn_init name 2 weights points degree tol self) (set_domain (Plain "T2")))
  | T3 => then_ (tn_init name 3 weights points degree tol self) (set_domain (Plain "T3"))
  | Tn => tn_init name dim weights points degree tol self
  | U2 => then_ (base tol self) (set_domain (Plain "U2"))
  | U3 => base tol (set_domain (Plain "U3") self)
  | Un => then_ (base tol self) (fun o => set_dim dim (set_domain (WithDim "Un" dim) o))
  | W3 => base tol (set_domain (Plain "W3") self)
  end.
