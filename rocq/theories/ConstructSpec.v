(** What a user expects of a scheme object (C53). *)
From Coq Require Import Reals List String.
From Verif Require Import ConstructModel.
Import ListNotations.
Open Scope R_scope.
Open Scope string_scope.

(** The dtypes that are accepted: floats, exact (sympy) objects and integers. *)
Definition accepted (a : array) : Prop := a_dtype a <> Other.
(** Shape requirements of the class: the points of a scheme in dimension [dim] have that many coordinates (barycentric for T2). *)
Definition fits_class (c : cls) (dim : nat) (weights points : array) : Prop :=
  match c with
  | C2 | E2r | E2r2 => axis0 points = 2%nat
  | S2 => axis0 points = 2%nat /\ axis1 points = axis0 weights
  | C3 | T2 => axis0 points = 3%nat
  | Cn | Sn | Enr | Enr2 => axis0 points = dim
  | _ => True
  end.
(** The tolerance of the object: the one given, or 1e-14 for the classes without such an argument. *)
Definition tolerance (c : cls) (tol : R) : R := match c with C1 | E1r | E1r2 => 1 / 10 ^ 14 | _ => tol end.
(** The stored pair: a float array with the entries of [a], and [a] itself if it is exact. *)
Definition stored (a : array) (float symbolic : option array) : Prop :=
  (exists f, float = Some f /\ a_dtype f = Float64 /\ a_shape f = a_shape a /\ a_entries f = a_entries a) /\
  (a_dtype a = Float64 -> symbolic = None) /\ (a_dtype a <> Float64 -> symbolic = Some a).
(** The name of the domain. *)
Definition named (c : cls) (dim : nat) (d : domain) : Prop :=
  match c with
  | C1 => d = Plain "C1" | C2 => d = Plain "C2" | C3 => d = Plain "C3" | Cn => d = WithDim "Cn" dim
  | E1r => d = Plain "E1r" | E1r2 => d = Plain "E1r2" | E2r => d = Plain "E2r" | E2r2 => d = Plain "E2r2"
  | E3r => d = Plain "E3r" | E3r2 => d = Plain "E3r2" | Enr => d = WithDim "Enr" dim | Enr2 => exists tol, d = WithDimTol "Enr2" dim tol
  | P3 => d = Plain "P3" | S2 => d = Plain "S2" | S3 => d = Plain "S3" | Sn => d = WithDim "Sn" dim
  | T2 => d = Plain "T2" | T3 => d = Plain "T3" | Tn => d = WithDim "Tn" dim
  | U2 => d = Plain "U2" | U3 => d = Plain "U3" | Un => d = WithDim "Un" dim | W3 => d = Plain "W3"
  end.
(** The attribute .dim: the dimension of the classes that have one. *)
Definition dimension (c : cls) (dim : nat) : option nat :=
  match c with C2 | T2 => Some 2%nat | C3 | T3 => Some 3%nat | Cn | Tn | Sn | Un | Enr | Enr2 => Some dim | _ => None end.
(** The domain in the text of the warning: the name of the domain, as a special case of Cn or Tn for C2, C3, T2, T3. *)
Definition warned (c : cls) (dim : nat) (d : domain) : Prop :=
  match c with C2 => d = WithDim "Cn" 2 | C3 => d = WithDim "Cn" 3 | T2 => d = WithDim "Tn" 2 | T3 => d = WithDim "Tn" 3 | _ => named c dim d end.
(** A well-formed object. *)
Definition well_formed (c : cls) (name : string) (dim : nat) (weights points : array) (degree : nat) (tol : R) (o : object) : Prop :=
  o_name o = Some name /\ o_degree o = Some degree /\ o_test_tolerance o = Some (tolerance c tol) /\
  stored weights (o_weights o) (o_weights_symbolic o) /\ stored points (o_points o) (o_points_symbolic o) /\
  o_dim o = dimension c dim /\ exists d, o_domain o = Some d /\ named c dim d.
(** The classes whose constructor names the domain only after the base class has been initialised. *)
Definition names_domain_late (c : cls) : Prop := In c [E3r2; P3; S3; U2; Un].
