(** What a user expects of quadpy-optimize (C52). *)
From Coq Require Import Reals List Arith String.
From Verif Require Import Spec PyBase SymmModel SymmProofs OptModel.
Import ListNotations.
Local Notation length := List.length.
Open Scope R_scope.

Definition dot (a w : list R) : R := Rsum (map (fun xy => fst xy * snd xy) (combine a w)).
(** The squared distance of A w and b. *)
Definition sq_dist (A : list (list R)) (w b : list R) : R := Rsum (map (fun rb => (dot (fst rb) w - snd rb) ^ 2) (combine A b)).
(** Contract of numpy.linalg.lstsq for an M x N system: a solution with N entries; the rank is N exactly if the columns are
    independent, and then, if M > N, the single residual is the squared distance and it is minimal; otherwise there is none. *)
Definition independent (A : list (list R)) (n : nat) : Prop :=
  forall c, length c = n -> (forall row, In row A -> dot row c = 0) -> Forall (fun t => t = 0) c.
Definition least_squares (lstsq : list (list R) -> list R -> list R * list R * nat) : Prop :=
  forall A b n, A <> [] -> (forall row, In row A -> length row = n) -> length b = length A ->
  exists w res rank, lstsq A b = (w, res, rank) /\ length w = n /\ (rank <= n)%nat /\ (rank = n <-> independent A n) /\
    (rank = n -> (n < length A)%nat -> exists r, res = [r] /\ r = sq_dist A w b /\ forall w', length w' = n -> r <= sq_dist A w' b) /\
    ((rank < n \/ length A <= n)%nat -> res = []).
(** Contract of scipy.optimize.minimize: the value returned is the value at the point returned, and not worse than the start. *)
Definition reports_value (minimize : (list R -> option R) -> list R -> option (list R * R)) : Prop :=
  forall f x0 x v, minimize f x0 = Some (x, v) -> f x = Some v /\ forall v0, f x0 = Some v0 -> v <= v0.

(** The residual of a rule: the distance from the exact values on the polynomials, of which the first has the integral [int_p0]
    and the others the integral zero. *)
Definition residual (polys : list (point -> R)) (int_p0 : R) (q : rule) : R :=
  sqrt (Rsum (map (fun pb => (apply q (fst pb) - snd pb) ^ 2) (combine polys (int_p0 :: repeat 0 (length polys - 1))))).

Section Data.
  Context {K : Type} (cols_of : K -> list (list R) -> option (list (list R))) (orb : K -> list R -> list point).
  Local Notation data := (list (K * (list R * list (list R)))).
  (** One weight per orbit; a single weight for an orbit without parameters. *)
  Definition regular (d : data) : Prop :=
    Forall (fun kv => entry_aligned cols_of kv /\ length (fst (snd kv)) = match snd (snd kv) with [] => 1%nat | r :: _ => length r end) d.
  (** The data with other weights. *)
  Definition with_weights (d : data) (ws : list (list R)) : data :=
    map (fun kw => (fst (fst kw), (snd kw, snd (snd (fst kw))))) (combine d ws).
  Definition weights_like (d : data) (ws : list (list R)) : Prop := Forall2 (fun kv w => length w = length (fst (snd kv))) d ws.
  (** The weights are determined by the values on the polynomials: no other choice of weights than zero gives zero on all of them. *)
  Definition determined (polys : list (point -> R)) (d : data) : Prop :=
    forall ws pw, weights_like d ws -> gen_expand cols_of orb (with_weights d ws) = Some pw ->
    (forall p, In p polys -> apply (mk_rule pw) p = 0) -> Forall (Forall (fun t => t = 0)) ws.
  (** The same keys in the same order, with the same numbers of weights and of coordinates. *)
  Definition same_structure (d d' : data) : Prop :=
    Forall2 (fun kv kv' => fst kv = fst kv' /\ length (fst (snd kv)) = length (fst (snd kv')) /\
      map (fun r => length r) (snd (snd kv)) = map (fun r => length r) (snd (snd kv'))) d d'.
End Data.
