(** Model of the domain transformations: quadpy/tn/_helpers.py (TnScheme.integrate, transform, get_vol) and
    the adaptive triangle integrator quadpy/t2/_tools.py.  Points are lists of coordinates. *)
From Coq Require Import Reals List Arith Bool.
From Verif Require Import Spec CombModel PyBase AdaptModel.
Import ListNotations.
Open Scope R_scope.

Definition vadd (p q : point) : point := map (fun e => fst e + snd e) (List.combine p q).
Definition vsub (p q : point) : point := map (fun e => fst e - snd e) (List.combine p q).
Definition vscale (c : R) (p : point) : point := map (Rmult c) p.
Definition vdot (p q : point) : R := Rsum (map (fun e => fst e * snd e) (List.combine p q)).

(** np.linalg.det, by its definition (expansion along the first row) *)
Definition drop_nth {A} (j : nat) (l : list A) : list A := firstn j l ++ skipn (S j) l.
Fixpoint det (n : nat) (M : list (list R)) : R :=
  match n with
  | O => 1
  | S n' =>
      match M with
      | [] => 0
      | r :: rows => Rsum (map (fun j => (-1) ^ j * nth j r 0 * det n' (map (drop_nth j) rows)) (seq 0 (S n')))
      end
  end.

(** tn/_helpers.py:63-71, the bordered matrix of squared edge lengths *)
Definition cm_matrix (simplex : list point) : list (list R) :=
  (0 :: map (fun _ => 1) simplex) ::
  map (fun p => 1 :: map (fun q => vdot (vsub p q) (vsub p q)) simplex) simplex.
(** tn/_helpers.py:56-77; an empty simplex does not occur *)
Definition get_vol (simplex : list point) : option R :=
  let j := (length simplex - 1)%nat in
  rsqrt ((-1) ^ (j + 1) / 2 ^ j / INR (fact j) ^ 2 * det (j + 2) (cm_matrix simplex)).

(** tn/_helpers.py:45-53: np.dot(simplex.T, points) for one point in barycentric coordinates *)
Definition bary_map (simplex : list point) (lam : point) : point :=
  map (fun k => Rsum (map (fun e => fst e * nth k (snd e) 0) (List.combine lam simplex)))
      (seq 0 (length (hd [] simplex))).
(** tn/_helpers.py:24-42; shapes are checked first *)
Definition tn_integrate (n : nat) (q : rule) (f : point -> R) (simplex : list point) : option R :=
  guard (length simplex =? n + 1)%nat
    (let! vol := get_vol simplex in
     Some (vol * Rsum (map (fun wp => f (bary_map simplex (snd wp)) * fst wp) q))).

(* ------------------------------------------------------------------ t2/_tools.py *)
Definition triangle := (point * point * point)%type.
Definition tri_list (t : triangle) : list point := let '(a, b, c) := t in [a; b; c].
(** get_vol of a triangle; its radicand is non-negative (proved in GeomProofs), so [sqrt] is the square root *)
Definition tri_area (t : triangle) : R :=
  sqrt ((-1) ^ 3 / 2 ^ 2 / INR (fact 2) ^ 2 * det 4 (cm_matrix (tri_list t))).
Definition vmid (p q : point) : point := vscale 0.5 (vadd p q).
(** t2/_tools.py:56-79: np.concatenate stacks the first, second, third and middle children *)
Definition child (i : nat) (t : triangle) : triangle :=
  let '(a, b, c) := t in
  let m0 := vmid b c in let m1 := vmid c a in let m2 := vmid a b in
  match i with
  | 0%nat => (a, m1, m2)
  | 1%nat => (b, m2, m0)
  | 2%nat => (c, m0, m1)
  | _ => (m0, m1, m2)
  end.
Definition subdivide (bad : list triangle) : list triangle :=
  map (child 0) bad ++ map (child 1) bad ++ map (child 2) bad ++ map (child 3) bad.

Inductive t2_outcome :=
| T2Returned (value error : nat -> R)
| T2AreaAssertion      (* assert all(areas > minimum_triangle_area), _tools.py:82 *)
| T2StillRunning.      (* fuel used up; not an outcome of the code *)

Section T2Adaptive.
(** [val1], [val2]: scheme1.integrate and scheme2.integrate on one triangle; component j < m of the integrand *)
Context (m : nat) (val1 val2 : triangle -> nat -> R) (eps : R).

Definition t2_error (t : triangle) (j : nat) : R := Rabs (val1 t j - val2 t j).
Definition t2_sum (g : triangle -> nat -> R) (l : list triangle) (j : nat) : R := Rsum (map (fun t => g t j) l).
(** _tools.py:43, 90; for total area 0 the bound is NaN and every comparison is False *)
Definition t2_good (total : R) (t : triangle) : bool :=
  forallb (fun j => if Req_EM_T total 0 then false else Rltb (t2_error t j) (eps * tri_area t / total)) (seq 0 m).

(** _tools.py:50-96 *)
Fixpoint t2_loop (fuel : nat) (total min_area : R) (bad : list triangle) (qs ge : nat -> R) : t2_outcome :=
  match fuel with
  | O => T2StillRunning
  | S fuel' =>
      match bad with
      | [] => T2Returned qs ge
      | _ =>
          let ts := subdivide bad in
          if forallb (fun t => Rltb min_area (tri_area t)) ts then
            let good := filter (t2_good total) ts in
            t2_loop fuel' total min_area (filter (fun t => negb (t2_good total t)) ts)
              (fun j => qs j + t2_sum val1 good j) (fun j => ge j + t2_sum t2_error good j)
          else T2AreaAssertion
      end
  end.

(** _tools.py:13-98 *)
Definition t2_integrate_adaptive (fuel : nat) (triangles : list triangle) (minimum : option R) : t2_outcome :=
  let total := Rsum (map tri_area triangles) in
  let min_area := match minimum with Some a => a | None => total * 0.25 ^ 10 end in
  let good := filter (t2_good total) triangles in
  t2_loop fuel total min_area (filter (fun t => negb (t2_good total t)) triangles)
    (t2_sum val1 good) (t2_sum t2_error good).
End T2Adaptive.
