(** Model of quadpy/un/_stroud_1969.py (Stroud's formula of degree 11 for the unit sphere of R^n). *)
From Coq Require Import Reals List Arith.
From Verif Require Import Spec CombModel PyBase SymmModel MiscModel CnModel SphereSpec UnModel.
Import ListNotations.
Open Scope R_scope.

(** un/_stroud_1969.py:26-48 (the points).  The expressions for i = +1 and i = -1 are written with that sign. *)
Definition un_stroud_1969_points (n : nat) : option (list (list point)) :=
  let N := INR n in
  let! sqrt3 := rsqrt 3 in
  let! t0 := rdiv 1 N in
  let! t := rsqrt t0 in
  let r i := let! x := rdiv (N + 6 - i * 4 * sqrt3) (N ^ 2 + 12 * N - 12) in rsqrt x in
  let s i := let! x := rdiv (7 * N - 6 + i * 4 * (N - 1) * sqrt3) (N ^ 2 + 12 * N - 12) in rsqrt x in
  let u i := let! x := rdiv (N + 12 + i * 8 * sqrt3) (N ^ 2 + 24 * N - 48) in rsqrt x in
  let v i := let! x := rdiv (7 * N - 12 - i * 4 * (N - 2) * sqrt3) (N ^ 2 + 24 * N - 48) in rsqrt x in
  let! r1 := r 1 in let! r2 := r (-1) in
  let! s1 := s 1 in let! s2 := s (-1) in
  let! u1 := u 1 in let! u2 := u (-1) in
  let! v1 := v 1 in let! v2 := v (-1) in
  let! p2 := Rfsd n [(s1, 1%nat); (r1, (n - 1)%nat)] in
  let! p3 := Rfsd n [(s2, 1%nat); (r2, (n - 1)%nat)] in
  let! p4 := if (4 <=? n)%nat then let! p := Rfsd n [(v1, 2%nat); (u1, (n - 2)%nat)] in Some [p] else Some [] in
  let! p5 := if (5 <=? n)%nat then let! p := Rfsd n [(v2, 2%nat); (u2, (n - 2)%nat)] in Some [p] else Some [] in
  Some ([Rpm (repeat t n); p2; p3] ++ p4 ++ p5).
(** un/_stroud_1969.py:40-48: k_range *)
Definition un_stroud_1969_range (n : nat) : list nat :=
  ([0; 4; 6] ++ (if 4 <=? n then [8] else []) ++ (if 5 <=? n then [10] else []))%nat.
(** un/_stroud_1969.py:19-62 (also u3.stroud_u3_11_2 for n = 3).  [solve] stands for np.linalg.solve; its contract is a
    hypothesis of the theorem.  Floats are modelled by exact reals. *)
Definition un_stroud_1969 (solve : list (list R) -> list R -> list R) (n : nat) : option scheme :=
  guard (2 <? n)%nat (
  let! pts := un_stroud_1969_points n in
  let k_range := un_stroud_1969_range n in
  let b := map (fun k => ndim_nsphere n (k :: repeat 0%nat (n - 1))) k_range in
  let A := map (fun k => map (fun p => Rsum (map (fun x => nth 0 x 0 ^ k) p)) pts) k_range in
  let w := solve A b in
  let '(points, weights) := untangle (List.combine w pts) in
  let! _ := rdiv 1 (ndim_nsphere n (repeat 0%nat n)) in
  Some (mk_scheme n (mk_rule (points, map (fun x => x / ndim_nsphere n (repeat 0%nat n)) weights)) 11)).
