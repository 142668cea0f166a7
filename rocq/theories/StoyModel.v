(** Model of quadpy/sn/_stoyanova.py: a rule of degree 7 for the ball of R^n, n >= 5, built from a regular simplex.  Real arithmetic, so
    symbolic=False and symbolic=True coincide up to rounding; name and source are left out. *)
From Coq Require Import Reals List Arith.
From Verif Require Import Spec CombModel PyBase SymmModel MiscModel CnModel UnModel.
Import ListNotations.
Open Scope R_scope.

(** The delta chosen if the argument is None: lines 24-35 *)
Definition stoyanova_delta (n : nat) (plus : bool) : R :=
  if plus then match n with 5%nat => 0.98945 | 6%nat => 1.005 | 7%nat => 1.017 | 8%nat => 1.026 | 9%nat => 1.04 | _ => 1 end
  else match n with 5%nat => 0.98928 | 6%nat => 0.818 | 7%nat => 0.81 | 8%nat => 0.8 | 9%nat => 0.8 | _ => 4 / 5 end.
(** pts_c, lines 47-55: the vectors c (a[i1] + a[i2] + a[i3]) for i3 < i2 < i1 <= n *)
Definition triple_midpoints (c : R) (a : list point) : list point :=
  flat_map (fun i1 => flat_map (fun i2 => map (fun i3 => vscale c (vadd (vadd (nth i1 a []) (nth i2 a [])) (nth i3 a []))) (seq 0 i2)) (seq 0 i1)) (seq 0 (length a)).
(** pts_b14, lines 56-68 *)
Definition quarter_points (c : R) (a : list point) : list point :=
  flat_map (fun k => map (fun l => vscale c (vadd (nth k a []) (vscale 3 (nth l a [])))) (seq 0 k)) (seq 0 (length a)) ++
  flat_map (fun k => map (fun l => vscale c (vadd (vscale 3 (nth k a [])) (nth l a []))) (seq 0 k)) (seq 0 (length a)).
(** np.concatenate([p, -p]), lines 70-75 *)
Definition with_opposites (p : list point) : list point := p ++ map (map Ropp) p.

(** q1 and q2, lines 87-123; N is n as a real number *)
Definition stoy_q1 (N : R) : R :=
  let s2 := (N - 1) ^ 5 + 32 in
  let s3 := (3 * N - 1) ^ 6 + (N - 3) ^ 6 + 4096 * (N - 1) in
  let s4 := N ^ 5 + 1 in
  let s5 := N ^ 2 + 4 * N - 8 in
  let s6 := (N + 1) * (N + 2) * (N + 4) in
  let s7 := N * (N - 1) in
  let s8 := N * (N - 2) in
  let s11 := (5 * N - 3) ^ 3 in
  let s17 := 3 * (N - 2) in
  9 * (N + 1) * (10 * N ^ 5 * (N + 1) ^ 2 * s17 - N ^ 3 * s2 * s5 + 4 * (N - 1) * s4 * s5 * s7 - 2 * s4 * s6 * s8)
  - N ^ 2 * s3 * s8 + 8 * s4 * s8 * s11 + 108 * N * s2 * s7 ^ 2 - 432 * (N - 1) ^ 3 * s4 * s7.
Definition stoy_q2 (N : R) : R :=
  let s1 := (N - 2) ^ 5 + 243 in
  let s2 := (N - 1) ^ 5 + 32 in
  let s4 := N ^ 5 + 1 in
  let s7 := N * (N - 1) in
  let s9 := (N - 1) * (N - 2) in
  let s12 := (N - 1) * (N - 3) in
  let s17 := 3 * (N - 2) in
  N * s1 * s7 - 3 * s4 * s9 * s17 + 12 * (N - 1) * s4 * s12 - 3 * N ^ 2 * (N - 3) * s2.
(** lines 124-132: (a1, b1, c1, e1) *)
Definition stoy_coeffs (N : R) : option (R * R * R * R) :=
  let s5 := N ^ 2 + 4 * N - 8 in
  let s6 := (N + 1) * (N + 2) * (N + 4) in
  let s7 := N * (N - 1) in
  let s9 := (N - 1) * (N - 2) in
  let s10 := (N + 1) * (N + 6) * s6 in
  let s11 := (5 * N - 3) ^ 3 in
  let s12 := (N - 1) * (N - 3) in
  let s17 := 3 * (N - 2) in
  let q1 := stoy_q1 N in
  let q2 := stoy_q2 N in
  let! b1 := rdiv (2 * (N - 1) * (3 * (N + 1) * s5 * s7 * q2 - s12 * q1 - 36 * (N - 1) ^ 2 * s7 * q2)) (s10 * s17 * q2) in
  let! c1 := rdiv (s9 * q1) (2 * s10 * q2) in
  let! e1 := rdiv (4 * N * s11) (9 * s10) in
  let! f := rdiv N (N + 6) in
  Some (f - b1 - c1 - e1, b1, c1, e1).
(** lines 133-152: (u, v, w), the inverse squares of lmbda, beta, gamma *)
Definition stoy_uvw (N delta : R) (plus : bool) (a1 b1 c1 e1 : R) : option (R * R * R) :=
  let s12 := (N - 1) * (N - 3) in
  let s13 := N ^ 2 - 7 * N + 19 in
  let s14 := N ^ 2 - N + 1 in
  let s15 := 2 * (N - 3) * (N + 1) ^ 2 in
  let s16 := N ^ 3 - 9 * N ^ 2 + 33 * N - 38 in
  let s17 := 3 * (N - 2) in
  let! f1 := rdiv N (N + 2) in
  let! g1 := rdiv e1 (delta ^ 4) in
  let y1 := f1 - g1 in
  let! f2 := rdiv N (N + 4) in
  let! g2 := rdiv e1 (delta ^ 2) in
  let y2 := f2 - g2 in
  let! f3 := rdiv (3 * N ^ 2) ((N + 2) * (N + 4)) in
  let! g3 := rdiv (e1 * (41 * N ^ 3 - 101 * N ^ 2 + 155 * N - 87)) (2 * (5 * N - 3) ^ 2 * delta ^ 2) in
  let y3 := f3 - g3 in
  let! w0 := rdiv (s17 * (y3 * (s15 - s14 * s17) + s13 * s14 * y2)) (s13 * s15 * c1) in
  let! u0 := rdiv (N * (s17 * y3 - s13 * y2)) (s15 * a1) in
  let! p1 := rdiv (N * (N - 4) * b1) (4 * s12 * a1) in
  let! p2 := rdiv (s16 * s17 * b1) (4 * s12 * s13 * c1) in
  let d1 := a1 * p1 ^ 2 + c1 * p2 ^ 2 + b1 in
  let d2 := a1 * p1 * u0 + c1 * p2 * w0 in
  let d3 := a1 * u0 ^ 2 + c1 * w0 ^ 2 - y1 in
  let d0 := d2 ^ 2 - d1 * d3 in
  let! s := rsqrt d0 in
  let! v := if plus then rdiv (d2 + s) d1 else rdiv (d2 - s) d1 in
  Some (u0 - p1 * v, v, w0 - p2 * v).
(** sn/_stoyanova.py:19-182.  The asserted lengths of the point lists (lines 82-85) are kept; the square root of a negative number raises, as math.sqrt does. *)
Definition stoyanova (n : nat) (delta : option R) (plus : bool) : option scheme :=
  guard (5 <=? n)%nat (
  let N := INR n in
  let delta := match delta with Some d => d | None => stoyanova_delta n plus end in
  let! pa := get_nsimplex_points n in
  let! qb := rdiv N (2 * (N - 1)) in
  let! cb := rsqrt qb in
  let! qc := rdiv N (3 * (N - 2)) in
  let! cc := rsqrt qc in
  let! qe := rdiv N (10 * N - 6) in
  let! ce := rsqrt qe in
  let pts_a := with_opposites pa in
  let pts_b := with_opposites (pair_midpoints cb pa) in
  let pts_c := if (5 <? n)%nat then with_opposites (triple_midpoints cc pa) else triple_midpoints cc pa in
  let pts_b14 := with_opposites (quarter_points ce pa) in
  let n1 := (2 * (n + 1))%nat in
  let n2 := (n * (n + 1))%nat in
  let n3 := (if n =? 5 then (n + 1) * n * (n - 1) / 6 else (n + 1) * n * (n - 1) / 3)%nat in
  let n4 := (2 * n * (n + 1))%nat in
  guard (length pts_a =? n1)%nat (guard (length pts_b =? n2)%nat (guard (length pts_c =? n3)%nat (guard (length pts_b14 =? n4)%nat (
  let! (a1, b1, c1, e1) := stoy_coeffs N in
  let! (u, v, w) := stoy_uvw N delta plus a1 b1 c1 e1 in
  let! lmbda2 := rdiv 1 u in
  let! beta2 := rdiv 1 v in
  let! gamma2 := rdiv 1 w in
  let delta2 := delta ^ 2 in
  let! a := rdiv (a1 / INR n1) (lmbda2 ^ 3) in
  let! b := rdiv (b1 / INR n2) (beta2 ^ 3) in
  let! c := rdiv (c1 / INR n3) (gamma2 ^ 3) in
  let! e := rdiv (e1 / INR n4) (delta2 ^ 3) in
  let d := 1 - INR n1 * a - INR n2 * b - INR n3 * c - INR n4 * e in
  let! lmbda := rsqrt lmbda2 in
  let! beta := rsqrt beta2 in
  let! gamma := rsqrt gamma2 in
  Some (from_data n [(a, map (vscale lmbda) pts_a); (b, map (vscale beta) pts_b); (c, map (vscale gamma) pts_c); (e, map (vscale delta) pts_b14); (d, Rz n)] 7)))))).
