(** What plot() and show() draw (C88): helpers/plot.py and the methods of the schemes.  A drawing is the list of its disks, balls or caps; axes,
    opacity, the dots in the centres, and the rendering itself are omitted.  Arrays are those of ShapeModel.v.  [None] is an exception, or a radius
    that is not a number. *)
From Coq Require Import Reals List Arith Bool String.
From Verif Require Import Spec PlotSpec PyBase GeomModel CubeModel PyraModel ShapeModel NdModel.
Import ListNotations.
Open Scope R_scope.
Local Notation length := List.length.


(** the entries of an array along its first axis, for an array with two axes *)
Definition rows (a : nd) : list point :=
  map (fun i => map (fun j => nd_at a [i; j]) (seq 0 (nth 1 (nd_shape a) 0%nat))) (seq 0 (nth 0 (nd_shape a) 0%nat)).
(** helpers/plot.py:13, 23-27, 101 *)
Definition mpl_color (w : R) : color := if Rle_dec 0 w then blue else red.
(** helpers/plot.py:31-39; zip stops with the shorter list *)
Definition plot_disks_helpers (pts : list point) (radii : list R) (colors : list color) : option (list mark) :=
  opt_all (map (fun e => let '(pt, (r, c)) := e in
                         let! x := nth_error pt 0 in let! y := nth_error pt 1 in Some (mk_mark [x; y] r c))
               (List.combine pts (List.combine radii colors))).
(** helpers/plot.py:8-14 *)
Definition plot_disks_1d (pts : list point) (weights : list R) (total_area : R) : option (list mark) :=
  let! radii := opt_all (map (fun w => let! d := rdiv (0.5 * Rabs w) (Rsum weights) in Some (d * total_area)) weights) in
  plot_disks_helpers pts radii (map mpl_color weights).
(** helpers/plot.py:17-28 *)
Definition plot_disks (pts : list point) (weights : list R) (total_area : R) : option (list mark) :=
  let! radii := opt_all (map (fun w => let! d := rdiv (Rabs w) (Rsum weights) in rsqrt (d * total_area / PI)) weights) in
  plot_disks_helpers pts radii (map mpl_color weights).
(** np.cbrt *)
Definition cbrt (x : R) : R := if Req_EM_T x 0 then 0 else if Rlt_dec 0 x then Rpower x (/ 3) else - Rpower (- x) (/ 3).
(** helpers/plot.py:100, 218 *)
Definition ball_radii (weights : list R) (volume : R) : option (list R) :=
  opt_all (map (fun w => let! d := rdiv (Rabs w) (Rsum weights) in Some (cbrt (d * volume / (4.0 / 3.0 * PI)))) weights).
(** helpers/plot.py:42-108: tp[0], tp[1], tp[2] of the entries along the first axis *)
Definition show_mpl (points : nd) (weights : list R) (volume : R) : option (list mark) :=
  let! radii := ball_radii weights volume in
  opt_all (map (fun e => let '(tp, (r, c)) := e in
                         let! x := nth_error tp 0 in let! y := nth_error tp 1 in let! z := nth_error tp 2 in Some (mk_mark [x; y; z] r c))
               (List.combine (rows points) (List.combine radii (map mpl_color weights)))).
(** helpers/plot.py:164-267; vtkSphereSource.SetCenter takes three numbers; blue if weight > 0.0 *)
Definition show_vtk (points : nd) (weights : list R) (volume : R) : option (list mark) :=
  let! radii := ball_radii weights volume in
  opt_all (map (fun e => let '(pt, (w, r)) := e in
                         guard (length pt =? 3)%nat (Some (mk_mark pt r (if Rlt_dec 0 w then blue else red))))
               (List.combine (rows (nd_T points)) (List.combine weights radii))).
(** helpers/plot.py:272-276; a KeyError for other names.  [extra]: the keyword "render" is passed on, which show_mpl does not take *)
Definition backend_call (backend : string) (extra : bool) (points : nd) (weights : list R) (volume : R) : option (list mark) :=
  if String.eqb backend "mpl" then (if extra then None else show_mpl points weights volume)
  else if String.eqb backend "vtk" then show_vtk points weights volume
  else None.

(** self.points of the schemes with an array of shape (dim, number of points) *)
Definition points_of (dim : nat) (q : rule) : nd := nd_T (nd_points dim (map snd q)).
(** c1/_helpers.py:79-94: np.column_stack([self.points, zeros]); interval = [[a], [b]] *)
Definition c1_plot (q : rule) (a b : R) : option (list mark) :=
  plot_disks_1d (map (fun wp => [nth 0 (snd wp) 0; 0]) q) (map fst q) (b - a).
(** e1r/_helpers.py:16-26, e1r2/_helpers.py:16-26 *)
Definition e1_plot (q : rule) : option (list mark) := plot_disks_1d (map (fun wp => [nth 0 (snd wp) 0; 0]) q) (map fst q) 1.0.
(** u2/_helpers.py:24-43; the array of points has shape (number of points, 2) *)
Definition u2_plot (q : rule) : option (list mark) :=
  plot_disks (rows (nd_points 2 (map snd q))) (map fst q) (PI ^ 3 / INR (length q)).
(** s2/_helpers.py:37-52 *)
Definition s2_plot (q : rule) : option (list mark) := plot_disks (rows (nd_T (points_of 2 q))) (map fst q) PI.
(** e2r/_helpers.py:28-39 *)
Definition e2r_plot (q : rule) : option (list mark) := plot_disks (rows (nd_T (points_of 2 q))) (map fst q) (2 * PI).
(** e2r2/_helpers.py:28-38 *)
Definition e2r2_plot (q : rule) : option (list mark) := plot_disks (rows (nd_T (points_of 2 q))) (map fst q) (2 * PI).
(** t2/_helpers.py:38-61; transform and get_vol are those of tn *)
Definition t2_plot (q : rule) (triangle : list point) : option (list mark) :=
  let transformed_pts := map (fun wp => bary_map triangle (snd wp)) q in
  let! vol := get_vol triangle in
  plot_disks transformed_pts (map fst q) vol.
(** c2/_helpers.py:29-55; quad[0][0], quad[0][1], quad[1][0], quad[1][1] *)
Definition c2_plot (q : rule) (quad : list point) : option (list mark) :=
  let p := fun k => nth k quad [] in
  let! transformed_pts := opt_all (map (fun wp => transform (snd wp) quad) q) in
  let! v1 := get_vol [p 0; p 2; p 1]%nat in
  let! v2 := get_vol [p 0; p 1; p 3]%nat in
  plot_disks transformed_pts (map fst q) (v1 + v2).
(** u3/_helpers.py:47-62: the caps with their opening angles; arccos has no value outside [-1, 1] *)
Definition u3_plot (q : rule) : option (list mark) :=
  opt_all (map (fun wp => let w := fst wp * (4 * PI) in
                          let x := 1.0 - Rabs w / (2 * PI) in
                          guard (if Rle_dec (-1) x then if Rle_dec x 1 then true else false else false)
                            (Some (mk_mark (snd wp) (acos x) (mpl_color w)))) q).
(** u3/_helpers.py:102-130, one point of the surface: azimuthal angle phi, polar angle t *)
Definition cross (u v : R * R * R) : R * R * R :=
  let '(u1, u2, u3) := u in let '(v1, v2, v3) := v in (u2 * v3 - u3 * v2, u3 * v1 - u1 * v3, u1 * v2 - u2 * v1).
Definition cap_point (b : R * R * R) (phi t : R) : R * R * R :=
  let r := 1.01 in
  let '(x1, x2, x3) := (r * (cos phi * sin t), r * (sin phi * sin t), r * (1 * cos t)) in
  let '(b1, b2, b3) := b in
  let axb := cross (0.0, 0.0, 1.0) b in
  let adb := 0.0 * b1 + 0.0 * b2 + 1.0 * b3 in
  if Req_EM_T adb (-1.0) then (- x1, - x2, - x3)
  else
    let '(y1, y2, y3) := cross axb (x1, x2, x3) in
    let '(z1, z2, z3) := cross axb (cross axb (x1, x2, x3)) in
    (x1 + y1 + z1 / (1.0 + adb), x2 + y2 + z2 / (1.0 + adb), x3 + y3 + z3 / (1.0 + adb)).
(** s3/_helpers.py:24-33; the unit ball is drawn in addition *)
Definition s3_show (backend : string) (q : rule) : option (list mark) := backend_call backend false (points_of 3 q) (map fst q) (4.0 / 3.0 * PI).
(** e3r/_helpers.py:27-31 *)
Definition e3r_show (backend : string) (q : rule) : option (list mark) := backend_call backend false (points_of 3 q) (map fst q) (8 * PI).
(** e3r2/_helpers.py:27-31 *)
Definition e3r2_show (backend : string) (q : rule) : option (list mark) := backend_call backend false (points_of 3 q) (map fst q) (8 * PI).
(** c3/_helpers.py:24-52: transform(self.points, hexa) has shape (number of points, 3); the corners in row-major order *)
Definition c3_show (backend : string) (q : rule) (hexa : list point) : option (list mark) :=
  let! xs := opt_all (map (fun wp => transform (snd wp) hexa) q) in
  let! vol := cn_integrate 3 0 q (fun _ => 1) hexa in
  backend_call backend false (nd_points 3 xs) (map fst q) vol.
(** np.dot(a, b) for two matrices *)
Definition nd_matmul (a b : nd) : option nd :=
  match nd_shape a, nd_shape b with
  | [m; k], [k'; n] => guard (k =? k')%nat (Some (mk_nd [m; n] (fun i => Rsum (map (fun l => nd_at a [nth 0 i 0%nat; l] * nd_at b [l; nth 1 i 0%nat]) (seq 0 k)))))
  | _, _ => None
  end.
(** t3/_helpers.py:29-50: transform(self.points.T, tet.T).T; self.points has shape (4, number of points) *)
Definition t3_show (backend : string) (q : rule) (tet : list point) : option (list mark) :=
  let! x := nd_matmul (nd_T (nd_points 3 tet)) (nd_T (points_of 4 q)) in
  let! vol := get_vol tet in
  backend_call backend true (nd_T x) (map fst q) vol.
(** p3/_helpers.py:20-44: self.points has shape (number of points, 3), so has _transform(self.points.T, pyra).T *)
Definition p3_show (backend : string) (q : rule) (pyra : list point) : option (list mark) :=
  backend_call backend false (nd_points 3 (map (fun wp => p3_transform (snd wp) pyra) q)) (map fst q) 1.0.
(** w3/_helpers.py:18-49 *)
Definition w3_show (backend : string) (q : rule) (wedge : list point) : option (list mark) :=
  backend_call backend false (nd_points 3 (map (fun wp => w3_transform (snd wp) wedge) q)) (map fst q) (w3_integrate q (fun _ => 1) wedge).

(** The edges that are drawn, as pairs of indices of vertices: c2/_helpers.py:38-41, c3/_helpers.py:27-45, t3/_helpers.py:42, p3/_helpers.py:25-38,
    w3/_helpers.py:26-40. *)
Definition c2_edges : list (list nat * list nat) := ([([0; 0], [1; 0]); ([1; 0], [1; 1]); ([1; 1], [0; 1]); ([0; 1], [0; 0])])%nat.
Definition c3_edges : list (list nat * list nat) :=
  ([([0; 0; 0], [1; 0; 0]); ([1; 0; 0], [1; 1; 0]); ([1; 1; 0], [0; 1; 0]); ([0; 1; 0], [0; 0; 0]);
    ([0; 0; 1], [1; 0; 1]); ([1; 0; 1], [1; 1; 1]); ([1; 1; 1], [0; 1; 1]); ([0; 1; 1], [0; 0; 1]);
    ([0; 0; 0], [0; 0; 1]); ([1; 0; 0], [1; 0; 1]); ([1; 1; 0], [1; 1; 1]); ([0; 1; 0], [0; 1; 1])])%nat.
Definition t3_edges : list (nat * nat) := flat_map (fun i => map (fun j => (i, j)) (seq 0 i)) (seq 0 4).
Definition p3_edges : list (nat * nat) := [(0, 1); (1, 2); (2, 3); (3, 0); (0, 4); (1, 4); (2, 4); (3, 4)]%nat.
Definition w3_edges : list (list nat * list nat) :=
  ([([0; 0], [0; 1]); ([0; 1], [0; 2]); ([0; 2], [0; 0]); ([1; 0], [1; 1]); ([1; 1], [1; 2]); ([1; 2], [1; 0]);
    ([0; 0], [1; 0]); ([0; 1], [1; 1]); ([0; 2], [1; 2])])%nat.
