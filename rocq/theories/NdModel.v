(** integrate() on arrays of domains and for integrands with array values (C86): the numpy operations on shapes and multi-indices.
    Arrays are those of ShapeModel.v.  The functions on the points of one domain are those of CubeModel.v, GeomModel.v, PyraModel.v. *)
From Coq Require Import Reals List Arith Bool.
From Verif Require Import Spec PyBase GeomModel CubeModel PyraModel ShapeModel.
From Verif Require IntegralSpec SphereSpec.
Import ListNotations.
Open Scope R_scope.

(** a.T *)
Definition nd_T (a : nd) : nd := mk_nd (rev (nd_shape a)) (fun i => nd_at a (rev i)).
(** np.multiply.outer(a, b) *)
Definition nd_mo (a b : nd) : nd :=
  let k := length (nd_shape a) in mk_nd (nd_shape a ++ nd_shape b) (fun i => nd_at a (firstn k i) * nd_at b (skipn k i)).
(** exchange the entries 0 and k of a list *)
Definition swap0 (k : nat) (l : list nat) : list nat :=
  map (fun j => nth (if j =? 0 then k else if j =? k then 0 else j)%nat l 0%nat) (seq 0 (length l)).
(** np.swapaxes(a, 0, -2); [None] is an AxisError *)
Definition nd_swapaxes (a : nd) : option nd :=
  let n := length (nd_shape a) in
  if (n <? 2)%nat then None else Some (mk_nd (swap0 (n - 2) (nd_shape a)) (fun i => nd_at a (swap0 (n - 2) i))).
(** The shape of a + b, on the reversed shapes: axes of equal length or one of length 1, missing axes are stretched. *)
Fixpoint bc_shape (s t : shape) : option shape :=
  match s, t with
  | [], _ => Some t
  | _, [] => Some s
  | a :: s', b :: t' =>
      let! r := bc_shape s' t' in
      if (a =? b)%nat then Some (a :: r) else if (a =? 1)%nat then Some (b :: r) else if (b =? 1)%nat then Some (a :: r) else None
  end.
(** the entry of an array of shape [s] that meets the entry [i] of the result *)
Definition bc_index (s : shape) (i : list nat) : list nat :=
  map (fun kd => if (snd kd =? 1)%nat then 0%nat else fst kd) (List.combine (skipn (length i - length s) i) s).
(** a + b, a * b with broadcasting; [None] is a ValueError *)
Definition nd_bc (op : R -> R -> R) (a b : nd) : option nd :=
  let! s := bc_shape (rev (nd_shape a)) (rev (nd_shape b)) in
  Some (mk_nd (rev s) (fun i => op (nd_at a (bc_index (nd_shape a) i)) (nd_at b (bc_index (nd_shape b) i)))).
(** np.dot(a, w) for a vector w: the sum over the last axis of a, or, if a is a single number, the product *)
Definition nd_dotv (a : nd) (w : list R) : option nd :=
  match nd_shape a with
  | [] => Some (mk_nd [length w] (fun i => nd_at a [] * nth (hd 0%nat i) w 0))
  | _ => nd_dot a w
  end.
(** np.dot(a, b) for a matrix b, given as the list of its columns, each with m entries *)
Definition nd_dotm (a : nd) (m : nat) (cols : list point) : option nd :=
  let s := nd_shape a in
  if (length s =? 0)%nat || negb (last s 0 =? m)%nat then None else
  Some (mk_nd (removelast s ++ [length cols]) (fun i => Rsum (map (fun k => nd_at a (removelast i ++ [k]) * nth k (nth (last i 0%nat) cols []) 0) (seq 0 m)))).
(** fx.shape[-len(x.shape[1:]):] != x.shape[1:] is false *)
Definition shape_ok (fx x : nd) : bool :=
  let t := tl (nd_shape x) in
  let k := length t in
  shape_eqb (if (k =? 0)%nat then nd_shape fx else skipn (length (nd_shape fx) - k) (nd_shape fx)) t.

(** What a call does: return an array, raise QuadpyError, or raise one of numpy's errors. *)
Inductive outcome := done (a : nd) | quadpy_error | numpy_error.
Definition of_option (r : option nd) : outcome := match r with Some a => done a | None => numpy_error end.

(** The list of points as an array of shape (number of points, dim). *)
Definition nd_points (dim : nat) (ps : list point) : nd :=
  mk_nd [length ps; dim] (fun i => nth (nth 1 i 0%nat) (nth (nth 0 i 0%nat) ps []) 0).
(** s2/_helpers.py:54-65, s3/_helpers.py:35-46, sn/_helpers.py:21-33 with [checked] = true, u2/_helpers.py:45-51, un/_helpers.py:13-19
    with [checked] = false; [vol] is the volume or area as a function of the radius, which numpy evaluates entry by entry. *)
Definition round_nd (checked : bool) (vol : R -> R) (dim : nat) (q : rule) (f : nd -> nd) (center radius : nd) : outcome :=
  let rr := nd_mo radius (nd_points dim (map snd q)) in
  match (let! rr := nd_swapaxes rr in let! x := nd_bc Rplus rr center in Some (nd_T x)) with
  | None => numpy_error
  | Some x =>
      let fx := f x in
      if checked && negb (shape_ok fx x) then quadpy_error else
      of_option (let! d := nd_dotv fx (map fst q) in nd_bc Rmult (nd_map vol radius) d)
  end.
(** s2/_helpers.py:54-65 *)
Definition s2_integrate_nd := round_nd true (fun r => PI * r ^ 2) 2.
(** s3/_helpers.py:35-46 *)
Definition s3_integrate_nd := round_nd true (fun r => 4 / 3 * PI * r ^ 3) 3.
(** sn/_helpers.py:21-33; ndim.nball.volume as in RoundModel.v *)
Definition sn_integrate_nd (n : nat) := round_nd true (fun r => IntegralSpec.ball_int n r (fun _ => 1)) n.
(** u2/_helpers.py:45-51 *)
Definition u2_integrate_nd := round_nd false (fun r => 2 * PI * r) 2.
(** un/_helpers.py:13-19; ndim.nsphere.volume as in RoundModel.v *)
Definition un_integrate_nd (n : nat) := round_nd false (fun r => r ^ (n - 1) * SphereSpec.sphere_int n (fun _ => 1)) n.
(** u3/_helpers.py:64-74, 98-99: points.T * radius with broadcasting *)
Definition u3_integrate_nd (q : rule) (f : nd -> nd) (center radius : nd) : outcome :=
  match (let! rr := nd_bc Rmult (nd_points 3 (map snd q)) radius in let! x := nd_bc Rplus rr center in Some (nd_T x)) with
  | None => numpy_error
  | Some x =>
      let fx := f x in
      if negb (shape_ok fx x) then quadpy_error else
      of_option (let! d := nd_dotv fx (map fst q) in nd_bc Rmult (nd_map (fun r => 4 * PI * r ^ 2) radius) d)
  end.
(** e2r/_helpers.py, e2r2/_helpers.py:40-43, e3r/_helpers.py, e3r2/_helpers.py, enr/_helpers.py:14-17, enr2/_helpers.py: ref_vol * dot(f(points),
    weights); the points have shape (dim, number of points) *)
Definition en_integrate_nd (ref_vol : R) (dim : nat) (q : rule) (f : nd -> nd) : outcome :=
  of_option (let! d := nd_dotv (f (nd_T (nd_points dim (map snd q)))) (map fst q) in Some (nd_map (fun v => ref_vol * v) d)).

(** simplex[0], ..., simplex[n] at the entry [s] of an array of shape (n + 1, ..., dim) *)
Definition vertices (a : nd) (s : list nat) : list point :=
  let sh := nd_shape a in map (fun j => map (fun c => nd_at a (j :: s ++ [c])) (seq 0 (last sh 0%nat))) (seq 0 (hd 0%nat sh)).
(** tn/_helpers.py:56-77 on an array of simplices: np.linalg.det and np.sqrt work entry by entry; [None] if a root is not real *)
Definition get_vol_nd (a : nd) : option nd :=
  let mid := removelast (tl (nd_shape a)) in
  let! _ := opt_all (map (fun s => get_vol (vertices a s)) (indices mid)) in
  Some (mk_nd mid (fun s => match get_vol (vertices a s) with Some v => v | None => 0 end)).
(** tn/_helpers.py:24-42, 45-53 *)
Definition tn_integrate_nd (n : nat) (q : rule) (f : nd -> nd) (simplex : nd) : outcome :=
  match nd_shape simplex with
  | [] => numpy_error
  | m :: _ =>
      if negb (m =? n + 1)%nat then quadpy_error else
      match (let! x := nd_dotm (nd_T simplex) (n + 1) (map snd q) in let! vol := get_vol_nd simplex in Some (x, vol)) with
      | None => numpy_error
      | Some (x, vol) =>
          let fx := f x in
          if negb (shape_ok fx x) then quadpy_error else
          of_option (let! d := nd_dotv fx (map fst q) in nd_bc Rmult vol d)
      end
  end.

(** The corners of the cube [s] of an array of shape (2, ..., 2, ..., dim), in row-major order. *)
Definition corners (n : nat) (a : nd) (s : list nat) : list point :=
  map (fun j => map (fun c => nd_at a (j ++ s ++ [c])) (seq 0 (last (nd_shape a) 0%nat))) (indices (repeat 2%nat n)).
(** np.tensordot and np.multiply.outer keep the axes of the array of domains between the axis of the points and that of the
    coordinates; [X s p] is the point in the domain [s] for the reference point p. *)
Definition nd_mapped (mid : shape) (dim : nat) (X : list nat -> point -> point) (ps : list point) : nd :=
  mk_nd (length ps :: mid ++ [dim]) (fun i => nth (last i 0%nat) (X (removelast (tl i)) (nth (hd 0%nat i) ps [])) 0).
(** the determinants: an array of shape (..., number of points), the axes of the array of domains in reverse order *)
Definition nd_dets (mid : shape) (D : list nat -> point -> R) (ps : list point) : nd :=
  mk_nd (rev mid ++ [length ps]) (fun i => D (rev (removelast i)) (nth (last i 0%nat) ps [])).
(** cn/_helpers.py:27-40, 51-122 for cubes of shape (2, ..., 2) + mid + (n,) *)
Definition cn_integrate_nd (n : nat) (q : rule) (f : nd -> nd) (cube : nd) : outcome :=
  let mid := skipn n (removelast (nd_shape cube)) in
  let ps := map snd q in
  match (let! _ := opt_all (map (fun p => n_outer (one_mp p)) ps) in
         Some (nd_T (nd_mapped mid n (fun s p => match transform p (corners n cube s) with Some x => x | None => [] end) ps))) with
  | None => numpy_error
  | Some x =>
      let detJ := nd_dets mid (fun s p => match get_detJ p (corners n cube s) with Some d => d | None => 0 end) ps in
      let fx := f x in
      if negb (shape_ok fx x) then quadpy_error else
      let ref_vol := 2 ^ (length (nd_shape cube) - 1) in
      of_option (let! y := nd_bc Rmult fx (nd_map Rabs detJ) in let! d := nd_dotv y (map fst q) in Some (nd_map (fun v => ref_vol * v) d))
  end.
(** p3/_helpers.py:11-18, 47-86 for pyramids of shape (5,) + mid + (3,) *)
Definition p3_integrate_nd (q : rule) (f : nd -> nd) (pyra : nd) : outcome :=
  let mid := removelast (tl (nd_shape pyra)) in
  let ps := map snd q in
  let x := nd_T (nd_mapped mid 3 (fun s p => p3_transform p (vertices pyra s)) ps) in
  let det := nd_dets mid (fun s p => p3_det p (vertices pyra s)) ps in
  of_option (let! y := nd_bc Rmult (f x) (nd_map Rabs det) in nd_dotv y (map fst q)).
(** the vertices of the wedge [s] of an array of shape (2, 3) + mid + (3,) *)
Definition wedge_vertices (a : nd) (s : list nat) : list point :=
  map (fun j => map (fun c => nd_at a (j ++ s ++ [c])) (seq 0 3)) (indices [2; 3]%nat).
(** w3/_helpers.py:11-16, 52-94 *)
Definition w3_integrate_nd (q : rule) (f : nd -> nd) (wedge : nd) : outcome :=
  let mid := removelast (skipn 2 (nd_shape wedge)) in
  let ps := map snd q in
  let x := nd_T (nd_mapped mid 3 (fun s p => w3_transform p (wedge_vertices wedge s)) ps) in
  let det := nd_dets mid (fun s p => w3_det p (wedge_vertices wedge s)) ps in
  of_option (let! y := nd_bc Rmult (f x) (nd_map Rabs det) in nd_dotv y (map fst q)).
