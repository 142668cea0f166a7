(** Model of quadpy/cn/_helpers.py (transform, get_detJ, CnScheme.integrate, ncube_points), helpers/misc.py:n_outer
    and the product schemes c2/_product.py, c3/_product.py.  A tensor of shape (2,...,2,dim) is the list of its
    2^n corner points in row-major order; arrays over the quadrature points are treated point by point. *)
From Coq Require Import Reals List Arith Bool.
From Verif Require Import Spec CombModel PyBase AdaptModel GeomModel.
Import ListNotations.
Open Scope R_scope.

(** helpers/misc.py:56-86, flattened in row-major order: out[:, ..., newaxis] * a[k][newaxis].  An empty list
    raises (a[0]). *)
Definition n_outer (a : list (list R)) : option (list R) :=
  match a with
  | [] => None
  | a0 :: rest => Some (fold_left (fun out ak => flat_map (fun o => map (fun v => o * v) ak) out) rest a0)
  end.

(** np.tensordot(a, cube, axes=(range(d), range(d))) for one quadrature point: sum over the corners *)
Definition tensordot (a : list R) (cube : list point) : point :=
  map (fun m => Rsum (map (fun e => fst e * nth m (snd e) 0) (List.combine a cube))) (seq 0 (length (hd [] cube))).

(** cn/_helpers.py:70 *)
Definition one_mp (xi : point) : list (list R) := map (fun x => [0.5 * (1.0 - x); 0.5 * (1.0 + x)]) xi.
(** cn/_helpers.py:51-75 *)
Definition transform (xi : point) (cube : list point) : option point :=
  let! a := n_outer (one_mp xi) in Some (tensordot a cube).
(** cn/_helpers.py:105-109, row k of the Jacobian: a[k] = [-0.5, +0.5] *)
Fixpoint replace_nth {A} (k : nat) (v : A) (l : list A) : list A :=
  match k, l with
  | _, [] => []
  | O, _ :: l' => v :: l'
  | S k', x :: l' => x :: replace_nth k' v l'
  end.
Definition jac_row (xi : point) (cube : list point) (k : nat) : option point :=
  let! a := n_outer (replace_nth k [-0.5; 0.5] (one_mp xi)) in Some (tensordot a cube).
Fixpoint opt_all {A} (l : list (option A)) : option (list A) :=
  match l with
  | [] => Some []
  | x :: l' => let! y := x in let! ys := opt_all l' in Some (y :: ys)
  end.
(** cn/_helpers.py:78-122 *)
Definition get_detJ (xi : point) (cube : list point) : option R :=
  let! rows := opt_all (map (jac_row xi cube) (seq 0 (length xi))) in
  Some (det (length xi) rows).
(** cn/_helpers.py:27-40.  [extra] is the number of axes of [ncube] besides the n corner axes and the coordinate
    axis; len(ncube.shape) - 1 = n + extra.  With extra > 0 the call is made for each cube of the array; this is
    the value for one of them. *)
Definition cn_integrate (n extra : nat) (q : rule) (f : point -> R) (cube : list point) : option R :=
  let! vals := opt_all (map (fun wp =>
      let! x := transform (snd wp) cube in
      let! detJ := get_detJ (snd wp) cube in
      Some (f x * Rabs detJ * fst wp)) q) in
  Some (2 ^ (n + extra) * Rsum vals).
(** cn/_helpers.py:134-138: meshgrid with indexing "ij", one axis per coordinate *)
Fixpoint ncube_points (xyz : list (R * R)) : list point :=
  match xyz with
  | [] => [[]]
  | (a, b) :: rest => map (cons a) (ncube_points rest) ++ map (cons b) (ncube_points rest)
  end.
(** cn/_helpers.py:42-48, tn/_helpers.py:18-22 *)
Definition cn_points_inside (q : rule) : bool :=
  forallb (fun wp => forallb (fun p => Rltb (-1) p && Rltb p 1) (snd wp)) q.
Definition cn_points_inside_or_boundary (q : rule) : bool :=
  forallb (fun wp => forallb (fun p => Rleb (-1) p && Rleb p 1) (snd wp)) q.
Definition tn_points_inside (q : rule) : bool :=
  forallb (fun wp => forallb (fun p => Rltb 0 p && Rltb p 1) (snd wp)) q.
Definition tn_points_inside_or_boundary (q : rule) : bool :=
  forallb (fun wp => forallb (fun p => Rleb 0 p && Rleb p 1) (snd wp)) q.
(** sn/_helpers.py:15-19: self.points has one row per coordinate, and einsum "ij,ij->i" adds along each row; the
    result is an array with one entry per coordinate *)
Definition sn_points_inside (n : nat) (q : rule) : list bool :=
  map (fun i => Rltb (Rsum (map (fun wp => nth i (snd wp) 0 * nth i (snd wp) 0) q)) 1) (seq 0 n).
Definition sn_points_inside_or_boundary (n : nat) (q : rule) : list bool :=
  map (fun i => Rleb (Rsum (map (fun wp => nth i (snd wp) 0 * nth i (snd wp) 0) q)) 1) (seq 0 n).

(** c2/_product.py:6-19 for a single 1D scheme (list of (weight, node)); a list argument fails at
    scheme1d.name.  np.outer(w, w).flatten() pairs weight w_i w_j with meshgrid's point (x_j, x_i). *)
Definition c2_product (s : list (R * R)) : option rule :=
  guard (0 <? length s)%nat
  (Some (flat_map (fun wi => map (fun wj => (fst wi * fst wj / 4, [snd wj; snd wi])) s) s)).
(** c3/_product.py:6-23: meshgrid(a0, a1, a2)[i][j][k] = (a0[j], a1[i], a2[k]) *)
Definition c3_product (s : list (R * R)) : option rule :=
  guard (0 <? length s)%nat
  (Some (flat_map (fun wi => flat_map (fun wj => map (fun wk =>
     (fst wk * fst wj * fst wi / 8, [snd wk; snd wj; snd wi])) s) s) s)).
