(** Model of the maps onto pyramids and wedges and of P3Scheme.integrate, W3Scheme.integrate.
    Arrays over the quadrature points are treated point by point; -mo(c, p) is the coefficient -c. *)
From Coq Require Import Reals List Arith.
From Verif Require Import Spec GeomModel.
Import ListNotations.
Open Scope R_scope.

(** a sum of np.multiply.outer(c_i, p_i) with points p_i of three coordinates *)
Definition vlin (cs : list R) (ps : list point) : point :=
  map (fun m => Rsum (map (fun e => fst e * nth m (snd e) 0) (List.combine cs ps))) (seq 0 3).

(** the expression written out in p3/_helpers.py:78-85 and w3/_helpers.py:86-93 *)
Definition det_rows (J0 J1 J2 : point) : R :=
  nth 0 J0 0 * nth 1 J1 0 * nth 2 J2 0
  + nth 0 J1 0 * nth 1 J2 0 * nth 2 J0 0
  + nth 0 J2 0 * nth 1 J0 0 * nth 2 J1 0
  - nth 2 J0 0 * nth 1 J1 0 * nth 0 J2 0
  - nth 2 J1 0 * nth 1 J2 0 * nth 0 J0 0
  - nth 2 J2 0 * nth 1 J0 0 * nth 0 J1 0.

(** p3/_helpers.py:47-55 *)
Definition p3_transform (xi : point) (pyra : list point) : point :=
  let x := nth 0 xi 0 in let y := nth 1 xi 0 in let z := nth 2 xi 0 in
  vlin [0.125 * (1.0 - x) * (1.0 - y) * (1 - z);
        0.125 * (1.0 + x) * (1.0 - y) * (1 - z);
        0.125 * (1.0 + x) * (1.0 + y) * (1 - z);
        0.125 * (1.0 - x) * (1.0 + y) * (1 - z);
        0.500 * (1.0 + z)] pyra.
(** p3/_helpers.py:59-64 *)
Definition p3_J0 (xi : point) (pyra : list point) : point :=
  let y := nth 1 xi 0 in let z := nth 2 xi 0 in
  vlin [- (0.125 * (1.0 - y) * (1 - z)); 0.125 * (1.0 - y) * (1 - z);
        0.125 * (1.0 + y) * (1 - z); - (0.125 * (1.0 + y) * (1 - z))] pyra.
(** p3/_helpers.py:65-70 *)
Definition p3_J1 (xi : point) (pyra : list point) : point :=
  let x := nth 0 xi 0 in let z := nth 2 xi 0 in
  vlin [- (0.125 * (1.0 - x) * (1 - z)); - (0.125 * (1.0 + x) * (1 - z));
        0.125 * (1.0 + x) * (1 - z); 0.125 * (1.0 - x) * (1 - z)] pyra.
(** p3/_helpers.py:71-77 *)
Definition p3_J2 (xi : point) (pyra : list point) : point :=
  let x := nth 0 xi 0 in let y := nth 1 xi 0 in
  vlin [- (0.125 * (1.0 - x) * (1.0 - y)); - (0.125 * (1.0 + x) * (1.0 - y));
        - (0.125 * (1.0 + x) * (1.0 + y)); - (0.125 * (1.0 - x) * (1.0 + y)); 0.500] pyra.
(** p3/_helpers.py:58-86 *)
Definition p3_det (xi : point) (pyra : list point) : R := det_rows (p3_J0 xi pyra) (p3_J1 xi pyra) (p3_J2 xi pyra).
(** p3/_helpers.py:11-18 *)
Definition p3_integrate (q : rule) (f : point -> R) (pyra : list point) : R :=
  Rsum (map (fun wp => f (p3_transform (snd wp) pyra) * Rabs (p3_det (snd wp) pyra) * fst wp) q).

(** w3/_helpers.py:52-61; the wedge is listed as wedge[0,0], wedge[0,1], wedge[0,2], wedge[1,0], wedge[1,1], wedge[1,2] *)
Definition w3_transform (xi : point) (wedge : list point) : point :=
  let x := nth 0 xi 0 in let y := nth 1 xi 0 in let z := nth 2 xi 0 in
  vlin [0.5 * (1.0 - x - y) * (1.0 - z); 0.5 * x * (1.0 - z); 0.5 * y * (1.0 - z);
        0.5 * (1.0 - x - y) * (1.0 + z); 0.5 * x * (1.0 + z); 0.5 * y * (1.0 + z)] wedge.
(** w3/_helpers.py:66-71; a vertex that does not occur has coefficient 0 *)
Definition w3_J0 (xi : point) (wedge : list point) : point :=
  let z := nth 2 xi 0 in
  vlin [- (0.5 * (1.0 - z)); 0.5 * (1.0 - z); 0; - (0.5 * (1.0 + z)); 0.5 * (1.0 + z)] wedge.
(** w3/_helpers.py:72-77 *)
Definition w3_J1 (xi : point) (wedge : list point) : point :=
  let z := nth 2 xi 0 in
  vlin [- (0.5 * (1.0 - z)); 0; 0.5 * (1.0 - z); - (0.5 * (1.0 + z)); 0; 0.5 * (1.0 + z)] wedge.
(** w3/_helpers.py:78-85 *)
Definition w3_J2 (xi : point) (wedge : list point) : point :=
  let x := nth 0 xi 0 in let y := nth 1 xi 0 in
  vlin [- (0.5 * (1.0 - x - y)); - (0.5 * x); - (0.5 * y); 0.5 * (1.0 - x - y); 0.5 * x; 0.5 * y] wedge.
(** w3/_helpers.py:64-94 *)
Definition w3_det (xi : point) (wedge : list point) : R := det_rows (w3_J0 xi wedge) (w3_J1 xi wedge) (w3_J2 xi wedge).
(** w3/_helpers.py:11-16 *)
Definition w3_integrate (q : rule) (f : point -> R) (wedge : list point) : R :=
  Rsum (map (fun wp => f (w3_transform (snd wp) wedge) * Rabs (w3_det (snd wp) wedge) * fst wp) q).
