(** C42: the factor used for pyramids and wedges is the Jacobian determinant of the map that places the points. *)
From Coq Require Import Reals List Arith Bool Lia Lra.
From Coquelicot Require Import Coquelicot.
From Verif Require Import Spec GeomModel CubeModel PyraModel.
Set Bullet Behavior "Strict Subproofs".
Import ListNotations.
Open Scope R_scope.

Lemma det_rows_det a b c d e f g h i : det_rows [a; b; c] [d; e; f] [g; h; i] = det 3 [[a; b; c]; [d; e; f]; [g; h; i]].
Proof. unfold det_rows, det, drop_nth. cbn. ring. Qed.

(** The matrix of partial derivatives of a map at a point of R^3: entry (k, m) is the derivative of coordinate m with
    respect to variable k. *)
Definition is_jacobian (T : point -> point) (xi : point) (J : list (list R)) : Prop :=
  forall k m, (k < 3)%nat -> (m < 3)%nat ->
    is_derive (fun t => nth m (T (replace_nth k t xi)) 0) (nth k xi 0) (nth m (nth k J []) 0).

Theorem C42_pyramid : forall x y z (p0 p1 p2 p3 p4 : point), exists J,
  is_jacobian (fun xi => p3_transform xi [p0; p1; p2; p3; p4]) [x; y; z] J /\
  p3_det [x; y; z] [p0; p1; p2; p3; p4] = det 3 J.
Proof.
  intros x y z p0 p1 p2 p3 p4. set (P := [p0; p1; p2; p3; p4]). set (xi := [x; y; z]).
  exists [p3_J0 xi P; p3_J1 xi P; p3_J2 xi P]. split.
  - intros k m Hk Hm. subst xi P. destruct k as [|[|[|k]]]; try lia; (destruct m as [|[|[|m]]]; try lia); cbn;
      auto_derive; auto; unfold p3_J0, p3_J1, p3_J2, vlin; cbn; lra.
  - subst xi P. unfold p3_det, p3_J0, p3_J1, p3_J2, vlin. cbn [seq map]. apply det_rows_det.
Qed.
Print Assumptions C42_pyramid.
Theorem C42_wedge : forall x y z (p0 p1 p2 p3 p4 p5 : point), exists J,
  is_jacobian (fun xi => w3_transform xi [p0; p1; p2; p3; p4; p5]) [x; y; z] J /\
  w3_det [x; y; z] [p0; p1; p2; p3; p4; p5] = det 3 J.
Proof.
  intros x y z p0 p1 p2 p3 p4 p5. set (P := [p0; p1; p2; p3; p4; p5]). set (xi := [x; y; z]).
  exists [w3_J0 xi P; w3_J1 xi P; w3_J2 xi P]. split.
  - intros k m Hk Hm. subst xi P. destruct k as [|[|[|k]]]; try lia; (destruct m as [|[|[|m]]]; try lia); cbn;
      auto_derive; auto; unfold w3_J0, w3_J1, w3_J2, vlin; cbn; lra.
  - subst xi P. unfold w3_det, w3_J0, w3_J1, w3_J2, vlin. cbn [seq map]. apply det_rows_det.
Qed.
Print Assumptions C42_wedge.

(** The maps take the corners of the reference domains to the given vertices; the whole top face of the reference
    cube goes to the apex. *)
Lemma point3 (p : point) : length p = 3%nat -> exists a b c, p = [a; b; c].
Proof. destruct p as [|a [|b [|c [|]]]]; try discriminate. eauto. Qed.
Theorem C42_pyramid_corners : forall p0 p1 p2 p3 p4 : point, List.Forall (fun p : point => length p = 3%nat) [p0; p1; p2; p3; p4] ->
  let P := [p0; p1; p2; p3; p4] in
  p3_transform [-1; -1; -1] P = p0 /\ p3_transform [1; -1; -1] P = p1 /\ p3_transform [1; 1; -1] P = p2 /\
  p3_transform [-1; 1; -1] P = p3 /\ forall x y, p3_transform [x; y; 1] P = p4.
Proof.
  intros p0 p1 p2 p3 p4 H P. subst P. rewrite Forall_forall in H.
  destruct (point3 p0) as (a0 & b0 & c0 & ->); [apply H; cbn; tauto|]. destruct (point3 p1) as (a1 & b1 & c1 & ->); [apply H; cbn; tauto|].
  destruct (point3 p2) as (a2 & b2 & c2 & ->); [apply H; cbn; tauto|]. destruct (point3 p3) as (a3 & b3 & c3 & ->); [apply H; cbn; tauto|].
  destruct (point3 p4) as (a4 & b4 & c4 & ->); [apply H; cbn; tauto|].
  repeat split; intros; unfold p3_transform, vlin; cbn; repeat (apply (f_equal2 (@cons R)); [lra|]); reflexivity.
Qed.
Print Assumptions C42_pyramid_corners.
Theorem C42_wedge_corners : forall p0 p1 p2 p3 p4 p5 : point, List.Forall (fun p : point => length p = 3%nat) [p0; p1; p2; p3; p4; p5] ->
  let P := [p0; p1; p2; p3; p4; p5] in
  w3_transform [0; 0; -1] P = p0 /\ w3_transform [1; 0; -1] P = p1 /\ w3_transform [0; 1; -1] P = p2 /\
  w3_transform [0; 0; 1] P = p3 /\ w3_transform [1; 0; 1] P = p4 /\ w3_transform [0; 1; 1] P = p5.
Proof.
  intros p0 p1 p2 p3 p4 p5 H P. subst P. rewrite Forall_forall in H.
  destruct (point3 p0) as (a0 & b0 & c0 & ->); [apply H; cbn; tauto|]. destruct (point3 p1) as (a1 & b1 & c1 & ->); [apply H; cbn; tauto|].
  destruct (point3 p2) as (a2 & b2 & c2 & ->); [apply H; cbn; tauto|]. destruct (point3 p3) as (a3 & b3 & c3 & ->); [apply H; cbn; tauto|].
  destruct (point3 p4) as (a4 & b4 & c4 & ->); [apply H; cbn; tauto|]. destruct (point3 p5) as (a5 & b5 & c5 & ->); [apply H; cbn; tauto|].
  repeat split; intros; unfold w3_transform, vlin; cbn; repeat (apply (f_equal2 (@cons R)); [lra|]); reflexivity.
Qed.
Print Assumptions C42_wedge_corners.
(** e.g. the factor at the centre of the pyramid over the unit square with apex (1/2, 1/2, 1), and a skew wedge *)
Example C42_ex : p3_det [0; 0; 0] [[0; 0; 0]; [1; 0; 0]; [1; 1; 0]; [0; 1; 0]; [1/2; 1/2; 1]] = 1 / 32 /\
  w3_det [1/3; 1/3; 0] [[0; 0; 0]; [1; 0; 0]; [0; 1; 0]; [0; 0; 1]; [2; 0; 2]; [0; 1; 1]] = 11 / 12.
Proof. split; unfold p3_det, w3_det, det_rows; cbn; lra. Qed.
