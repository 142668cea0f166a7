(** C94: Gauss rules have distinct inner points and positive weights, are unique, interlace, and are symmetric if the weight is. *)
From Coq Require Import Reals List Arith ZArith Lia Lra.
From Coquelicot Require Import Coquelicot.
From Verif Require Import Spec Spec1 RsumLemmas AdaptModel PyBase UnModel C1Tools C1Model GwSpec GwModel WeightSpec GwInt GwInt2 GwBound LineProofs GaussShapeSpec GaussShapeProofs GaussEndProofs PropGw.
Import ListNotations.
Set Bullet Behavior "Strict Subproofs".
Open Scope R_scope.

(** The statement for one family: [int] is the weighted integral, [D] the domain, [r n] the result of the constructor. *)
Definition gauss_family (int : (R -> R) -> R -> Prop) (D : R -> Prop) (r : nat -> option c1_scheme) : Prop :=
  forall n, (1 <= n)%nat -> exists s s', r n = Some s /\ r (S n) = Some s' /\ proper_rule D (c1_rule s) /\ interlaces (c1_rule s) (c1_rule s') /\
    forall q, length q = n -> exact_for int n q -> same_rule q (c1_rule s).
Lemma family_of (int : (R -> R) -> R -> Prop) (D : R -> Prop) r : (forall f I I', int f I -> int f I' -> I = I') ->
  (forall c l I, (forall x, D x -> 0 <= peval c x) -> (forall x, D x -> ~ In x l -> 0 < peval c x) -> int (peval c) I -> 0 < I) ->
  (forall q n w x, length q = n -> exact_for int n q -> In (w, x) q -> D x) ->
  (forall n, (1 <= n)%nat -> exists s, r n = Some s /\ length (c1_rule s) = n /\ exact_for int n (c1_rule s)) -> gauss_family int D r.
Proof.
  intros Iu Ip HD H n Hn. destruct (H n Hn) as (s & E & L & X). destruct (H (S n) ltac:(lia)) as (s' & E' & L' & X'). exists s, s'. split; [exact E|]. split; [exact E'|]. split; [|split].
  - split; [exact (shape_nodup int D Ip _ n L X)|]. intros w x Hin. split; [exact (shape_weight int D Ip _ n w x L X Hin)|exact (HD _ n w x L X Hin)].
  - exact (shape_interlace int D Iu Ip _ _ n L X L' X').
  - intros q Lq Xq. exact (shape_same int D Iu Ip _ _ n Lq Xq L X).
Qed.
Lemma legendre_exact eigh n : eigen_solver eigh -> (1 <= n)%nat -> exists s, gauss_legendre eigh n = Some s /\ length (c1_rule s) = n /\ exact_for (fun f I => is_RInt f (-1) 1 I) n (c1_rule s).
Proof.
  intros HE Hn. destruct (C33_gauss_legendre eigh n HE Hn) as (s & E & _ & L & _ & X). exists s. repeat split; auto. intros c Hc. rewrite (X c ltac:(lia)).
  apply (RInt_correct (V := R_CompleteNormedModule)). apply (ex_RInt_continuous (V := R_CompleteNormedModule)). intros; apply peval_continuous.
Qed.
Lemma legendre_unique (f : R -> R) (I I' : R) : is_RInt f (-1) 1 I -> is_RInt f (-1) 1 I' -> I = I'.
Proof. intros H H'. exact (eq_trans (eq_sym (is_RInt_unique (V := R_CompleteNormedModule) f _ _ I H)) (is_RInt_unique (V := R_CompleteNormedModule) f _ _ I' H')). Qed.

Theorem C94_jacobi : forall eigh a b int_1, eigen_solver eigh -> -1 < a -> -1 < b -> jacobi_int a b (fun _ => 1) int_1 ->
  gauss_family (jacobi_int a b) (fun x => -1 < x < 1) (gauss_jacobi eigh a b int_1).
Proof.
  intros eigh a b J HE Ha Hb HJ. apply family_of; [apply jacobi_unique|apply jacobi_pos_poly| |].
  - intros q n w x L X H.
    assert (A := shape_inside _ _ (jacobi_pos_poly a b) q n w x 1 1 L X ltac:(intros; lra) H). assert (B := shape_inside _ _ (jacobi_pos_poly a b) q n w x 1 (-1) L X ltac:(intros; lra) H). lra.
  - intros n Hn. destruct (C33_gauss_jacobi eigh a b J n HE Ha Hb HJ Hn) as (s & E & _ & L & _ & X). exists s. auto.
Qed.
Theorem C94_legendre : forall eigh, eigen_solver eigh -> gauss_family (fun f I => is_RInt f (-1) 1 I) (fun x => -1 < x < 1) (gauss_legendre eigh).
Proof.
  intros eigh HE. apply family_of; [exact legendre_unique|apply legendre_pos_poly| |].
  - intros q n w x L X H.
    assert (A := shape_inside _ _ legendre_pos_poly q n w x 1 1 L X ltac:(intros; lra) H). assert (B := shape_inside _ _ legendre_pos_poly q n w x 1 (-1) L X ltac:(intros; lra) H). lra.
  - intros n Hn. exact (legendre_exact eigh n HE Hn).
Qed.
Theorem C94_laguerre : forall eigh a int_1, eigen_solver eigh -> -1 < a -> laguerre_int a (fun _ => 1) int_1 ->
  gauss_family (laguerre_int a) (fun x => 0 < x) (gauss_laguerre eigh a int_1).
Proof.
  intros eigh a J HE Ha HJ. apply family_of; [apply laguerre_unique|apply laguerre_pos_poly| |].
  - intros q n w x L X H. assert (A := shape_inside _ _ (laguerre_pos_poly a) q n w x 0 1 L X ltac:(intros; lra) H). lra.
  - intros n Hn. destruct (C33_gauss_laguerre eigh a J n HE Ha HJ Hn) as (s & E & _ & L & _ & X). exists s. auto.
Qed.
Theorem C94_hermite : forall eigh, eigen_solver eigh -> gauss_family hermite_int (fun _ => True) (gauss_hermite eigh).
Proof.
  intros eigh HE. apply family_of; [apply hermite_unique|apply hermite_pos_poly|auto|].
  intros n Hn. destruct (C33_gauss_hermite eigh n HE Hn) as (s & E & _ & L & _ & X). exists s. auto.
Qed.
(** Symmetry about 0. *)
Theorem C94_mirror_jacobi : forall eigh a int_1 n, eigen_solver eigh -> -1 < a -> jacobi_int a a (fun _ => 1) int_1 -> (1 <= n)%nat ->
  exists s, gauss_jacobi eigh a a int_1 n = Some s /\ mirrored (c1_rule s).
Proof.
  intros eigh a J n HE Ha HJ Hn. destruct (C33_gauss_jacobi eigh a a J n HE Ha Ha HJ Hn) as (s & E & _ & L & _ & X). exists s. split; auto.
  apply (shape_mirror (jacobi_int a a) (fun x => -1 < x < 1)) with (n := n); auto; [apply jacobi_unique|apply jacobi_pos_poly|apply jacobi_mirror].
Qed.
Theorem C94_mirror_legendre : forall eigh n, eigen_solver eigh -> (1 <= n)%nat -> exists s, gauss_legendre eigh n = Some s /\ mirrored (c1_rule s).
Proof.
  intros eigh n HE Hn. destruct (legendre_exact eigh n HE Hn) as (s & E & L & X). exists s. split; auto.
  apply (shape_mirror (fun f I => is_RInt f (-1) 1 I) (fun x => -1 < x < 1)) with (n := n); auto; [exact legendre_unique|apply legendre_pos_poly|apply legendre_mirror].
Qed.
Theorem C94_mirror_hermite : forall eigh n, eigen_solver eigh -> (1 <= n)%nat -> exists s, gauss_hermite eigh n = Some s /\ mirrored (c1_rule s).
Proof.
  intros eigh n HE Hn. destruct (C33_gauss_hermite eigh n HE Hn) as (s & E & _ & L & _ & X). exists s. split; auto.
  apply (shape_mirror hermite_int (fun _ => True)) with (n := n); auto; [apply hermite_unique|apply hermite_pos_poly|apply hermite_mirror].
Qed.

(** Radau and Lobatto rules: distinct points in [-1, 1), respectively [-1, 1], and positive weights. *)
Theorem C94_radau : forall eigh solve a b int_1 n, eigen_solver eigh -> banded_solver solve -> -1 < a -> -1 < b -> jacobi_int a b (fun _ => 1) int_1 -> (2 <= n)%nat ->
  exists s, gauss_radau eigh solve (jacobi_rc a b int_1) n = Some s /\ proper_rule (fun x => -1 <= x < 1) (c1_rule s).
Proof.
  intros eigh solve a b J n HE HB Ha Hb HJ Hn. destruct (C34_radau_jacobi eigh solve a b J n HE HB Ha Hb HJ Hn) as (s & E & L & I & W & X). exists s. split; [exact E|].
  exact (radau_shape (jacobi_int a b) (jacobi_pos_poly a b) _ n L Hn I W X).
Qed.
Theorem C94_lobatto : forall eigh solve a b int_1 n, eigen_solver eigh -> banded_solver solve -> -1 < a -> -1 < b -> jacobi_int a b (fun _ => 1) int_1 -> (2 <= n)%nat ->
  exists s, gauss_lobatto eigh solve (jacobi_rc a b int_1) n = Some s /\ proper_rule (fun x => -1 <= x <= 1) (c1_rule s).
Proof.
  intros eigh solve a b J n HE HB Ha Hb HJ Hn. destruct (C34_lobatto_jacobi eigh solve a b J n HE HB Ha Hb HJ Hn) as (s & E & _ & L & I & I' & W & X). exists s. split; [exact E|].
  exact (lobatto_shape (jacobi_int a b) (jacobi_pos_poly a b) _ n L Hn I I' W X).
Qed.
(** No rule with N points, whatever its points and weights, integrates all polynomials of degree 2 N. *)
Theorem C94_optimal_laguerre : forall a q, exists c, (length c <= 2 * length q + 1)%nat /\ ~ laguerre_int a (peval c) (apply1 q (peval c)).
Proof. intros a. exact (too_many_for (laguerre_int a) _ (laguerre_pos_poly a)). Qed.
Theorem C94_optimal_hermite : forall q, exists c, (length c <= 2 * length q + 1)%nat /\ ~ hermite_int (peval c) (apply1 q (peval c)).
Proof. exact (too_many_for hermite_int _ hermite_pos_poly). Qed.

(** Case: uniqueness identifies the one- and the two-point Hermite rules; 0 lies between the two points. *)
Example C94_case : exists eigh s s', eigen_solver eigh /\ gauss_hermite eigh 1 = Some s /\ gauss_hermite eigh 2 = Some s' /\ same_rule [(sqrt PI, 0)] (c1_rule s) /\
  same_rule [(sqrt PI / 2, - sqrt (1 / 2)); (sqrt PI / 2, sqrt (1 / 2))] (c1_rule s') /\ interlaces (c1_rule s) (c1_rule s').
Proof.
  destruct C33_solver_exists as [eigh HE]. destruct (C94_hermite eigh HE 1%nat ltac:(lia)) as (s & s' & E & E' & _ & HI & U). destruct (C94_hermite eigh HE 2%nat ltac:(lia)) as (t & _ & Et & _ & _ & _ & U').
  assert (EE : Some t = Some s') by (rewrite <- Et, <- E'; reflexivity). injection EE as ->. exists eigh, s, s'. split; [exact HE|]. split; [exact E|]. split; [exact E'|]. split; [|split; [|exact HI]].
  - apply U; [reflexivity|]. intros c Hc. refine (gen_peval _ _ _ _ hD hDa hDb hDc (fun x => exp (- x ^ 2)) hnu 1 [(sqrt PI, 0)] c (proj2 hermite_good) _ _); [|lia].
    intros k Hk. destruct k as [|[|k]]; [| |lia]; unfold apply1, hnu; cbn; ring.
  - apply U'; [reflexivity|]. intros c Hc. refine (gen_peval _ _ _ _ hD hDa hDb hDc (fun x => exp (- x ^ 2)) hnu 3 [(sqrt PI / 2, - sqrt (1 / 2)); (sqrt PI / 2, sqrt (1 / 2))] c (proj2 hermite_good) _ _); [|lia].
    assert (S2 : sqrt (1 / 2) * sqrt (1 / 2) = 1 / 2) by (apply sqrt_sqrt; lra). set (r := sqrt (1 / 2)) in *.
    intros k Hk. destruct k as [|[|[|[|k]]]]; try lia; unfold apply1, hnu; cbn [hnu2 fst snd map Rsum]; change (INR 0) with 0; change (INR 1) with 1; cbn [pow].
    + field.
    + field.
    + replace (- r * (- r * 1)) with (1 / 2) by lra. replace (r * (r * 1)) with (1 / 2) by lra. field.
    + field.
Qed.
Print Assumptions C94_jacobi.
Print Assumptions C94_legendre.
Print Assumptions C94_laguerre.
Print Assumptions C94_hermite.
Print Assumptions C94_mirror_jacobi.
Print Assumptions C94_mirror_legendre.
Print Assumptions C94_mirror_hermite.
Print Assumptions C94_radau.
Print Assumptions C94_lobatto.
Print Assumptions C94_optimal_laguerre.
Print Assumptions C94_optimal_hermite.
