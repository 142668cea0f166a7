(** C93: error bounds and convergence of Gauss-Hermite and (generalised) Gauss-Laguerre integration. *)
From Coq Require Import Reals List Arith ZArith Lia Lra.
From Coquelicot Require Import Coquelicot.
From Verif Require Import Spec Spec1 RsumLemmas AdaptModel PyBase UnModel C1Tools C1Model GwSpec GwModel WeightSpec GwInt GwInt2 LineModel LineProofs PropGw.
Import ListNotations.
Set Bullet Behavior "Strict Subproofs".
Open Scope R_scope.

(** Hermite: if f has 2m derivatives on the line and the last one is bounded by M, the integral of exp(-x^2) f(x) exists and
    every rule with more than m points misses it by at most 2 sqrt(pi) M / (4^m m!). *)
Theorem C93_hermite_error : forall eigh n m f M, eigen_solver eigh -> (1 <= m < n)%nat ->
  (forall j x, (j <= 2 * m)%nat -> ex_derive_n f j x) -> (forall x, Rabs (Derive_n f (2 * m) x) <= M) ->
  exists s v I, gauss_hermite eigh n = Some s /\ e1_integrate (c1_rule s) f = [v] /\ hermite_int f I /\ Rabs (v - I) <= 2 * sqrt PI * M / (4 ^ m * INR (fact m)).
Proof.
  intros eigh n m f M HE Hm HD HB. destruct (C33_gauss_hermite eigh n HE ltac:(lia)) as (s & E & _ & L & P & X).
  assert (HM : 0 <= M) by (eapply Rle_trans; [apply Rabs_pos|apply (HB 0)]).
  destruct (hermite_error (c1_rule s) n f m M P X Hm HM HD HB) as (I & HI & HJ). exists s, (apply1 (c1_rule s) f), I. repeat split; auto. apply e1_integrate_apply.
Qed.
(** If the k-th derivative is bounded by M a^k for every k, the results converge to the integral. *)
Theorem C93_hermite_converges : forall eigh f M a, eigen_solver eigh ->
  (forall j x, ex_derive_n f j x) -> (forall k x, Rabs (Derive_n f k x) <= M * a ^ k) ->
  exists I, hermite_int f I /\ forall eps, 0 < eps -> exists N, forall n, (N <= n)%nat ->
    exists s v, gauss_hermite eigh n = Some s /\ e1_integrate (c1_rule s) f = [v] /\ Rabs (v - I) < eps.
Proof.
  intros eigh f M a HE HD HB. destruct (C93_hermite_error eigh 2 1 f (M * a ^ (2 * 1)) HE ltac:(lia) (fun j x _ => HD j x) (HB _)) as (_ & _ & I & _ & _ & HI & _).
  exists I. split; [exact HI|]. intros eps He. destruct (hermite_limit (2 * sqrt PI * M) a eps He) as [N HN]. exists (N + 2)%nat. intros n Hn.
  destruct (C93_hermite_error eigh n (n - 1) f (M * a ^ (2 * (n - 1))) HE ltac:(lia) (fun j x _ => HD j x) (HB _)) as (s & v & I' & E & Ev & HI' & HJ).
  exists s, v. repeat split; auto.
  assert (EI := gen_unique _ _ _ _ _ _ _ HI' HI).
  rewrite EI in HJ. eapply Rle_lt_trans; [exact HJ|]. eapply Rle_lt_trans; [|apply (HN (n - 1)%nat); lia]. eapply Rle_trans; [|apply Rle_abs]. right. unfold Rdiv. ring.
Qed.
(** The points of Gauss-Laguerre rules lie inside the half line. *)
Theorem C93_laguerre_points : forall eigh a int_1 n, eigen_solver eigh -> -1 < a -> laguerre_int a (fun _ => 1) int_1 -> (1 <= n)%nat ->
  exists s, gauss_laguerre eigh a int_1 n = Some s /\ List.Forall (fun wx => 0 < snd wx) (c1_rule s).
Proof.
  intros eigh a J n HE Ha HJ Hn. destruct (C33_gauss_laguerre eigh a J n HE Ha HJ Hn) as (s & E & _ & L & P & X). exists s. split; auto. apply (laguerre_nodes a _ n L P X).
Qed.
(** Laguerre: if f has k derivatives on [0, inf) and the k-th one is bounded by M there, the integral of x^a exp(-x) f(x) exists
    and every rule with 2 n > k misses it by at most 2 M mu_k / k!, mu_k being the integral of x^a exp(-x) x^k. *)
Theorem C93_laguerre_error : forall eigh a int_1 n k f M mu, eigen_solver eigh -> -1 < a -> laguerre_int a (fun _ => 1) int_1 -> (1 <= k < 2 * n)%nat ->
  (forall j x, (j <= k)%nat -> 0 <= x -> ex_derive_n f j x) -> (forall x, 0 <= x -> Rabs (Derive_n f k x) <= M) -> laguerre_int a (fun x => x ^ k) mu ->
  exists s v I, gauss_laguerre eigh a int_1 n = Some s /\ e1_integrate (c1_rule s) f = [v] /\ laguerre_int a f I /\ Rabs (v - I) <= 2 * M * mu / INR (fact k).
Proof.
  intros eigh a J n k f M mu HE Ha HJ Hk HD HB Hmu. destruct (C33_gauss_laguerre eigh a J n HE Ha HJ ltac:(lia)) as (s & E & _ & L & P & X).
  assert (HM : 0 <= M) by (eapply Rle_trans; [apply Rabs_pos|apply (HB 0); lra]).
  destruct (laguerre_error a (c1_rule s) n f k M mu L P X Hk HM HD HB Hmu) as (I & HI & HI2). exists s, (apply1 (c1_rule s) f), I. repeat split; auto. apply e1_integrate_apply.
Qed.
(** If the k-th derivative is bounded by M b^k on [0, inf) for every k, with b < 1, the results converge to the integral. *)
Theorem C93_laguerre_converges : forall eigh a int_1 f M b, eigen_solver eigh -> -1 < a -> laguerre_int a (fun _ => 1) int_1 -> 0 <= b < 1 ->
  (forall j x, 0 <= x -> ex_derive_n f j x) -> (forall k x, 0 <= x -> Rabs (Derive_n f k x) <= M * b ^ k) ->
  exists I, laguerre_int a f I /\ forall eps, 0 < eps -> exists N, forall n, (N <= n)%nat ->
    exists s v, gauss_laguerre eigh a int_1 n = Some s /\ e1_integrate (c1_rule s) f = [v] /\ Rabs (v - I) < eps.
Proof.
  intros eigh a J f M b HE Ha HJ Hb HD HB.
  assert (HM : 0 <= M) by (assert (Q := HB 0%nat 0 ltac:(lra)); cbn in Q; assert (Q2 := Rabs_pos (f 0)); lra).
  assert (HJ' : is_RInt_gen (lw a) (at_right 0) (Rbar_locally p_infty) J) by (eapply l_ext; [|exact HJ]; intros; unfold lw; ring).
  assert (JP := lw_int_pos a J HJ').
  assert (Mu : forall k, laguerre_int a (fun x => x ^ k) (lnu a J k)).
  { intros k. unfold laguerre_int. eapply l_ext; [|apply (lnu_int a J k); auto]. intros x Hx. cbn beta. rewrite lw_pow by auto. reflexivity. }
  destruct (C93_laguerre_error eigh a J 1 1 f (M * b ^ 1) _ HE Ha HJ ltac:(lia) (fun j x _ => HD j x) (HB _) (Mu 1%nat)) as (_ & _ & I & _ & _ & HI & _).
  exists I. split; [exact HI|]. intros eps He. destruct (laguerre_limit (2 * M) a J b Ha JP ltac:(lra) Hb eps He) as [N HN]. exists (N + 2)%nat. intros n Hn.
  destruct (C93_laguerre_error eigh a J n n f (M * b ^ n) _ HE Ha HJ ltac:(lia) (fun j x _ => HD j x) (HB _) (Mu n)) as (s & v & I' & E & Ev & HI' & HE').
  exists s, v. repeat split; auto.
  assert (EI := gen_unique _ _ _ _ _ _ _ HI' HI).
  rewrite EI in HE'. eapply Rle_lt_trans; [exact HE'|]. eapply Rle_lt_trans; [|apply (HN n); lia]. right. unfold Rdiv. ring.
Qed.

(** Cases: cos on the line; exp(-x/2), unbounded on the line, on the half line. *)
Lemma cos_derivs k : forall x, Derive_n cos k x = cos (x + INR k * (PI / 2)).
Proof.
  induction k as [|k IH]; intros x; [cbn; f_equal; ring|]. cbn [Derive_n]. rewrite (Derive_ext _ _ x IH). apply is_derive_unique. rewrite S_INR.
  replace (x + (INR k + 1) * (PI / 2)) with (PI / 2 + (x + INR k * (PI / 2))) by ring. auto_derive; auto.
  replace (cos (PI / 2 + (x + INR k * (PI / 2)))) with (- sin (x + INR k * (PI / 2))); [ring|]. rewrite (sin_cos (x + INR k * (PI / 2))). ring.
Qed.
Lemma exp_derivs k : forall x, Derive_n (fun y => exp (- (y / 2))) k x = (- (1 / 2)) ^ k * exp (- (x / 2)).
Proof.
  induction k as [|k IH]; intros x; [cbn; ring|]. cbn [Derive_n]. rewrite (Derive_ext _ _ x IH). apply is_derive_unique.
  replace ((- (1 / 2)) ^ S k * exp (- (x / 2))) with ((- (1 / 2)) ^ k * (- (1 / 2) * exp (- (x / 2)))) by (cbn [pow]; ring). apply is_derive_scal. auto_derive; auto; field.
Qed.
Example C93_case_hermite : exists eigh, eigen_solver eigh /\ exists I, hermite_int cos I /\ forall eps, 0 < eps -> exists N, forall n, (N <= n)%nat ->
    exists s v, gauss_hermite eigh n = Some s /\ e1_integrate (c1_rule s) cos = [v] /\ Rabs (v - I) < eps.
Proof.
  destruct C33_solver_exists as [eigh HE]. exists eigh. split; auto. apply (C93_hermite_converges eigh cos 1 1 HE).
  - intros [|j] x; [exact I|]. cbn [ex_derive_n]. apply (ex_derive_ext (fun y => cos (y + INR j * (PI / 2)))); [intros; symmetry; apply cos_derivs|]. auto_derive. auto.
  - intros k x. rewrite cos_derivs, pow1, Rmult_1_r. apply Rabs_le, COS_bound.
Qed.
Example C93_case_laguerre : exists eigh int_1, eigen_solver eigh /\ laguerre_int (1 / 2) (fun _ => 1) int_1 /\ exists I, laguerre_int (1 / 2) (fun x => exp (- (x / 2))) I /\
  forall eps, 0 < eps -> exists N, forall n, (N <= n)%nat ->
    exists s v, gauss_laguerre eigh (1 / 2) int_1 n = Some s /\ e1_integrate (c1_rule s) (fun x => exp (- (x / 2))) = [v] /\ Rabs (v - I) < eps.
Proof.
  destruct C33_solver_exists as [eigh HE]. destruct (C33_laguerre_weight (1 / 2) ltac:(lra)) as [J [HJ _]]. exists eigh, J. split; [auto|]. split; [auto|].
  apply (C93_laguerre_converges eigh (1 / 2) J (fun x => exp (- (x / 2))) 1 (1 / 2) HE); try lra; auto.
  - intros [|j] x _; [exact I|]. cbn [ex_derive_n]. apply (ex_derive_ext (fun y => (- (1 / 2)) ^ j * exp (- (y / 2)))); [intros; symmetry; apply exp_derivs|]. auto_derive. auto.
  - intros k x Hx. rewrite exp_derivs, Rabs_mult, <- RPow_abs, Rabs_Ropp, (Rabs_pos_eq (1 / 2)) by lra. rewrite Rmult_1_l, Rabs_pos_eq by (left; apply exp_pos).
    rewrite <- (Rmult_1_r ((1 / 2) ^ k)) at 2. apply Rmult_le_compat_l; [apply pow_le; lra|]. rewrite <- exp_0. destruct (Req_dec x 0) as [-> | Hn]; [right; f_equal; field|left; apply exp_increasing; lra].
Qed.

Print Assumptions C93_hermite_error.
Print Assumptions C93_hermite_converges.
Print Assumptions C93_laguerre_points.
Print Assumptions C93_laguerre_error.
Print Assumptions C93_laguerre_converges.
