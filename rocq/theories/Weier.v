(** Bernstein polynomials and Weierstrass' theorem: continuous functions are uniform limits of polynomials. *)
From Coq Require Import Reals List Arith Lia Lra.
From Coquelicot Require Import Coquelicot.
From Verif Require Import Spec Spec1 RsumLemmas C1Tools Interp ConvSpec.
Import ListNotations.
Set Bullet Behavior "Strict Subproofs".
Open Scope R_scope.

(** The expectation of g(k) for k binomially distributed with n trials of probability x. *)
Fixpoint bern (n : nat) (g : nat -> R) (x : R) : R :=
  match n with
  | O => g 0%nat
  | S m => x * bern m (fun k => g (S k)) x + (1 - x) * bern m g x
  end.
Lemma bern_pol n : forall g, pol (S n) (bern n g).
Proof.
  induction n as [|n IH]; intros g; [apply (pol_ext 1 (fun _ => g 0%nat)); [auto|apply pol_const; auto]|].
  apply (pol_ext (S (S n)) (fun x => (0 + 1 * x) * bern n (fun k => g (S k)) x + (1 + -1 * x) * bern n g x)).
  - intros x. cbn [bern]. ring.
  - apply pol_add; apply pol_lin; apply IH.
Qed.
Lemma bern_ext n : forall g h x, (forall k, (k <= n)%nat -> g k = h k) -> bern n g x = bern n h x.
Proof.
  induction n as [|n IH]; intros g h x H; cbn [bern]; [apply H; lia|].
  rewrite (IH (fun k => g (S k)) (fun k => h (S k))), (IH g h); auto; intros k Hk; apply H; lia.
Qed.
Lemma bern_le n : forall g h x, 0 <= x <= 1 -> (forall k, (k <= n)%nat -> g k <= h k) -> bern n g x <= bern n h x.
Proof.
  induction n as [|n IH]; intros g h x Hx H; cbn [bern]; [apply H; lia|].
  assert (A := IH (fun k => g (S k)) (fun k => h (S k)) x Hx ltac:(intros k Hk; apply H; lia)).
  assert (B := IH g h x Hx ltac:(intros k Hk; apply H; lia)). nra.
Qed.
Lemma bern_lin n : forall g h a b x, bern n (fun k => a * g k + b * h k) x = a * bern n g x + b * bern n h x.
Proof. induction n as [|n IH]; intros g h a b x; cbn [bern]; [auto|]. rewrite (IH (fun k => g (S k))), IH. ring. Qed.
Lemma bern_const n : forall a x, bern n (fun _ => a) x = a.
Proof. induction n as [|n IH]; intros a x; cbn [bern]; [auto|]. rewrite !IH. ring. Qed.
Lemma bern_var n : forall c x, bern n (fun k => (INR k - c) ^ 2) x = INR n * x * (1 - x) + (INR n * x - c) ^ 2.
Proof.
  induction n as [|n IH]; intros c x; [cbn; ring|]. change (bern (S n) ?g x) with (x * bern n (fun k => g (S k)) x + (1 - x) * bern n g x). cbv beta.
  rewrite (bern_ext n (fun k => (INR (S k) - c) ^ 2) (fun k => (INR k - (c - 1)) ^ 2)) by (intros k _; rewrite S_INR; ring).
  rewrite !IH, S_INR. ring.
Qed.

(** The projection onto [a, b]. *)
Definition clamp (a b x : R) : R := Rmin b (Rmax a x).
Lemma clamp_in a b x : a <= b -> a <= clamp a b x <= b.
Proof. intros H. unfold clamp, Rmin, Rmax. repeat destruct (Rle_dec _ _); lra. Qed.
Lemma clamp_id a b x : a <= x <= b -> clamp a b x = x.
Proof. intros H. unfold clamp, Rmin, Rmax. repeat destruct (Rle_dec _ _); lra. Qed.
Lemma clamp_near a b x y : a <= b -> Rabs (clamp a b y - clamp a b x) <= Rabs (y - x).
Proof. intros H. unfold clamp, Rmin, Rmax. repeat destruct (Rle_dec _ _); repeat (unfold Rabs; destruct (Rcase_abs _)); lra. Qed.
Lemma clamp_continuity a b f : a <= b -> continuous_on a b f -> forall x, continuity_pt (fun t => f (clamp a b t)) x.
Proof.
  intros H C x. intros eps He. destruct (C (clamp a b x) (clamp_in a b x H) eps He) as (d & Hd & D). exists d. split; [auto|].
  intros y [_ Hy]. unfold dist in *. cbn in *. unfold R_dist in *. apply D; [apply clamp_in; auto|].
  apply Rle_lt_trans with (2 := Hy). apply clamp_near; auto.
Qed.
Lemma continuous_on_uniform a b f : a <= b -> continuous_on a b f -> forall eps, 0 < eps -> exists delta, 0 < delta /\
  forall x y, a <= x <= b -> a <= y <= b -> Rabs (x - y) < delta -> Rabs (f x - f y) < eps.
Proof.
  intros H C eps He. assert (K := clamp_continuity a b f H C).
  destruct (Heine_cor2 (f := fun t => f (clamp a b t)) (a := a) (b := b) (fun x _ => K x) (mkposreal eps He)) as (d & D).
  exists d. split; [apply cond_pos|]. intros x y Hx Hy Hxy. specialize (D x y Hx Hy Hxy). cbn in D. rewrite !clamp_id in D by auto. auto.
Qed.
Lemma continuous_on_bounded a b f : a <= b -> continuous_on a b f -> exists M, 0 <= M /\ forall x, a <= x <= b -> Rabs (f x) <= M.
Proof.
  intros H C. assert (K : forall x, a <= x <= b -> continuity_pt (fun t => Rabs (f (clamp a b t))) x).
  { intros x _. apply (continuity_pt_comp (fun t => f (clamp a b t)) Rabs); [apply clamp_continuity; auto|apply Rcontinuity_abs]. }
  destruct (continuity_ab_maj _ a b H K) as (m & Hm & _). exists (Rabs (f (clamp a b m))). split; [apply Rabs_pos|].
  intros x Hx. specialize (Hm x Hx). cbv beta in Hm. rewrite (clamp_id a b x) in Hm by auto. auto.
Qed.
Lemma continuous_on_ex_RInt a b f : a <= b -> continuous_on a b f -> ex_RInt f a b.
Proof.
  intros H C. apply (ex_RInt_ext (fun t => f (clamp a b t))).
  - intros x Hx. rewrite Rmin_left, Rmax_right in Hx by auto. rewrite clamp_id; auto. lra.
  - apply (ex_RInt_continuous (V := R_CompleteNormedModule)). intros z _. apply continuity_pt_filterlim. apply clamp_continuity; auto.
Qed.

Lemma weierstrass_01 f : continuous_on 0 1 f -> forall eps, 0 < eps -> exists n, exists p, pol n p /\ forall x, 0 <= x <= 1 -> Rabs (f x - p x) < eps.
Proof.
  intros C eps He. destruct (continuous_on_uniform 0 1 f ltac:(lra) C (eps / 2) ltac:(lra)) as (d & Hd & U).
  destruct (continuous_on_bounded 0 1 f ltac:(lra) C) as (M & HM & B).
  assert (D2 : 0 < d ^ 2) by (apply pow_lt; auto).
  destruct (archimed_cor1 (eps * d ^ 2 / (M + 1)) ) as (n & Hn & Pn); [apply Rdiv_lt_0_compat; nra|].
  exists (S n), (bern n (fun k => f (INR k / INR n))). split; [apply bern_pol|]. intros x Hx.
  assert (N : 0 < INR n) by (apply lt_0_INR; auto).
  assert (T : forall k, (k <= n)%nat -> Rabs (f (INR k / INR n) - f x) <= eps / 2 + 2 * M / (d ^ 2 * INR n ^ 2) * (INR k - INR n * x) ^ 2).
  { intros k Hk. assert (Ik : 0 <= INR k / INR n <= 1).
    { apply le_INR in Hk. assert (0 <= INR k) by apply pos_INR. split; [apply Rdiv_le_0_compat; auto|]. apply Rmult_le_reg_r with (INR n); auto. unfold Rdiv. rewrite Rmult_assoc, Rinv_l by lra. lra. }
    assert (Z : 0 <= 2 * M / (d ^ 2 * INR n ^ 2) * (INR k - INR n * x) ^ 2).
    { apply Rmult_le_pos; [apply Rdiv_le_0_compat; [lra|apply Rmult_lt_0_compat; [auto|apply pow_lt; auto]]|apply pow2_ge_0]. }
    destruct (Rlt_le_dec (Rabs (INR k / INR n - x)) d) as [L|L].
    - specialize (U _ _ Ik Hx L). lra.
    - apply Rle_trans with (2 * M).
      + specialize (B _ Ik) as B1. specialize (B _ Hx) as B2. revert B1 B2. unfold Rabs. repeat destruct (Rcase_abs _); lra.
      + apply Rle_trans with (2 * M / (d ^ 2 * INR n ^ 2) * (INR k - INR n * x) ^ 2); [|lra].
        replace (2 * M / (d ^ 2 * INR n ^ 2) * (INR k - INR n * x) ^ 2) with (2 * M * ((INR k / INR n - x) ^ 2 / d ^ 2)) by (field; lra).
        assert (1 <= (INR k / INR n - x) ^ 2 / d ^ 2).
        { assert (S : d ^ 2 <= (INR k / INR n - x) ^ 2) by (rewrite <- (pow2_abs (INR k / INR n - x)); apply pow_incr; lra).
          apply Rmult_le_reg_r with (d ^ 2); [auto|]. replace ((INR k / INR n - x) ^ 2 / d ^ 2 * d ^ 2) with ((INR k / INR n - x) ^ 2) by (field; lra). lra. }
        nra. }
  assert (Up := bern_le n (fun k => f (INR k / INR n)) (fun k => 1 * (f x + eps / 2) + 2 * M / (d ^ 2 * INR n ^ 2) * (INR k - INR n * x) ^ 2) x Hx).
  assert (Lo := bern_le n (fun k => 1 * (f x - eps / 2) + - (2 * M / (d ^ 2 * INR n ^ 2)) * (INR k - INR n * x) ^ 2) (fun k => f (INR k / INR n)) x Hx).
  rewrite (bern_lin n (fun _ => f x + eps / 2) (fun k => (INR k - INR n * x) ^ 2)) in Up. rewrite (bern_lin n (fun _ => f x - eps / 2) (fun k => (INR k - INR n * x) ^ 2)) in Lo.
  rewrite bern_const, bern_var in Up, Lo.
  assert (V : 2 * M / (d ^ 2 * INR n ^ 2) * (INR n * x * (1 - x) + (INR n * x - INR n * x) ^ 2) < eps / 2).
  { replace (2 * M / (d ^ 2 * INR n ^ 2) * (INR n * x * (1 - x) + (INR n * x - INR n * x) ^ 2)) with (2 * M * (x * (1 - x)) / d ^ 2 * / INR n) by (field; lra).
    assert (X : x * (1 - x) <= / 4) by (assert (0 <= (x - / 2) ^ 2) by apply pow2_ge_0; lra). assert (0 <= x * (1 - x)) by (apply Rmult_le_pos; lra). assert (Q : 0 < / INR n) by (apply Rinv_0_lt_compat; auto).
    apply Rle_lt_trans with (M / 2 / d ^ 2 * / INR n).
    { apply Rmult_le_compat_r; [lra|]. apply Rmult_le_compat_r; [left; apply Rinv_0_lt_compat; auto|]. nra. }
    apply Rle_lt_trans with ((M + 1) / 2 / d ^ 2 * / INR n).
    { apply Rmult_le_compat_r; [lra|]. apply Rmult_le_compat_r; [left; apply Rinv_0_lt_compat; auto|]. lra. }
    apply Rlt_le_trans with ((M + 1) / 2 / d ^ 2 * (eps * d ^ 2 / (M + 1))); [|right; field; lra].
    apply Rmult_lt_compat_l; [|auto]. apply Rdiv_lt_0_compat; lra. }
  apply Rabs_def1.
  - assert (W : bern n (fun k => f (INR k / INR n)) x >= 1 * (f x - eps / 2) + - (2 * M / (d ^ 2 * INR n ^ 2)) * (INR n * x * (1 - x) + (INR n * x - INR n * x) ^ 2)).
    { apply Rle_ge. apply Lo. intros k Hk. specialize (T k Hk). apply Rabs_le_between in T. lra. }
    lra.
  - assert (W : bern n (fun k => f (INR k / INR n)) x <= 1 * (f x + eps / 2) + 2 * M / (d ^ 2 * INR n ^ 2) * (INR n * x * (1 - x) + (INR n * x - INR n * x) ^ 2)).
    { apply Up. intros k Hk. specialize (T k Hk). apply Rabs_le_between in T. lra. }
    lra.
Qed.
Theorem weierstrass a b f : a < b -> continuous_on a b f -> forall eps, 0 < eps -> exists n p, pol n p /\ forall x, a <= x <= b -> Rabs (f x - p x) < eps.
Proof.
  intros H C eps He. destruct (weierstrass_01 (fun t => f (a + (b - a) * t))) with (eps := eps) as (n & p & P & A); auto.
  - intros x Hx e Hee. destruct (C (a + (b - a) * x) ltac:(nra) e Hee) as (d & Hd & D). exists (d / (b - a)). split; [apply Rdiv_lt_0_compat; lra|].
    intros y Hy Hxy. apply D; [nra|]. replace (a + (b - a) * y - (a + (b - a) * x)) with ((y - x) * (b - a)) by ring.
    rewrite Rabs_mult, (Rabs_right (b - a)) by lra. apply Rmult_lt_reg_r with (/ (b - a)); [apply Rinv_0_lt_compat; lra|]. rewrite Rmult_assoc, Rinv_r by lra. rewrite Rmult_1_r. exact Hxy.
  - exists n, (fun x => p (- a / (b - a) + / (b - a) * x)). split; [apply pol_comp; auto|]. intros x Hx.
    assert (Q : - a / (b - a) + / (b - a) * x = (x - a) / (b - a)) by (field; lra). rewrite Q.
    replace (f x) with (f (a + (b - a) * ((x - a) / (b - a)))) by (f_equal; field; lra). apply A.
    split; [apply Rdiv_le_0_compat; lra|]. apply Rmult_le_reg_r with (b - a); [lra|]. unfold Rdiv. rewrite Rmult_assoc, Rinv_l by lra. lra.
Qed.
