(** The parametrised schemes of quadpy/c2: c2/_franke.py franke_1, c2/_waldron.py waldron. *)
From Coq Require Import Reals List Arith Lia Lra String QArith Qreals.
From Verif Require Import Spec RsumLemmas IntegralSpec PyBase SymmModel SchemeTools Tower TowerMoments FixSpec FixTools C2Model.
Import ListNotations.
Set Bullet Behavior "Strict Subproofs".
Open Scope R_scope.

Lemma enum_exact n d J q : points_in_dim n q -> List.Forall (fun k => apply q (mono k) = J k) (exps n d) -> exact n d J q.
Proof. intros P H. split; auto. intros k Hk Hd. rewrite List.Forall_forall in H. apply H. apply exps_complete; auto. Qed.
Lemma Forall_cons_intro {A} (P : A -> Prop) x l : P x -> List.Forall P l -> List.Forall P (x :: l). Proof. auto. Qed.
Ltac all_moments n d :=
  let l := eval vm_compute in (exps n d) in change (exps n d) with l; repeat apply Forall_cons_intro; [..|apply List.Forall_nil].
Lemma powsq r x : r * r = x -> forall m, r ^ (2 * m) = x ^ m.
Proof. intros H m. rewrite pow_mult. f_equal. simpl. rewrite Rmult_1_r. auto. Qed.
Lemma Q2R_frac a b : Q2R (Qmake a b) = IZR a / IZR (Zpos b). Proof. reflexivity. Qed.

Theorem franke_1_ok lmbda : - (9/5) < lmbda < 9/4 -> delivers (cube_mean 2) 2 5 (c2_franke_1 lmbda).
Proof.
  intros Hl. unfold c2_franke_1. destruct (Rle_dec _ _); [|lra]. destruct (Rle_dec _ _); [|lra]. cbn [guard].
  repeat fix_step; try lra. eapply delivers_run; [lazy -[Rplus Rmult Rminus Ropp Rdiv Rinv IZR pow]; reflexivity|].
  apply delivers_intro; [reflexivity|]. cbn [s_rule]. apply enum_exact; [repeat constructor|]. all_moments 2%nat 5%nat;
  rewrite cubeQ_ok by reflexivity; lazymatch goal with |- _ = Q2R ?q => let v := eval vm_compute in q in change q with v end; rewrite Q2R_frac; unfold apply; cbn [map Rsum fst snd mono pow].
  all: pose proof (powsq _ _ H 1) as Ha2; pose proof (powsq _ _ H 2) as Ha4; pose proof (powsq _ _ H0 1) as Hb2; pose proof (powsq _ _ H0 2) as Hb4;
    pose proof (powsq _ _ H1 1) as Hc2; pose proof (powsq _ _ H1 2) as Hc4; cbn [Nat.mul Nat.add] in *.
  all: try (field; lra).
  all: field_simplify_eq; [|lra..]; try (rewrite ?Ha2, ?Ha4, ?Hb2, ?Hb4, ?Hc2, ?Hc4; field).
Qed.
Lemma bind_none {A B} (x : option A) (f : A -> option B) : (forall a, f a = None) -> bind x f = None.
Proof. intros H. destruct x; cbn; auto. Qed.
Lemma rdiv_zero a b : b = 0 -> rdiv a b = None.
Proof. intros ->. unfold rdiv. destruct (Req_EM_T 0 0); [auto|lra]. Qed.
(** The two admitted end points divide by zero. *)
Theorem franke_1_ends lmbda : lmbda = - (9/5) \/ lmbda = 9/4 -> c2_franke_1 lmbda = None.
Proof.
  intros Hl. unfold c2_franke_1. destruct (Rle_dec _ _); [|lra]. destruct (Rle_dec _ _); [|lra]. cbn [guard].
  do 3 (apply bind_none; intros). destruct Hl as [-> | ->].
  - rewrite (rdiv_zero (4 * (4 + 5 * - (9 / 5)))) by lra. auto.
  - apply bind_none; intros. rewrite (rdiv_zero 25) by lra. auto.
Qed.
Theorem waldron_ok r alpha : 1/3 < r ^ 2 -> delivers (cube_mean 2) 2 3 (c2_waldron r alpha).
Proof.
  intros Hr. assert (Hr0 : r <> 0) by (intros ->; cbn in Hr; lra). unfold c2_waldron. destruct (Rle_dec _ _) as [_|]; [|lra]. cbn [guard].
  fix_step. assert (N : r0 <> 0) by (intros ->; lra).
  fix_step; [auto|]. set (R := r / r0). assert (HR : R * R * (3 * r ^ 2 - 1) = r * r).
  { unfold R. rewrite <- H. field. auto. }
  assert (NR : R <> 0). { intros Z. rewrite Z in HR. apply Hr0. nra. }
  fix_step. { simpl. nra. } fix_step. { simpl. nra. }
  rewrite cos_plus, sin_plus, cos_PI2, sin_PI2. pose proof (sin2_cos2 alpha) as T. unfold Rsqr in T.
  generalize dependent (cos alpha). intros c T. generalize dependent (sin alpha). intros s T. clearbody R.
  eapply delivers_run; [lazy -[Rplus Rmult Rminus Ropp Rdiv Rinv IZR pow]; reflexivity|].
  apply delivers_intro; [reflexivity|]. cbn [s_rule]. apply enum_exact; [repeat constructor|].
  assert (E : / R ^ 2 = 3 - / r ^ 2). { replace (R ^ 2) with (r * r / (3 * r ^ 2 - 1)) by (rewrite <- HR; field; lra). field. split; [auto|lra]. }
  all_moments 2%nat 3%nat;
  rewrite cubeQ_ok by reflexivity; lazymatch goal with |- _ = Q2R ?q => let v := eval vm_compute in q in change q with v end; rewrite Q2R_frac; unfold apply; cbn [map Rsum fst snd mono].
  all: try (field; auto; fail).
  all: try (unfold Rdiv; rewrite ?E; field; auto; fail).
  all: transitivity ((s * s + c * c) / 3); [field; auto|rewrite T; field].
Qed.
(** At r^2 = 1/3, which the assertion admits, the constructor divides by zero. *)
Theorem waldron_end r alpha : r ^ 2 = 1/3 -> c2_waldron r alpha = None.
Proof.
  intros Hr. unfold c2_waldron. destruct (Rle_dec _ _); [|lra]. cbn [guard]. rewrite Hr. replace (3 * (1/3) - 1) with 0 by lra.
  rewrite rsqrt_ok by lra. cbn [bind]. rewrite sqrt_0, (rdiv_zero r 0) by auto. auto.
Qed.
