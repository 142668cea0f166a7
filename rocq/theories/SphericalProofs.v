(** The spherical coordinates name the point they come from. *)
From Coq Require Import Reals List Arith Lia Lra.
From Verif Require Import Spec RsumLemmas IntegralSpec SphereSpec RoundSpec RoundModel RoundProofs SphericalSpec SphericalModel GeomModel.
Import ListNotations.
Set Bullet Behavior "Strict Subproofs".
Open Scope R_scope.

Lemma acos_range t : 0 <= acos t <= PI. Proof. apply acos_bound. Qed.
Lemma sqrt_frac x y : 0 < x -> sqrt (1 + (y / x) ^ 2) = sqrt (x * x + y * y) / x.
Proof.
  intros P. transitivity (sqrt ((x * x + y * y) / Rsqr x)); [f_equal; unfold Rsqr; field; lra|].
  rewrite sqrt_div_alt by (unfold Rsqr; nra). rewrite sqrt_Rsqr by lra. reflexivity.
Qed.
Lemma cos_atan_frac x y : 0 < x -> sqrt (x * x + y * y) * cos (atan (y / x)) = x.
Proof.
  intros P. assert (Q : 0 < sqrt (x * x + y * y)) by (apply sqrt_lt_R0; nra).
  rewrite cos_atan. replace (1 + (y / x)²) with (1 + (y / x) ^ 2) by (unfold Rsqr; ring). rewrite sqrt_frac by auto. field. lra.
Qed.
Lemma sin_atan_frac x y : 0 < x -> sqrt (x * x + y * y) * sin (atan (y / x)) = y.
Proof.
  intros P. assert (Q : 0 < sqrt (x * x + y * y)) by (apply sqrt_lt_R0; nra).
  rewrite sin_atan. replace (1 + (y / x)²) with (1 + (y / x) ^ 2) by (unfold Rsqr; ring). rewrite sqrt_frac by auto. field. lra.
Qed.
Lemma atan2_polar x y : sqrt (x * x + y * y) * cos (atan2 y x) = x /\ sqrt (x * x + y * y) * sin (atan2 y x) = y.
Proof.
  unfold atan2. destruct (Rlt_dec 0 x) as [P|P]; [split; [apply cos_atan_frac|apply sin_atan_frac]; auto|].
  destruct (Rlt_dec x 0) as [N|N].
  - assert (E : y / x = - y / - x) by (field; lra).
    assert (Q : sqrt (x * x + y * y) = sqrt (- x * - x + - y * - y)) by (f_equal; ring). rewrite E, Q. assert (X : 0 < - x) by lra.
    pose proof (cos_atan_frac (- x) (- y) X) as C. pose proof (sin_atan_frac (- x) (- y) X) as S. set (t := atan (- y / - x)) in *. clearbody t.
    destruct (Rle_dec 0 y).
    + rewrite neg_cos, neg_sin. split; lra.
    + replace (t - PI) with (- (PI - t)) by ring. rewrite cos_neg, sin_antisym, Rtrigo_facts.cos_pi_minus, Rtrigo_facts.sin_pi_minus. split; lra.
  - assert (x = 0) by lra. subst x. replace (0 * 0 + y * y) with (Rsqr y) by (unfold Rsqr; ring). rewrite sqrt_Rsqr_abs.
    destruct (Rlt_dec 0 y) as [Y|Y].
    + rewrite cos_PI2, sin_PI2, Rabs_right by lra. split; ring.
    + destruct (Rlt_dec y 0) as [Z|Z].
      * rewrite cos_neg, sin_neg, cos_PI2, sin_PI2, Rabs_left by lra. split; ring.
      * assert (y = 0) by lra. subst y. rewrite Rabs_R0. split; ring.
Qed.
Lemma atan2_range x y : - PI < atan2 y x <= PI.
Proof.
  pose proof PI_RGT_0. unfold atan2. destruct (Rlt_dec 0 x) as [P|P]; [pose proof (atan_bound (y / x)); lra|].
  destruct (Rlt_dec x 0) as [N|N].
  - pose proof (atan_bound (y / x)) as B. destruct (Rle_dec 0 y) as [Y|Y].
    + split; [lra|]. assert (A : atan (y / x) <= 0); [|lra].
      destruct Y as [Y|Y]; [|subst y; unfold Rdiv; rewrite Rmult_0_l, atan_0; lra]. left. rewrite <- atan_0. apply atan_increasing.
      unfold Rdiv. pose proof (Rinv_lt_0_compat x N). nra.
    + split; [|lra]. assert (A : 0 < atan (y / x)); [|lra]. rewrite <- atan_0. apply atan_increasing. unfold Rdiv. pose proof (Rinv_lt_0_compat x N). nra.
  - destruct (Rlt_dec 0 y); [lra|]. destruct (Rlt_dec y 0); lra.
Qed.
Lemma spherical_point X : length X = 3%nat -> on_unit_sphere X -> sphere_point (fst (cartesian_to_spherical X)) (snd (cartesian_to_spherical X)) = X.
Proof.
  intros L H. destruct X as [|x [|y [|z [|? ?]]]]; try discriminate L. unfold on_unit_sphere in H. cbn [map Rsum pow] in H.
  unfold sphere_point, cartesian_to_spherical. cbn [fst snd nth].
  assert (Z : -1 <= z <= 1) by (split; nra). rewrite sin_acos by auto. rewrite cos_acos by auto.
  assert (E : 1 - z² = x * x + y * y) by (unfold Rsqr; lra). rewrite E. destruct (atan2_polar x y) as [-> ->]. reflexivity.
Qed.
Lemma integrate_spherical_ok q f : List.Forall (fun wp => length (snd wp) = 3%nat /\ on_unit_sphere (snd wp)) q ->
  u3_integrate_spherical q (fun theta phi => f (sphere_point theta phi)) = u3_integrate q f [0; 0; 0] 1.
Proof.
  intros H. unfold u3_integrate_spherical, u3_integrate, round_dot, theta_phi. rewrite map_map. f_equal. f_equal. apply map_ext_in. intros wp Hin.
  rewrite List.Forall_forall in H. destruct (H wp Hin) as [L U]. cbn [fst snd]. f_equal. rewrite spherical_point by auto. f_equal.
  clear -L. destruct wp as [w p]. cbn [snd] in *. destruct p as [|x [|y [|z [|? ?]]]]; try discriminate L. unfold vadd, vscale. cbn.
  rewrite !Rmult_1_l, !Rplus_0_l. reflexivity.
Qed.
