(** C43: integrate() over disks, balls, circles and spheres with centre and radius, for every polynomial the rule is exact for,
    every centre and every non-negative radius. *)
From Coq Require Import Reals List Arith Lia Lra.
From Coquelicot Require Import Coquelicot.
From Verif Require Import Spec RsumLemmas IntegralSpec SphereSpec RoundSpec RoundModel RoundProofs PyBase CnModel PropRadial SnModel UnModel.
Import ListNotations.
Set Bullet Behavior "Strict Subproofs".
Open Scope R_scope.

(** Balls: any rule that reproduces the means of the monomials of degree <= d over the unit ball integrates every polynomial
    of degree <= d over the ball with centre c and radius r. *)
Theorem C43_ball : forall n d q c r p, points_in_dim n q ->
  (forall k, length k = n -> (tdeg k <= d)%nat -> apply q (mono k) = ball_mean n (mono k)) ->
  length c = n -> 0 <= r -> mp_ok n d p -> sn_integrate n q (mpeval p) c r = ball_int_at c r (mpeval p).
Proof. exact sn_integrate_exact. Qed.
Theorem C43_sphere : forall n d q c r p, (1 <= n)%nat -> points_in_dim n q ->
  (forall k, length k = n -> (tdeg k <= d)%nat -> apply q (mono k) = sphere_mean n (mono k)) ->
  length c = n -> mp_ok n d p -> un_integrate n q (mpeval p) c r = sphere_int_at c r (mpeval p).
Proof. exact un_integrate_exact. Qed.
(** The classes for disks, 3-balls, circles and 2-spheres write the volume out. *)
Theorem C43_disk_and_ball3 : forall d q c r p n, n = 2%nat \/ n = 3%nat -> points_in_dim n q ->
  (forall k, length k = n -> (tdeg k <= d)%nat -> apply q (mono k) = ball_mean n (mono k)) ->
  length c = n -> 0 <= r -> mp_ok n d p ->
  (if Nat.eqb n 2 then s2_integrate else s3_integrate) q (mpeval p) c r = ball_int_at c r (mpeval p).
Proof. intros d q c r p n [-> | ->] Hq HM Hc Hr Hp; cbn [Nat.eqb]; [rewrite s2_is_sn by auto|rewrite s3_is_sn by auto]; eapply sn_integrate_exact; eauto. Qed.
Theorem C43_circle_and_sphere2 : forall d q c r p n, n = 2%nat \/ n = 3%nat -> points_in_dim n q ->
  (forall k, length k = n -> (tdeg k <= d)%nat -> apply q (mono k) = sphere_mean n (mono k)) ->
  length c = n -> mp_ok n d p ->
  (if Nat.eqb n 2 then u2_integrate else u3_integrate) q (mpeval p) c r = sphere_int_at c r (mpeval p).
Proof. intros d q c r p n [-> | ->] Hq HM Hc Hp; cbn [Nat.eqb]; [rewrite u2_is_un|rewrite u3_is_un]; eapply un_integrate_exact; eauto; lia. Qed.
(** For an arbitrary integrand: the result is the volume of the ball (sphere) times the reference rule applied to y -> f(c + r y),
    and the volume scales as r^n (r^(n-1)). *)
Theorem C43_any_integrand : forall n q f c r, 0 <= r ->
  sn_integrate n q f c r = r ^ n * (ball_int n 1 (fun _ => 1) * apply q (fun y => f (shifted c r y))) /\
  un_integrate n q f c r = r ^ (n - 1) * (sphere_int n (fun _ => 1) * apply q (fun y => f (shifted c r y))).
Proof.
  intros n q f c r H. unfold sn_integrate, un_integrate. rewrite round_dot_apply, ball_volume by auto. split; ring.
Qed.
(** Arrays of centres and radii: entry k is the integral over the k-th ball. *)
Theorem C43_vectorised : forall vol q f centers radii, length centers = length radii ->
  round_many vol q f centers radii = map (fun cr => vol (snd cr) * round_dot q f (fst cr) (snd cr)) (List.combine centers radii).
Proof. exact round_many_spec. Qed.
(** Consequently every ball scheme and every sphere scheme of C25, C26 works on every ball and sphere. *)
Theorem C43_ball_schemes : forall n d res s c r p, builds_ball_scheme n d res -> res = Some s -> length c = n -> 0 <= r -> mp_ok n d p ->
  sn_integrate n (s_rule s) (mpeval p) c r = ball_int_at c r (mpeval p).
Proof. intros n d res s c r p [t [E [_ [_ [Hq HM]]]]] Es Hc Hr Hp. rewrite Es in E. injection E as ->. eapply sn_integrate_exact; eauto. Qed.
Theorem C43_sphere_schemes : forall n d res s c r p, (1 <= n)%nat -> builds_sphere_scheme n d res -> res = Some s -> length c = n -> mp_ok n d p ->
  un_integrate n (s_rule s) (mpeval p) c r = sphere_int_at c r (mpeval p).
Proof. intros n d res s c r p Hn [t [E [_ [_ [Hq HM]]]]] Es Hc Hp. rewrite Es in E. injection E as ->. eapply un_integrate_exact; eauto. Qed.
Print Assumptions C43_ball.
Print Assumptions C43_sphere.
Print Assumptions C43_vectorised.
Example C43_ex : exists s, stroud_un_5_1 4 = Some s /\ un_integrate 4 (s_rule s) (mpeval [(1, [1; 0; 0; 0]%nat)]) [7; 0; 0; 0] 2 = sphere_int_at [7; 0; 0; 0] 2 (mpeval [(1, [1; 0; 0; 0]%nat)]).
Proof.
  destruct (C25_stroud_un_5_1 4 ltac:(lia)) as [s [E R]]. exists s. split; auto.
  refine (C43_sphere_schemes 4 5 (stroud_un_5_1 4) s [7; 0; 0; 0] 2 _ ltac:(lia) _ E eq_refl _).
  - exists s. split; auto.
  - apply List.Forall_cons; [|apply List.Forall_nil]. unfold tdeg. cbn. lia.
Qed.
