(** Albrecht's schemes of degree 11 to 17 for the disk, whose radii are the roots of cubic and quartic polynomials and
    whose weights solve a Vandermonde system. *)
From Coq Require Import Reals List Arith ZArith Lia Lra String QArith Qreals Permutation Sorted.
From Verif Require Import Spec RsumLemmas IntegralSpec SphereSpec PyBase SymmModel SymmProofs SchemeTools Tower TowerMoments FixSpec FixTools RingTools RingFix
  CubeModel RootSpec TnModel S2Model S2Proofs AlbTools.
Import ListNotations.
Set Bullet Behavior "Strict Subproofs".
Open Scope R_scope.
Local Notation length := List.length.

Lemma three_roots roots c3 c2 c1 c0 x1 y1 x2 y2 x3 y3 : root_finder roots ->
  let c := [c3; c2; c1; c0] in
  0 <= x1 -> x1 < y1 -> y1 <= x2 -> x2 < y2 -> y2 <= x3 -> x3 < y3 ->
  poly_val c x1 * poly_val c y1 < 0 -> poly_val c x2 * poly_val c y2 < 0 -> poly_val c x3 * poly_val c y3 < 0 ->
  exists s1 s2 s3, roots c = [s1; s2; s3] /\ NoDup [s1; s2; s3] /\ List.Forall (fun s => 0 < s /\ poly_val c s = 0) [s1; s2; s3].
Proof.
  intros HR c ? ? ? ? ? ? H1 H2 H3. destruct (root_between c x1 y1) as [a [Ba Ea]]; auto. destruct (root_between c x2 y2) as [b [Bb Eb]]; auto.
  destruct (root_between c x3 y3) as [d [Bd Ed]]; auto.
  destruct (roots_found roots c [a; b; d] x1 HR) as [L [N F]]; auto.
  - repeat constructor; lra.
  - intros r [<- | [<- | [<- | []]]]; auto.
  - intros Z. rewrite Z in H1. lra.
  - destruct (roots c) as [|s1 [|s2 [|s3 [|? ?]]]] eqn:E; try discriminate L. exists s1, s2, s3. split; [auto|]. split; [auto|].
    apply List.Forall_forall. intros s Hs. destruct (F s Hs) as [Hi Hz]. split; auto. destruct Hi as [<- | [<- | [<- | []]]]; lra.
Qed.
Lemma four_roots roots c4 c3 c2 c1 c0 x1 y1 x2 y2 x3 y3 x4 y4 : root_finder roots ->
  let c := [c4; c3; c2; c1; c0] in
  0 <= x1 -> x1 < y1 -> y1 <= x2 -> x2 < y2 -> y2 <= x3 -> x3 < y3 -> y3 <= x4 -> x4 < y4 ->
  poly_val c x1 * poly_val c y1 < 0 -> poly_val c x2 * poly_val c y2 < 0 -> poly_val c x3 * poly_val c y3 < 0 -> poly_val c x4 * poly_val c y4 < 0 ->
  exists s1 s2 s3 s4, roots c = [s1; s2; s3; s4] /\ NoDup [s1; s2; s3; s4] /\ List.Forall (fun s => 0 < s /\ poly_val c s = 0) [s1; s2; s3; s4].
Proof.
  intros HR c ? ? ? ? ? ? ? ? H1 H2 H3 H4. destruct (root_between c x1 y1) as [a [Ba Ea]]; auto. destruct (root_between c x2 y2) as [b [Bb Eb]]; auto.
  destruct (root_between c x3 y3) as [d [Bd Ed]]; auto. destruct (root_between c x4 y4) as [e [Be Ee]]; auto.
  destruct (roots_found roots c [a; b; d; e] x1 HR) as [L [N F]]; auto.
  - repeat constructor; lra.
  - intros r [<- | [<- | [<- | [<- | []]]]]; auto.
  - intros Z. rewrite Z in H1. lra.
  - destruct (roots c) as [|s1 [|s2 [|s3 [|s4 [|? ?]]]]] eqn:E; try discriminate L. exists s1, s2, s3, s4. split; [auto|]. split; [auto|].
    apply List.Forall_forall. intros s Hs. destruct (F s Hs) as [Hi Hz]. split; auto. destruct Hi as [<- | [<- | [<- | [<- | []]]]]; lra.
Qed.
Lemma sqrt_list3 s1 s2 s3 : 0 < s1 -> 0 < s2 -> 0 < s3 -> exists r1 r2 r3, opt_all (map rsqrt [s1; s2; s3]) = Some [r1; r2; r3] /\ r1 ^ 2 = s1 /\ r2 ^ 2 = s2 /\ r3 ^ 2 = s3.
Proof.
  intros H1 H2 H3. destruct (rsqrt_some s1 ltac:(lra)) as (r1 & E1 & _ & Q1). destruct (rsqrt_some s2 ltac:(lra)) as (r2 & E2 & _ & Q2).
  destruct (rsqrt_some s3 ltac:(lra)) as (r3 & E3 & _ & Q3). exists r1, r2, r3. cbn [map opt_all]. rewrite E1, E2, E3. cbn [bind]. repeat split; lra.
Qed.
Lemma sqrt_list4 s1 s2 s3 s4 : 0 < s1 -> 0 < s2 -> 0 < s3 -> 0 < s4 ->
  exists r1 r2 r3 r4, opt_all (map rsqrt [s1; s2; s3; s4]) = Some [r1; r2; r3; r4] /\ r1 ^ 2 = s1 /\ r2 ^ 2 = s2 /\ r3 ^ 2 = s3 /\ r4 ^ 2 = s4.
Proof.
  intros H1 H2 H3 H4. destruct (sqrt_list3 s2 s3 s4) as (r2 & r3 & r4 & E & ?); auto. destruct (rsqrt_some s1 ltac:(lra)) as (r1 & E1 & _ & Q1).
  exists r1, r2, r3, r4. change (map rsqrt [s1; s2; s3; s4]) with (rsqrt s1 :: map rsqrt [s2; s3; s4]). cbn [opt_all]. rewrite E1, E. cbn [bind].
  repeat split; tauto || lra.
Qed.
Lemma pow_half r s p : r ^ 2 = s -> r ^ (2 * p) = s ^ p.
Proof. intros <-. rewrite <- pow_mult. auto. Qed.
(** Higher moments by the recurrence of the polynomial. *)
Definition mu3 w1 w2 w3 s1 s2 s3 p : R := w1 * s1 ^ p + w2 * s2 ^ p + w3 * s3 ^ p.
Lemma mu3_rec c3 c2 c1 c0 w1 w2 w3 s1 s2 s3 p : List.Forall (fun s => 0 < s /\ poly_val [c3; c2; c1; c0] s = 0) [s1; s2; s3] ->
  let m := mu3 w1 w2 w3 s1 s2 s3 in c3 * m (3 + p)%nat + c2 * m (2 + p)%nat + c1 * m (1 + p)%nat + c0 * m p = 0.
Proof.
  intros H m. inversion H as [|? ? [_ P1] H']; subst. inversion H' as [|? ? [_ P2] H'']; subst. inversion H'' as [|? ? [_ P3] _]; subst.
  unfold poly_val in P1, P2, P3. cbn [fold_left] in P1, P2, P3. unfold m, mu3.
  transitivity (w1 * s1 ^ p * ((((0 * s1 + c3) * s1 + c2) * s1 + c1) * s1 + c0) + w2 * s2 ^ p * ((((0 * s2 + c3) * s2 + c2) * s2 + c1) * s2 + c0) + w3 * s3 ^ p * ((((0 * s3 + c3) * s3 + c2) * s3 + c1) * s3 + c0)).
  - rewrite !pow_add. ring.
  - rewrite P1, P2, P3. ring.
Qed.
Definition mu4 w1 w2 w3 w4 s1 s2 s3 s4 p : R := w1 * s1 ^ p + w2 * s2 ^ p + w3 * s3 ^ p + w4 * s4 ^ p.
Lemma mu4_rec c4 c3 c2 c1 c0 w1 w2 w3 w4 s1 s2 s3 s4 p : List.Forall (fun s => 0 < s /\ poly_val [c4; c3; c2; c1; c0] s = 0) [s1; s2; s3; s4] ->
  let m := mu4 w1 w2 w3 w4 s1 s2 s3 s4 in c4 * m (4 + p)%nat + c3 * m (3 + p)%nat + c2 * m (2 + p)%nat + c1 * m (1 + p)%nat + c0 * m p = 0.
Proof.
  intros H m. inversion H as [|? ? [_ P1] H']; subst. inversion H' as [|? ? [_ P2] H'']; subst. inversion H'' as [|? ? [_ P3] H3]; subst. inversion H3 as [|? ? [_ P4] _]; subst.
  unfold poly_val in P1, P2, P3, P4. cbn [fold_left] in P1, P2, P3, P4. unfold m, mu4.
  pose (q := fun s => ((((0 * s + c4) * s + c3) * s + c2) * s + c1) * s + c0).
  transitivity (w1 * s1 ^ p * q s1 + w2 * s2 ^ p * q s2 + w3 * s3 ^ p * q s3 + w4 * s4 ^ p * q s4).
  - unfold q. rewrite !pow_add. ring.
  - unfold q. rewrite P1, P2, P3, P4. ring.
Qed.
(** A ring condition with the three or four unknown rings summed up. *)
Lemma split3 w1 w2 w3 r1 r2 r3 s1 s2 s3 p mu x K rest h : r1 ^ 2 = s1 -> r2 ^ 2 = s2 -> r3 ^ 2 = s3 -> mu3 w1 w2 w3 s1 s2 s3 p = mu ->
  x + (K * mu + rest) = h -> x + (w1 * K * r1 ^ (2 * p) + (w2 * K * r2 ^ (2 * p) + (w3 * K * r3 ^ (2 * p) + rest))) = h.
Proof. intros H1 H2 H3 Hm <-. rewrite (pow_half r1 s1), (pow_half r2 s2), (pow_half r3 s3) by auto. rewrite <- Hm. unfold mu3. ring. Qed.
Lemma split4 w1 w2 w3 w4 r1 r2 r3 r4 s1 s2 s3 s4 p mu K rest h : r1 ^ 2 = s1 -> r2 ^ 2 = s2 -> r3 ^ 2 = s3 -> r4 ^ 2 = s4 -> mu4 w1 w2 w3 w4 s1 s2 s3 s4 p = mu ->
  K * mu + rest = h -> w1 * K * r1 ^ (2 * p) + (w2 * K * r2 ^ (2 * p) + (w3 * K * r3 ^ (2 * p) + (w4 * K * r4 ^ (2 * p) + rest))) = h.
Proof. intros H1 H2 H3 H4 Hm <-. rewrite (pow_half r1 s1), (pow_half r2 s2), (pow_half r3 s3), (pow_half r4 s4) by auto. rewrite <- Hm. unfold mu4. ring. Qed.
Lemma split4' w1 w2 w3 w4 r1 r2 r3 r4 s1 s2 s3 s4 p mu x K rest h : r1 ^ 2 = s1 -> r2 ^ 2 = s2 -> r3 ^ 2 = s3 -> r4 ^ 2 = s4 -> mu4 w1 w2 w3 w4 s1 s2 s3 s4 p = mu ->
  x + (K * mu + rest) = h -> x + (w1 * K * r1 ^ (2 * p) + (w2 * K * r2 ^ (2 * p) + (w3 * K * r3 ^ (2 * p) + (w4 * K * r4 ^ (2 * p) + rest)))) = h.
Proof. intros H1 H2 H3 H4 Hm <-. f_equal. eapply split4; eauto. Qed.

Lemma split3e w1 w2 w3 r1 r2 r3 s1 s2 s3 p mu x K rest h : r1 ^ 2 = s1 -> r2 ^ 2 = s2 -> r3 ^ 2 = s3 -> mu3 w1 w2 w3 s1 s2 s3 p = mu ->
  x + (K * mu + rest) = h -> x + (w1 * K * r1 ^ (2 * p) * (-1) ^ 0 + (w2 * K * r2 ^ (2 * p) * (-1) ^ 0 + (w3 * K * r3 ^ (2 * p) * (-1) ^ 0 + rest))) = h.
Proof. intros. rewrite !pow_O, !Rmult_1_r. eapply split3; eauto. Qed.
Lemma split4e w1 w2 w3 w4 r1 r2 r3 r4 s1 s2 s3 s4 p mu K rest h : r1 ^ 2 = s1 -> r2 ^ 2 = s2 -> r3 ^ 2 = s3 -> r4 ^ 2 = s4 -> mu4 w1 w2 w3 w4 s1 s2 s3 s4 p = mu ->
  K * mu + rest = h -> w1 * K * r1 ^ (2 * p) * (-1) ^ 0 + (w2 * K * r2 ^ (2 * p) * (-1) ^ 0 + (w3 * K * r3 ^ (2 * p) * (-1) ^ 0 + (w4 * K * r4 ^ (2 * p) * (-1) ^ 0 + rest))) = h.
Proof. intros. rewrite !pow_O, !Rmult_1_r. eapply split4; eauto. Qed.
Lemma split4e' w1 w2 w3 w4 r1 r2 r3 r4 s1 s2 s3 s4 p mu x K rest h : r1 ^ 2 = s1 -> r2 ^ 2 = s2 -> r3 ^ 2 = s3 -> r4 ^ 2 = s4 -> mu4 w1 w2 w3 w4 s1 s2 s3 s4 p = mu ->
  x + (K * mu + rest) = h -> x + (w1 * K * r1 ^ (2 * p) * (-1) ^ 0 + (w2 * K * r2 ^ (2 * p) * (-1) ^ 0 + (w3 * K * r3 ^ (2 * p) * (-1) ^ 0 + (w4 * K * r4 ^ (2 * p) * (-1) ^ 0 + rest)))) = h.
Proof. intros. rewrite !pow_O, !Rmult_1_r. eapply split4'; eauto. Qed.

Ltac half s := let r := eval compute in (Nat.div s 2) in r.
Ltac cond_with tac := lazy -[Rplus Rmult Rminus Ropp Rdiv Rinv IZR pow mu3 mu4]; repeat (apply List.Forall_cons; [lazy -[Rplus Rmult Rminus Ropp Rdiv Rinv IZR pow mu3 mu4]; tac|]); apply List.Forall_nil.
Ltac cond3 r1 := cond_with ltac:(
  idtac; match goal with |- context [r1 ^ ?s] => let hp := half s in first [eapply split3 with (p := hp); [eassumption..|] | eapply split3e with (p := hp); [eassumption..|]]; let env := tw_env in tower_eq env end).
Ltac cond4 r1 := cond_with ltac:(
  idtac; match goal with |- context [r1 ^ ?s] => let hp := half s in first [eapply split4 with (p := hp); [eassumption..|] | eapply split4' with (p := hp); [eassumption..|] | eapply split4e with (p := hp); [eassumption..|] | eapply split4e' with (p := hp); [eassumption..|]]; let env := tw_env in tower_eq env end).
Ltac pos_list H := lazymatch type of H with List.Forall _ (?s :: _) => assert (0 < s) by (apply (proj1 (List.Forall_inv H))); apply List.Forall_inv_tail in H; pos_list H | _ => clear H end.

Lemma s2_albrecht_6_ok roots solve : root_finder roots -> linear_solver solve -> delivers (ball_mean 2) 2 13 (s2_albrecht_6 roots solve).
Proof.
  intros HR HS. unfold s2_albrecht_6. cbv zeta.
  destruct (three_roots roots (11025) (-19020) (9370) (-1212) (1/5) (1/4) (11/20) (3/5) (19/20) (1) HR) as (s1 & s2 & s3 & Er & Hn & Hf);
    try (unfold poly_val; cbn [fold_left]); try lra.
  rewrite Er. destruct (vander3 solve s1 s2 s3 (1432433/18849024) (1075/31104) (521/25920) HS Hn) as (w1 & w2 & w3 & Ew & E0 & E1 & E2). rewrite Ew.
  pose proof (mu3_rec _ _ _ _  w1 w2 w3 s1 s2 s3 0 Hf) as R0. cbv zeta in R0. cbn [Nat.add] in R0.
  pose proof (mu3_rec _ _ _ _  w1 w2 w3 s1 s2 s3 1 Hf) as R1. cbv zeta in R1. cbn [Nat.add] in R1.
  pose proof (mu3_rec _ _ _ _  w1 w2 w3 s1 s2 s3 2 Hf) as R2. cbv zeta in R2. cbn [Nat.add] in R2.
  pose proof (mu3_rec _ _ _ _  w1 w2 w3 s1 s2 s3 3 Hf) as R3. cbv zeta in R3. cbn [Nat.add] in R3.
  assert (M0 : mu3 w1 w2 w3 s1 s2 s3 0 = 1432433/18849024) by (rewrite <- E0; unfold mu3; ring).
  assert (M1 : mu3 w1 w2 w3 s1 s2 s3 1 = 1075/31104) by (rewrite <- E1; unfold mu3; ring).
  assert (M2 : mu3 w1 w2 w3 s1 s2 s3 2 = 521/25920) by (rewrite <- E2; unfold mu3; ring).
  assert (M3 : mu3 w1 w2 w3 s1 s2 s3 3 = 59/4320) by lra.
  assert (M4 : mu3 w1 w2 w3 s1 s2 s3 4 = 37/3600) by lra.
  assert (M5 : mu3 w1 w2 w3 s1 s2 s3 5 = 1/120) by lra.
  assert (M6 : mu3 w1 w2 w3 s1 s2 s3 6 = 1/140) by lra.
  clear R0 R1 R2 R3 E0 E1 E2.
  pos_list Hf. destruct (sqrt_list3 s1 s2 s3) as (q1 & q2 & q3 & Eq & Q1 & Q2 & Q3); auto. rewrite ?Eq. cbn [bind].
  repeat fix_step. rewrite ?Eq. cbn [bind]. repeat fix_step.
  s2_rings [mk_ring (2615/43632) 1 0 0; mk_ring w1 10 q1 0; mk_ring w2 10 q2 0; mk_ring w3 10 q3 0; mk_ring (16807/933120) 10 r 1]; cond3 q1.
Qed.
Lemma s2_albrecht_7_ok roots solve : root_finder roots -> linear_solver solve -> delivers (ball_mean 2) 2 15 (s2_albrecht_7 roots solve).
Proof.
  intros HR HS. unfold s2_albrecht_7. cbv zeta.
  destruct (four_roots roots (4960228) (-10267740) (6746490) (-1476540) (70425) (1/20) (1/10) (3/10) (7/20) (7/10) (3/4) (19/20) (1) HR) as (s1 & s2 & s3 & s4 & Er & Hn & Hf);
    try (unfold poly_val; cbn [fold_left]); try lra.
  rewrite Er. destruct (vander4 solve s1 s2 s3 s4 (57719/675000) (9427/270000) (193/9000) (113/7200) HS Hn) as (w1 & w2 & w3 & w4 & Ew & E0 & E1 & E2 & E3). rewrite Ew.
  pose proof (mu4_rec _ _ _ _ _  w1 w2 w3 w4 s1 s2 s3 s4 0 Hf) as R0. cbv zeta in R0. cbn [Nat.add] in R0.
  pose proof (mu4_rec _ _ _ _ _  w1 w2 w3 w4 s1 s2 s3 s4 1 Hf) as R1. cbv zeta in R1. cbn [Nat.add] in R1.
  pose proof (mu4_rec _ _ _ _ _  w1 w2 w3 w4 s1 s2 s3 s4 2 Hf) as R2. cbv zeta in R2. cbn [Nat.add] in R2.
  pose proof (mu4_rec _ _ _ _ _  w1 w2 w3 w4 s1 s2 s3 s4 3 Hf) as R3. cbv zeta in R3. cbn [Nat.add] in R3.
  assert (M0 : mu4 w1 w2 w3 w4 s1 s2 s3 s4 0 = 57719/675000) by (rewrite <- E0; unfold mu4; ring).
  assert (M1 : mu4 w1 w2 w3 w4 s1 s2 s3 s4 1 = 9427/270000) by (rewrite <- E1; unfold mu4; ring).
  assert (M2 : mu4 w1 w2 w3 w4 s1 s2 s3 s4 2 = 193/9000) by (rewrite <- E2; unfold mu4; ring).
  assert (M3 : mu4 w1 w2 w3 w4 s1 s2 s3 s4 3 = 113/7200) by (rewrite <- E3; unfold mu4; ring).
  assert (M4 : mu4 w1 w2 w3 w4 s1 s2 s3 s4 4 = 1/80) by lra.
  assert (M5 : mu4 w1 w2 w3 w4 s1 s2 s3 s4 5 = 1/96) by lra.
  assert (M6 : mu4 w1 w2 w3 w4 s1 s2 s3 s4 6 = 1/112) by lra.
  assert (M7 : mu4 w1 w2 w3 w4 s1 s2 s3 s4 7 = 1/128) by lra.
  clear R0 R1 R2 R3 E0 E1 E2 E3.
  pos_list Hf. destruct (sqrt_list4 s1 s2 s3 s4) as (q1 & q2 & q3 & q4 & Eq & Q1 & Q2 & Q3 & Q4); auto. rewrite ?Eq. cbn [bind].
  repeat fix_step. rewrite ?Eq. cbn [bind]. repeat fix_step.
  s2_rings [mk_ring w1 8 q1 0; mk_ring w2 8 q2 0; mk_ring w3 8 q3 0; mk_ring w4 8 q4 0; mk_ring ((4998 + 1 * 343 * r) / 253125) 8 r0 1; mk_ring ((4998 + -1 * 343 * r) / 253125) 8 r1 1]; cond4 q1.
Qed.
Lemma s2_albrecht_8_ok roots solve : root_finder roots -> linear_solver solve -> delivers (ball_mean 2) 2 17 (s2_albrecht_8 roots solve).
Proof.
  intros HR HS. unfold s2_albrecht_8. cbv zeta.
  destruct (four_roots roots (160901628) (-364759920) (274856190) (-76570340) (6054195) (1/10) (3/20) (7/20) (2/5) (3/4) (4/5) (19/20) (1) HR) as (s1 & s2 & s3 & s4 & Er & Hn & Hf);
    try (unfold poly_val; cbn [fold_left]); try lra.
  rewrite Er. destruct (vander4 solve s1 s2 s3 s4 (121827491812/1802182496625) (48541/1666980) (977/55566) (671/52920) HS Hn) as (w1 & w2 & w3 & w4 & Ew & E0 & E1 & E2 & E3). rewrite Ew.
  pose proof (mu4_rec _ _ _ _ _  w1 w2 w3 w4 s1 s2 s3 s4 0 Hf) as R0. cbv zeta in R0. cbn [Nat.add] in R0.
  pose proof (mu4_rec _ _ _ _ _  w1 w2 w3 w4 s1 s2 s3 s4 1 Hf) as R1. cbv zeta in R1. cbn [Nat.add] in R1.
  pose proof (mu4_rec _ _ _ _ _  w1 w2 w3 w4 s1 s2 s3 s4 2 Hf) as R2. cbv zeta in R2. cbn [Nat.add] in R2.
  pose proof (mu4_rec _ _ _ _ _  w1 w2 w3 w4 s1 s2 s3 s4 3 Hf) as R3. cbv zeta in R3. cbn [Nat.add] in R3.
  pose proof (mu4_rec _ _ _ _ _  w1 w2 w3 w4 s1 s2 s3 s4 4 Hf) as R4. cbv zeta in R4. cbn [Nat.add] in R4.
  assert (M0 : mu4 w1 w2 w3 w4 s1 s2 s3 s4 0 = 121827491812/1802182496625) by (rewrite <- E0; unfold mu4; ring).
  assert (M1 : mu4 w1 w2 w3 w4 s1 s2 s3 s4 1 = 48541/1666980) by (rewrite <- E1; unfold mu4; ring).
  assert (M2 : mu4 w1 w2 w3 w4 s1 s2 s3 s4 2 = 977/55566) by (rewrite <- E2; unfold mu4; ring).
  assert (M3 : mu4 w1 w2 w3 w4 s1 s2 s3 s4 3 = 671/52920) by (rewrite <- E3; unfold mu4; ring).
  assert (M4 : mu4 w1 w2 w3 w4 s1 s2 s3 s4 4 = 221/22050) by lra.
  assert (M5 : mu4 w1 w2 w3 w4 s1 s2 s3 s4 5 = 1/120) by lra.
  assert (M6 : mu4 w1 w2 w3 w4 s1 s2 s3 s4 6 = 1/140) by lra.
  assert (M7 : mu4 w1 w2 w3 w4 s1 s2 s3 s4 7 = 1/160) by lra.
  assert (M8 : mu4 w1 w2 w3 w4 s1 s2 s3 s4 8 = 1/180) by lra.
  clear R0 R1 R2 R3 R4 E0 E1 E2 E3.
  pos_list Hf. destruct (sqrt_list4 s1 s2 s3 s4) as (q1 & q2 & q3 & q4 & Eq & Q1 & Q2 & Q3 & Q4); auto. rewrite ?Eq. cbn [bind].
  repeat fix_step. rewrite ?Eq. cbn [bind]. repeat fix_step.
  s2_rings [mk_ring (496439663/13349499975) 1 0 0; mk_ring w1 10 q1 0; mk_ring w2 10 q2 0; mk_ring w3 10 q3 0; mk_ring w4 10 q4 0; mk_ring ((125504 + 1 * 16054 * r) / 8751645) 10 r0 1; mk_ring ((125504 + -1 * 16054 * r) / 8751645) 10 r1 1]; cond4 q1.
Qed.
Ltac alb5_case :=
  match goal with |- _ = Q2R ?q => let v := eval lazy in q in change q with v end;
  unfold Q2R; cbn [Qnum Qden]; unfold apply, mono; cbn [map List.combine fold_right Rsum fst snd];
  first [ring | lra].
Lemma s2_albrecht_5_ok roots solve : root_finder roots -> linear_solver solve -> delivers (ball_mean 2) 2 11 (s2_albrecht_5 roots solve).
Proof.
  intros HR HS. unfold s2_albrecht_5. cbv zeta.
  destruct (three_roots roots 6317094 (-10022245) 4149900 (-336375) (1/10) (3/20) (1/2) (11/20) (19/20) 1 HR) as (s1 & s2 & s3 & Er & Hn & Hf);
    try (unfold poly_val; cbn [fold_left]); try lra.
  rewrite Er. destruct (vander3 solve s1 s2 s3 (168899/1350000) (7661/180000) (71/3000) HS Hn) as (w1 & w2 & w3 & Ew & E0 & E1 & E2). rewrite Ew. cbn [nth].
  pose proof (mu3_rec _ _ _ _  w1 w2 w3 s1 s2 s3 0 Hf) as R0. cbv zeta in R0. cbn [Nat.add] in R0.
  pose proof (mu3_rec _ _ _ _  w1 w2 w3 s1 s2 s3 1 Hf) as R1. cbv zeta in R1. cbn [Nat.add] in R1.
  pose proof (mu3_rec _ _ _ _  w1 w2 w3 s1 s2 s3 2 Hf) as R2. cbv zeta in R2. cbn [Nat.add] in R2.
  assert (M0 : mu3 w1 w2 w3 s1 s2 s3 0 = 168899/1350000) by (rewrite <- E0; unfold mu3; ring).
  assert (M1 : mu3 w1 w2 w3 s1 s2 s3 1 = 7661/180000) by (rewrite <- E1; unfold mu3; ring).
  assert (M2 : mu3 w1 w2 w3 s1 s2 s3 2 = 71/3000) by (rewrite <- E2; unfold mu3; ring).
  assert (M3 : mu3 w1 w2 w3 s1 s2 s3 3 = 13/800) by lra.
  assert (M4 : mu3 w1 w2 w3 s1 s2 s3 4 = 1/80) by lra.
  assert (M5 : mu3 w1 w2 w3 s1 s2 s3 5 = 1/96) by lra.
  clear R0 R1 R2 E0 E1 E2.
  pos_list Hf. destruct (sqrt_list3 s1 s2 s3) as (q1 & q2 & q3 & Eq & Q1 & Q2 & Q3); auto. rewrite ?Eq. cbn [bind].
  fix_step. bounds r 4 5. repeat fix_step. rewrite ?Eq. cbn [bind]. rename r0 into t1, r1 into t2, r2 into t.
  destruct (rsqrt_some (1 / 2) ltac:(lra)) as (q & _ & Pq & Hq). destruct (pi8 q Pq Hq) as [Hc Hs].
  set (c := cos (PI / 8)) in *. set (s := sin (PI / 8)) in *. clearbody c s.
  set (C1 := (7494892 + 1 * 1053263 * r) / 205200000). set (C2 := (7494892 + -1 * 1053263 * r) / 205200000). set (u := t * c). set (v := t * s).
  assert (K0 : C1 * t1 ^ 0 + C2 * t2 ^ 0 = 98617/1350000) by (unfold C1, C2; let env := tw_env in tower_eq env).
  assert (K1 : C1 * t1 ^ 2 + C2 * t2 ^ 2 = 7063/360000) by (unfold C1, C2; let env := tw_env in tower_eq env).
  assert (K2 : C1 * t1 ^ 4 + C2 * t2 ^ 4 = 71/12000) by (unfold C1, C2; let env := tw_env in tower_eq env).
  assert (K3 : C1 * t1 ^ 6 + C2 * t2 ^ 6 = 13/6400) by (unfold C1, C2; let env := tw_env in tower_eq env).
  assert (K4 : C1 * t1 ^ 8 + C2 * t2 ^ 8 = 1/1280) by (unfold C1, C2; let env := tw_env in tower_eq env).
  assert (K5 : C1 * t1 ^ 10 + C2 * t2 ^ 10 = 1/3072) by (unfold C1, C2; let env := tw_env in tower_eq env).
  assert (U00 : u ^ 0 * v ^ 0 + u ^ 0 * v ^ 0 = 2) by (unfold u, v; let env := tw_env in tower_eq env).
  assert (U01 : u ^ 0 * v ^ 2 + u ^ 2 * v ^ 0 = 5/6) by (unfold u, v; let env := tw_env in tower_eq env).
  assert (U02 : u ^ 0 * v ^ 4 + u ^ 4 * v ^ 0 = 25/48) by (unfold u, v; let env := tw_env in tower_eq env).
  assert (U03 : u ^ 0 * v ^ 6 + u ^ 6 * v ^ 0 = 625/1728) by (unfold u, v; let env := tw_env in tower_eq env).
  assert (U04 : u ^ 0 * v ^ 8 + u ^ 8 * v ^ 0 = 10625/41472) by (unfold u, v; let env := tw_env in tower_eq env).
  assert (U05 : u ^ 0 * v ^ 10 + u ^ 10 * v ^ 0 = 90625/497664) by (unfold u, v; let env := tw_env in tower_eq env).
  assert (U11 : u ^ 2 * v ^ 2 + u ^ 2 * v ^ 2 = 25/144) by (unfold u, v; let env := tw_env in tower_eq env).
  assert (U12 : u ^ 2 * v ^ 4 + u ^ 4 * v ^ 2 = 125/1728) by (unfold u, v; let env := tw_env in tower_eq env).
  assert (U13 : u ^ 2 * v ^ 6 + u ^ 6 * v ^ 2 = 625/13824) by (unfold u, v; let env := tw_env in tower_eq env).
  assert (U14 : u ^ 2 * v ^ 8 + u ^ 8 * v ^ 2 = 15625/497664) by (unfold u, v; let env := tw_env in tower_eq env).
  assert (U22 : u ^ 4 * v ^ 4 + u ^ 4 * v ^ 4 = 625/41472) by (unfold u, v; let env := tw_env in tower_eq env).
  assert (U23 : u ^ 4 * v ^ 6 + u ^ 6 * v ^ 4 = 3125/497664) by (unfold u, v; let env := tw_env in tower_eq env).
  clearbody C1 C2 u v.
  assert (W : forall p, w1 * q1 ^ (2 * p) + w2 * q2 ^ (2 * p) + w3 * q3 ^ (2 * p) = mu3 w1 w2 w3 s1 s2 s3 p).
  { intros p. unfold mu3. rewrite (pow_half q1 s1), (pow_half q2 s2), (pow_half q3 s3); auto. }
  rewrite <- W in M0, M1, M2, M3, M4, M5. cbn [Nat.mul Nat.add] in M0, M1, M2, M3, M4, M5.
  eapply delivers_run; [lazy -[Rplus Rmult Rminus Ropp Rdiv Rinv IZR pow]; reflexivity|].
  clear - M0 M1 M2 M3 M4 M5 K0 K1 K2 K3 K4 K5 U00 U01 U02 U03 U04 U05 U11 U12 U13 U14 U22 U23.
  apply delivers_intro; [reflexivity|]. cbn [s_rule]. split; [repeat constructor|].
  intros k Lk Dk. destruct k as [|a [|b [|? ?]]]; try discriminate Lk. rewrite ballQ_ok by auto. unfold tdeg in Dk. cbn [list_sum fold_right] in Dk.
  assert (Ha : (a <= 11)%nat) by lia. assert (Hb : (b <= 11 - a)%nat) by lia. clear Lk Dk.
  do 12 (destruct a as [|a]; [cbn [Nat.sub] in Hb; do 12 (destruct b as [|b]; [clear Ha Hb; alb5_case|]; try (exfalso; lia)); exfalso; lia|]). exfalso; lia.
Qed.
