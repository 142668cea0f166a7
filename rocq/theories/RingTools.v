(** Rules on the plane made of rings of equally spaced points: when they are exact for a radial weight. *)
From Coq Require Import Reals List Arith Lia Lra.
From Coquelicot Require Import Coquelicot.
From Verif Require Import Spec RsumLemmas SphereSpec IntegralProofs TrigPoly TrigSums C1Proofs.
Import ListNotations.
Set Bullet Behavior "Strict Subproofs".
Open Scope R_scope.

(** A ring: weight w, K points at the radius rho, the first one at the angle off * PI / K. *)
Record ring := mk_ring { rg_w : R; rg_K : nat; rg_rho : R; rg_off : nat }.
Definition ring_angle (r : ring) (i : nat) : R := (2 * INR i + INR (rg_off r)) * PI / INR (rg_K r).
Definition ring_rule (r : ring) : rule :=
  map (fun i => (rg_w r, [cos (ring_angle r i) * rg_rho r; sin (ring_angle r i) * rg_rho r])) (seq 0 (rg_K r)).

(** Monomials in cos, sin as trigonometric polynomials, with the parity of the frequencies. *)
Definition tpar (d : nat) (f : R -> R) : Prop :=
  exists l, List.Forall (fun e => (fst e <= d)%nat /\ Nat.even (d + fst e) = true) l /\ forall t, f t = trigval l t.
Lemma tpar_ext d f g : (forall t, f t = g t) -> tpar d f -> tpar d g.
Proof. intros H [l [Hl E]]. exists l. split; auto. intros t. rewrite <- H. auto. Qed.
Lemma tpar_basis d j a b : (j <= d)%nat -> Nat.even (d + j) = true -> tpar d (fun t => a * cos (INR j * t) + b * sin (INR j * t)).
Proof. intros H P. exists [(j, (a, b))]. split; [constructor; auto|]. intros t. unfold trigval. cbn [map Rsum fst snd]. ring. Qed.
Lemma tpar_zero d : tpar d (fun _ => 0).
Proof. exists []. split; auto. Qed.
Lemma tpar_add d f g : tpar d f -> tpar d g -> tpar d (fun t => f t + g t).
Proof. intros [l [Hl E]] [l' [Hl' E']]. exists (l ++ l'). split; [apply Forall_app; auto|]. intros t. rewrite trigval_app, E, E'. auto. Qed.
Lemma tpar_sum {A} d (l : list A) (f : A -> R -> R) : (forall a, In a l -> tpar d (f a)) -> tpar d (fun t => Rsum (map (fun a => f a t) l)).
Proof.
  induction l as [|a l IH]; intros H; cbn [map Rsum]; [apply tpar_zero|].
  apply (tpar_add d (f a) (fun t => Rsum (map (fun a => f a t) l))); [apply H; left; auto|apply IH; intros; apply H; right; auto].
Qed.
Lemma tpar_mul_gen d f (g : R -> R) :
  (forall j a b, (j <= d)%nat -> Nat.even (d + j) = true -> tpar (S d) (fun t => g t * (a * cos (INR j * t) + b * sin (INR j * t)))) ->
  tpar d f -> tpar (S d) (fun t => g t * f t).
Proof.
  intros H [l [Hl E]].
  apply (tpar_ext _ (fun t => Rsum (map (fun e => g t * (fst (snd e) * cos (INR (fst e) * t) + snd (snd e) * sin (INR (fst e) * t))) l))).
  - intros t. rewrite E. unfold trigval. rewrite Rsum_map_scal. auto.
  - apply (tpar_sum (S d) l (fun e t => g t * (fst (snd e) * cos (INR (fst e) * t) + snd (snd e) * sin (INR (fst e) * t)))).
    intros e He. rewrite List.Forall_forall in Hl. destruct (Hl _ He). apply H; auto.
Qed.
Lemma even_SS d j : Nat.even (d + S j) = true -> Nat.even (S d + S (S j)) = true /\ Nat.even (S d + j) = true.
Proof. intros H. replace (S d + S (S j))%nat with (S (S (d + S j))) by lia. replace (S d + j)%nat with (d + S j)%nat by lia. auto. Qed.
Lemma tpar_mul_cos d f : tpar d f -> tpar (S d) (fun t => cos t * f t).
Proof.
  apply tpar_mul_gen. intros j a b Hj Pj. destruct j as [|j].
  - apply (tpar_ext _ (fun t => a * cos (INR 1 * t) + 0 * sin (INR 1 * t))).
    + intros t. cbn [INR]. rewrite (Rmult_0_l t), cos_0, sin_0, (Rmult_1_l t). ring.
    + apply tpar_basis; [lia|]. replace (S d + 1)%nat with (S (S (d + 0))) by lia. auto.
  - destruct (even_SS _ _ Pj). apply (tpar_ext _ (fun t => (a / 2 * cos (INR (S (S j)) * t) + b / 2 * sin (INR (S (S j)) * t)) + (a / 2 * cos (INR j * t) + b / 2 * sin (INR j * t)))).
    + intros t. replace (INR (S (S j)) * t) with (INR (S j) * t + t) by (rewrite !S_INR; ring). replace (INR j * t) with (INR (S j) * t - t) by (rewrite !S_INR; ring).
      rewrite cos_plus, cos_minus, sin_plus, sin_minus. field.
    + apply (tpar_add (S d) (fun t => a / 2 * cos (INR (S (S j)) * t) + b / 2 * sin (INR (S (S j)) * t))); apply tpar_basis; auto; lia.
Qed.
Lemma tpar_mul_sin d f : tpar d f -> tpar (S d) (fun t => sin t * f t).
Proof.
  apply tpar_mul_gen. intros j a b Hj Pj. destruct j as [|j].
  - apply (tpar_ext _ (fun t => 0 * cos (INR 1 * t) + a * sin (INR 1 * t))).
    + intros t. cbn [INR]. rewrite (Rmult_0_l t), cos_0, sin_0, (Rmult_1_l t). ring.
    + apply tpar_basis; [lia|]. replace (S d + 1)%nat with (S (S (d + 0))) by lia. auto.
  - destruct (even_SS _ _ Pj). apply (tpar_ext _ (fun t => (- b / 2 * cos (INR (S (S j)) * t) + a / 2 * sin (INR (S (S j)) * t)) + (b / 2 * cos (INR j * t) + - a / 2 * sin (INR j * t)))).
    + intros t. replace (INR (S (S j)) * t) with (INR (S j) * t + t) by (rewrite !S_INR; ring). replace (INR j * t) with (INR (S j) * t - t) by (rewrite !S_INR; ring).
      rewrite cos_plus, cos_minus, sin_plus, sin_minus. field.
    + apply (tpar_add (S d) (fun t => - b / 2 * cos (INR (S (S j)) * t) + a / 2 * sin (INR (S (S j)) * t))); apply tpar_basis; auto; lia.
Qed.
Lemma tpar_mono a b : tpar (a + b) (fun t => cos t ^ a * sin t ^ b).
Proof.
  induction a as [|a IH].
  - cbn [plus]. apply (tpar_ext _ (fun t => sin t ^ b)); [intros; cbn; ring|]. induction b as [|b IH]; cbn [pow].
    + apply (tpar_ext _ (fun t => 1 * cos (INR 0 * t) + 0 * sin (INR 0 * t))); [|apply tpar_basis; auto]. intros t. cbn [INR]. rewrite (Rmult_0_l t), cos_0. ring.
    + apply tpar_mul_sin; auto.
  - cbn [plus]. apply (tpar_ext _ (fun t => cos t * (cos t ^ a * sin t ^ b))); [intros; cbn; ring|]. apply tpar_mul_cos. auto.
Qed.

(** The sum of cos(m t), sin(m t) over a ring. *)
Definition ring_sign (r : ring) (m : nat) : R := if (m mod rg_K r =? 0)%nat then (-1) ^ ((m / rg_K r) * rg_off r) else 0.
Lemma cos_kpi k : cos (INR k * PI) = (-1) ^ k. Proof. apply cos_INR_PI. Qed.
Lemma ring_trig r m : (1 <= rg_K r)%nat ->
  Rsum (map (fun i => cos (INR m * ring_angle r i)) (seq 0 (rg_K r))) = INR (rg_K r) * ring_sign r m /\
  Rsum (map (fun i => sin (INR m * ring_angle r i)) (seq 0 (rg_K r))) = 0.
Proof.
  intros HK. unfold ring_sign, ring_angle. set (K := rg_K r) in *. set (o := rg_off r).
  assert (P : INR K <> 0) by (apply not_0_INR; lia).
  pose proof (Nat.div_mod m K ltac:(lia)) as DM. pose proof (Nat.mod_upper_bound m K ltac:(lia)) as Hb.
  set (q := (m / K)%nat) in *. set (j := (m mod K)%nat) in *.
  assert (A : forall i, INR m * ((2 * INR i + INR o) * PI / INR K) = (2 * INR i + INR o) * (INR j * PI / INR K) + INR (q * o) * PI + 2 * INR (q * i) * PI).
  { intros i. rewrite DM, plus_INR, !mult_INR. field. auto. }
  assert (C : forall i, cos (INR m * ((2 * INR i + INR o) * PI / INR K)) = (-1) ^ (q * o) * cos ((2 * INR i + INR o) * (INR j * PI / INR K))).
  { intros i. rewrite A, cos_period, cos_plus, sin_INR_PI, cos_INR_PI. ring. }
  assert (S : forall i, sin (INR m * ((2 * INR i + INR o) * PI / INR K)) = (-1) ^ (q * o) * sin ((2 * INR i + INR o) * (INR j * PI / INR K))).
  { intros i. rewrite A, sin_period, sin_plus, sin_INR_PI, cos_INR_PI. ring. }
  rewrite (Rsum_map_ext (fun i => cos _) (fun i => (-1) ^ (q * o) * cos ((2 * INR i + INR o) * (INR j * PI / INR K)))) by (intros; apply C).
  rewrite (Rsum_map_ext (fun i => sin _) (fun i => (-1) ^ (q * o) * sin ((2 * INR i + INR o) * (INR j * PI / INR K)))) by (intros; apply S).
  rewrite !Rsum_map_scal.
  destruct (Nat.eqb_spec j 0) as [E | E].
  - rewrite E. cbn [INR]. rewrite (Rsum_map_ext (fun i => cos _) (fun _ => 1)) by (intros; replace (_ * (0 * PI / INR K)) with 0 by (unfold Rdiv; ring); apply cos_0).
    rewrite (Rsum_map_ext (fun i => sin _) (fun _ => 0)) by (intros; replace (_ * (0 * PI / INR K)) with 0 by (unfold Rdiv; ring); apply sin_0).
    rewrite !Rsum_map_const, seq_length. split; ring.
  - rewrite (Rsum_map_ext (fun i => cos _) (fun i => cos (INR i * (2 * PI * INR j / INR K) + INR o * (INR j * PI / INR K)))) by (intros; f_equal; field; auto).
    rewrite (Rsum_map_ext (fun i => sin _) (fun i => sin (INR i * (2 * PI * INR j / INR K) + INR o * (INR j * PI / INR K)))) by (intros; f_equal; field; auto).
    rewrite cos_roots, sin_roots by lia. split; ring.
Qed.
Lemma ring_mono r a b l : (1 <= rg_K r)%nat -> (forall t, cos t ^ a * sin t ^ b = trigval l t) ->
  apply (ring_rule r) (mono [a; b]) =
  Rsum (map (fun e => fst (snd e) * (rg_w r * INR (rg_K r) * rg_rho r ^ (a + b) * ring_sign r (fst e))) l).
Proof.
  intros HK E. unfold apply, ring_rule. rewrite map_map. cbn [fst snd].
  rewrite (Rsum_map_ext _ (fun i => Rsum (map (fun e => rg_w r * rg_rho r ^ (a + b) * (fst (snd e) * cos (INR (fst e) * ring_angle r i) + snd (snd e) * sin (INR (fst e) * ring_angle r i))) l))).
  - rewrite (Rsum_swap (fun i e => rg_w r * rg_rho r ^ (a + b) * (fst (snd e) * cos (INR (fst e) * ring_angle r i) + snd (snd e) * sin (INR (fst e) * ring_angle r i)))).
    apply Rsum_map_ext. intros [m [x y]] _. cbn [fst snd]. rewrite Rsum_map_scal, Rsum_map_plus, !Rsum_map_scal.
    destruct (ring_trig r m HK) as [-> ->]. ring.
  - intros i _. rewrite Rsum_map_scal. fold (trigval l (ring_angle r i)). rewrite <- E. cbn [mono]. rewrite pow_add, !Rpow_mult_distr. ring.
Qed.
(** A rule made of rings is exact to degree d for a radial weight iff (here: if) the radial moments agree and the
    harmonics that the rings do not kill one by one cancel. *)
Theorem rings_exact d (M : (point -> R) -> R) (h : nat -> R) (rs : list ring) (q : rule) :
  (forall a b, (a + b <= d)%nat -> M (mono [a; b]) = h (a + b)%nat * sphere_mean 2 (mono [a; b])) ->
  (forall f, apply q f = Rsum (map (fun r => apply (ring_rule r) f) rs)) ->
  List.Forall (fun wp => length (snd wp) = 2%nat) q ->
  List.Forall (fun r => (1 <= rg_K r)%nat) rs ->
  (forall s, (s <= d)%nat -> Nat.even s = true -> Rsum (map (fun r => rg_w r * INR (rg_K r) * rg_rho r ^ s) rs) = h s) ->
  (forall s m, (0 < m <= s)%nat -> (s <= d)%nat -> Nat.even (s + m) = true ->
     Rsum (map (fun r => rg_w r * INR (rg_K r) * rg_rho r ^ s * ring_sign r m) rs) = 0) ->
  exact 2 d (fun k => M (mono k)) q.
Proof.
  intros HM Hq Hdim HK H0 Hm. split; auto. intros k Hk Hd. destruct k as [|a [|b [|? ?]]]; try discriminate.
  replace (tdeg [a; b]) with (a + b)%nat in Hd by (unfold tdeg; cbn [list_sum fold_right]; lia).
  destruct (tpar_mono a b) as [l [Hl E]]. rewrite HM, Hq by auto.
  rewrite (Rsum_map_ext _ (fun r => Rsum (map (fun e => fst (snd e) * (rg_w r * INR (rg_K r) * rg_rho r ^ (a + b) * ring_sign r (fst e))) l))).
  2:{ intros r Hr. apply ring_mono; auto. rewrite List.Forall_forall in HK. auto. }
  rewrite (Rsum_swap (fun r e => fst (snd e) * (rg_w r * INR (rg_K r) * rg_rho r ^ (a + b) * ring_sign r (fst e)))).
  assert (SM : sphere_mean 2 (mono [a; b]) = trig_mean l).
  { assert (E1 : forall t, (fun _ : point => 1) [cos t; sin t] = trigval [(0%nat, (1, 0))] t).
    { intros t. unfold trigval. cbn [map Rsum fst snd INR]. rewrite (Rmult_0_l t), cos_0. ring. }
    unfold sphere_mean. rewrite (sphere_2_trig l (mono [a; b])) by (intros t; rewrite <- E; cbn [mono]; ring).
    rewrite (sphere_2_trig _ _ E1). replace (trig_mean [(0%nat, (1, 0))]) with 1 by (unfold trig_mean; cbn; ring). field. apply PI_neq0. }
  rewrite SM. unfold trig_mean. rewrite <- Rsum_map_scal. apply Rsum_map_ext. intros [m [x y]] Hin. cbn [fst snd].
  rewrite List.Forall_forall in Hl. destruct (Hl _ Hin) as [L P]. cbn [fst] in L, P. rewrite Rsum_map_scal.
  destruct (Nat.eqb_spec m 0) as [-> | Z].
  - rewrite <- (H0 (a + b)%nat) by (auto; rewrite Nat.add_0_r in P; auto). rewrite Rmult_comm. f_equal. apply Rsum_map_ext.
    intros r Hr. unfold ring_sign. rewrite List.Forall_forall in HK. specialize (HK _ Hr).
    rewrite Nat.mod_0_l, Nat.div_0_l by lia. cbn. ring.
  - rewrite Hm by (auto; lia). ring.
Qed.
