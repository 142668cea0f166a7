(** Krylov's circle rule and the Chebyshev-Gauss rules. *)
From Coq Require Import Reals List Arith ZArith Lia Lra.
From Coquelicot Require Import Coquelicot.
From Verif Require Import Spec Spec1 SphereSpec RsumLemmas IntegralProofs IntegralPoly SphereInt RadialInt TrigSums TrigPoly C1Tools PyBase UnModel C1Model.
Import ListNotations.
Set Bullet Behavior "Strict Subproofs".
Open Scope R_scope.

Lemma opt_list_map {A B} (f : A -> option B) (g : A -> B) l : (forall a, In a l -> f a = Some (g a)) -> opt_list f l = Some (map g l).
Proof. induction l as [|a l IH]; intros H; cbn; auto. rewrite H by (left; auto). cbn. rewrite IH by (intros; apply H; right; auto). auto. Qed.
Lemma combine_map2 {A B C} (f : A -> B) (g : A -> C) l : List.combine (map f l) (map g l) = map (fun a => (f a, g a)) l.
Proof. induction l as [|a l IH]; cbn; auto. rewrite IH. auto. Qed.
Lemma repeat_map {A B} (c : B) (l : list A) : repeat c (length l) = map (fun _ => c) l.
Proof. induction l; cbn; auto. rewrite IHl. auto. Qed.
Lemma rdiv_ok a b : b <> 0 -> rdiv a b = Some (a / b).
Proof. intros H. unfold rdiv. destruct Req_EM_T; [contradiction|auto]. Qed.

(* ------------------------------------------------------------------ krylov *)
Definition krylov_rule (n : nat) : rule := map (fun k => (1 / INR n, [cos (2 * INR k * PI / INR n); sin (2 * INR k * PI / INR n)])) (seq 0 n).
Lemma krylov_run n : (1 <= n)%nat -> krylov n = Some (mk_u2 (Z.of_nat n - 1) (krylov_rule n)).
Proof.
  intros H. assert (P : INR n <> 0) by (apply not_0_INR; lia). unfold krylov.
  rewrite rdiv_ok by auto. cbn [bind].
  rewrite (opt_list_map _ (fun k => [cos (2 * INR k * PI / INR n); sin (2 * INR k * PI / INR n)])) by (intros; rewrite rdiv_ok by auto; auto).
  cbn [bind]. replace (repeat (1 / INR n) n) with (map (fun _ => 1 / INR n) (seq 0 n)) by (rewrite <- repeat_map, seq_length; auto). rewrite combine_map2. reflexivity.
Qed.
Lemma krylov_cos n j : (0 < j < n)%nat -> Rsum (map (fun k => cos (INR j * (2 * INR k * PI / INR n))) (seq 0 n)) = 0.
Proof.
  intros H. rewrite <- (cos_roots j n 0 0 H). apply Rsum_map_ext. intros k _. f_equal. field. apply not_0_INR. lia.
Qed.
Lemma krylov_sin n j : (0 < j < n)%nat -> Rsum (map (fun k => sin (INR j * (2 * INR k * PI / INR n))) (seq 0 n)) = 0.
Proof.
  intros H. rewrite <- (sin_roots j n 0 0 H). apply Rsum_map_ext. intros k _. f_equal. field. apply not_0_INR. lia.
Qed.
Definition trig_mean (l : list (nat * (R * R))) : R := Rsum (map (fun e => if (fst e =? 0)%nat then fst (snd e) else 0) l).
Lemma krylov_trig n l f : List.Forall (fun e => (fst e < n)%nat) l -> (forall t, f [cos t; sin t] = trigval l t) ->
  apply (krylov_rule n) f = trig_mean l.
Proof.
  intros Hl E. destruct n as [|n0] eqn:En. { inversion Hl; [reflexivity|]. exfalso. cbn beta in *. lia. } rewrite <- En in *. assert (P : INR n <> 0) by (apply not_0_INR; lia). clear En n0.
  unfold apply, krylov_rule. rewrite map_map. cbn [fst snd].
  rewrite (Rsum_map_ext _ (fun k => Rsum (map (fun e => 1 / INR n * (fst (snd e) * cos (INR (fst e) * (2 * INR k * PI / INR n)) + snd (snd e) * sin (INR (fst e) * (2 * INR k * PI / INR n)))) l))) by
    (intros k _; rewrite E; unfold trigval; rewrite Rsum_map_scal; auto).
  rewrite (Rsum_swap (fun k e => 1 / INR n * (fst (snd e) * cos (INR (fst e) * (2 * INR k * PI / INR n)) + snd (snd e) * sin (INR (fst e) * (2 * INR k * PI / INR n))))).
  apply Rsum_map_ext. intros [j [a b]] Hj. rewrite List.Forall_forall in Hl. specialize (Hl _ Hj). cbn [fst snd] in *.
  rewrite Rsum_map_scal, Rsum_map_plus, !Rsum_map_scal. destruct (Nat.eqb_spec j 0) as [-> | Hz].
  - cbn [INR]. rewrite (Rsum_map_ext _ (fun _ => 1)) by (intros; rewrite Rmult_0_l; apply cos_0). rewrite (Rsum_map_ext (fun k => sin (0 * _)) (fun _ => 0)) by (intros; rewrite Rmult_0_l; apply sin_0).
    rewrite !Rsum_map_const, seq_length. field. auto.
  - rewrite krylov_cos, krylov_sin by lia. ring.
Qed.
Lemma is_RInt_sinj j T : (0 < j)%nat -> is_RInt (fun t => sin (INR j * t)) 0 T ((1 - cos (INR j * T)) / INR j).
Proof.
  intros H. assert (P : INR j <> 0) by (apply not_0_INR; lia).
  replace ((1 - cos (INR j * T)) / INR j) with (minus (- cos (INR j * T) / INR j) (- cos (INR j * 0) / INR j)).
  - apply (is_RInt_derive (fun t => - cos (INR j * t) / INR j)).
    + intros x _. auto_derive; auto. field. auto.
    + intros x _. apply (ex_derive_continuous (fun t : R => sin (INR j * t))). auto_derive. auto.
  - unfold minus, plus, opp. cbn -[INR]. rewrite Rmult_0_r, cos_0. change (- cos (INR j * T) / INR j + - (- (1) / INR j) = (1 - cos (INR j * T)) / INR j). field. auto.
Qed.
(** over a full period only the constant term contributes *)
Lemma is_RInt_trigval l : is_RInt (trigval l) 0 (2 * PI) (2 * PI * trig_mean l).
Proof.
  unfold trigval, trig_mean. rewrite <- Rsum_map_scal.
  apply (is_RInt_Rsum (fun e t => fst (snd e) * cos (INR (fst e) * t) + snd (snd e) * sin (INR (fst e) * t)) (fun e => 2 * PI * (if (fst e =? 0)%nat then fst (snd e) else 0))).
  intros [j [a b]] _. cbn [fst snd]. destruct (Nat.eqb_spec j 0) as [-> | H].
  - apply (is_RInt_ext (fun _ => a)).
    + intros t _. cbn [INR]. rewrite (Rmult_0_l t), cos_0, sin_0. change (a = a * 1 + b * 0). ring.
    + replace (2 * PI * a) with (scal (2 * PI - 0) a) by (unfold scal; cbn; unfold mult; cbn; change ((2 * PI - 0) * a = 2 * PI * a); ring). apply (@is_RInt_const R_NormedModule).
  - replace (2 * PI * 0) with (plus (a * 0) (b * 0)) by (unfold plus; cbn; ring). apply (@is_RInt_plus R_NormedModule).
    + apply is_RInt_scalR. replace 0 with (sin (INR j * (2 * PI)) / INR j) at 2.
      * apply is_RInt_cosj. lia.
      * replace (INR j * (2 * PI)) with (INR (2 * j) * PI) by (rewrite mult_INR; cbn [INR]; ring). rewrite sin_INR_PI. unfold Rdiv. ring.
    + apply is_RInt_scalR. replace 0 with ((1 - cos (INR j * (2 * PI))) / INR j) at 2.
      * apply is_RInt_sinj. lia.
      * replace (INR j * (2 * PI)) with (INR (2 * j) * PI) by (rewrite mult_INR; cbn [INR]; ring). rewrite cos_INR_PI, pow_m1_even. unfold Rdiv. ring.
Qed.
(** the surface integral over the unit circle of R^2 *)
Lemma sphere_2_trig l f : (forall t, f [cos t; sin t] = trigval l t) -> sphere_int 2 f = 2 * PI * trig_mean l.
Proof.
  intros E. cbn [sphere_int]. apply is_RInt_unique.
  apply (is_RInt_ext (fun t => trigval l t + trigval l (- t))).
  { intros t _. rewrite <- !E. rewrite cos_neg, sin_neg. cbn [pow map]. change (f [cos t; sin t] + f [cos t; - sin t] = 1 * (f [cos t; sin t * 1] + f [cos t; sin t * -1])).
    replace (sin t * 1) with (sin t) by ring. replace (sin t * -1) with (- sin t) by ring. ring. }
  unfold trigval, trig_mean. apply (is_RInt_ext (fun t => Rsum (map (fun e => 2 * fst (snd e) * cos (INR (fst e) * t)) l))).
  { intros t _. rewrite <- Rsum_map_plus. apply Rsum_map_ext. intros [j [a b]] _. cbn [fst snd]. replace (INR j * - t) with (- (INR j * t)) by ring. rewrite cos_neg, sin_neg. ring. }
  rewrite <- Rsum_map_scal. apply (is_RInt_Rsum (fun e t => 2 * fst (snd e) * cos (INR (fst e) * t)) (fun e => 2 * PI * (if (fst e =? 0)%nat then fst (snd e) else 0))).
  intros [j [a b]] _. cbn [fst snd]. destruct (Nat.eqb_spec j 0) as [-> | H].
  - apply (is_RInt_ext (fun _ => 2 * a)).
    + intros t _. cbn [INR]. rewrite (Rmult_0_l t), cos_0. change (2 * a = 2 * a * 1). ring.
    + replace (2 * PI * a) with (PI * (2 * a)) by ring. apply is_RInt_const_pi.
  - replace (2 * PI * 0) with (2 * a * 0) by ring. apply is_RInt_scalR. apply is_RInt_cos_pi. lia.
Qed.
Theorem krylov_trig_exact n l : (1 <= n)%nat -> List.Forall (fun e => (fst e < n)%nat) l -> forall f, (forall t, f [cos t; sin t] = trigval l t) ->
  apply (krylov_rule n) f = RInt (fun t => f [cos t; sin t]) 0 (2 * PI) / (2 * PI).
Proof.
  intros Hn Hl f E. rewrite (krylov_trig n l f Hl E). rewrite (RInt_ext _ (trigval l)) by (intros; apply E).
  rewrite (is_RInt_unique _ _ _ _ (is_RInt_trigval l)). field. apply PI_neq0.
Qed.
Theorem krylov_exact n k : (1 <= n)%nat -> length k = 2%nat -> (tdeg k <= n - 1)%nat -> apply (krylov_rule n) (mono k) = sphere_mean 2 (mono k).
Proof.
  intros Hn Hk Hd. destruct k as [|a [|b [|? ?]]]; try discriminate. cbn [tdeg list_sum fold_right] in Hd.
  destruct (trigpoly_mono a b) as [l [Hl E]]. assert (E' : forall t, mono [a; b] [cos t; sin t] = trigval l t) by (intros t; rewrite <- E; cbn; ring).
  assert (Hl' : List.Forall (fun e : nat * (R * R) => (fst e < n)%nat) l).
  { apply List.Forall_forall. intros e He. rewrite List.Forall_forall in Hl. specialize (Hl _ He). cbn beta in Hl. unfold tdeg in Hd. cbn in Hd. lia. }
  rewrite (krylov_trig n l (mono [a; b]) Hl' E').
  unfold sphere_mean. rewrite (sphere_2_trig l) by auto.
  rewrite (sphere_2_trig [(0%nat, (1, 0))]) by (intros t; unfold trigval; cbn [map Rsum fst snd INR]; rewrite (Rmult_0_l t), cos_0; ring).
  replace (trig_mean [(0%nat, (1, 0))]) with 1 by (unfold trig_mean; cbn; ring). field. apply PI_neq0.
Qed.
(** at degree n the rule is wrong: it gives 1 for cos(n t), whose mean is 0 *)
Theorem krylov_sharp n : (1 <= n)%nat -> forall f, (forall t, f [cos t; sin t] = cos (INR n * t)) ->
  apply (krylov_rule n) f = 1 /\ RInt (fun t => f [cos t; sin t]) 0 (2 * PI) = 0.
Proof.
  intros Hn f E. assert (P : INR n <> 0) by (apply not_0_INR; lia). split.
  - unfold apply, krylov_rule. rewrite map_map. cbn [fst snd]. rewrite (Rsum_map_ext _ (fun _ => 1 / INR n)).
    + rewrite Rsum_map_const, seq_length. field. auto.
    + intros k _. rewrite E. replace (INR n * (2 * INR k * PI / INR n)) with (INR (2 * k) * PI) by (rewrite mult_INR; cbn [INR]; field; auto). rewrite cos_INR_PI, pow_m1_even. ring.
  - apply is_RInt_unique. apply (is_RInt_ext (trigval [(n, (1, 0))])).
    + intros t _. rewrite E. unfold trigval. cbn [map Rsum fst snd]. change (1 * cos (INR n * t) + 0 * sin (INR n * t) + 0 = cos (INR n * t)). ring.
    + assert (Z : 2 * PI * trig_mean [(n, (1, 0))] = 0) by (unfold trig_mean; cbn [map fst snd]; destruct (Nat.eqb_spec n 0); [lia|]; cbn; ring).
      assert (I := is_RInt_trigval [(n, (1, 0))]). rewrite Z in I. exact I.
Qed.

(* ------------------------------------------------------------------ rules given by angles *)
(** [q] lists (weight, angle); the nodes are the cosines *)
Definition angle_sum (q : list (R * R)) (f : R -> R) : R := Rsum (map (fun wt => fst wt * f (snd wt)) q).
Lemma angle_cosval q l : angle_sum q (cosval l) = Rsum (map (fun jc => snd jc * angle_sum q (fun t => cos (INR (fst jc) * t))) l).
Proof.
  unfold angle_sum, cosval. rewrite (Rsum_map_ext (fun wt => fst wt * Rsum _) (fun wt => Rsum (map (fun jc => fst wt * (snd jc * cos (INR (fst jc) * snd wt))) l))) by (intros; rewrite <- Rsum_map_scal; auto).
  rewrite Rsum_swap. apply Rsum_map_ext. intros jc _. rewrite <- Rsum_map_scal. apply Rsum_map_ext. intros. ring.
Qed.
Lemma angle_ext q f g : (forall t, f t = g t) -> angle_sum q f = angle_sum q g.
Proof. intros H. apply Rsum_map_ext. intros. rewrite H. auto. Qed.
(** x = - cos t, dx = sin t dt *)
Theorem cheb_exact q d : (forall j, (j <= d)%nat -> angle_sum q (fun t => cos (INR j * t)) = cosint j) ->
  exact1 d (map (fun wt => (fst wt, - cos (snd wt))) q).
Proof.
  intros H. apply exact1_of_powers. intros k Hk. destruct (cospoly_pow_neg k) as [l [Hl E]].
  unfold apply1. rewrite map_map. cbn [fst snd]. change (angle_sum q (fun t => (- cos t) ^ k) = pow_int k). rewrite (angle_ext q _ _ E), angle_cosval.
  assert (I : is_RInt (fun t => (- cos t) ^ k * sin t) 0 PI (Rsum (map (fun jc => snd jc * cosint (fst jc)) l))).
  { apply (is_RInt_ext (fun t => Rsum (map (fun jc => snd jc * (cos (INR (fst jc) * t) * sin t)) l))).
    - intros t _. rewrite E. unfold cosval. rewrite <- Rsum_map_scal_r. apply Rsum_map_ext. intros. ring.
    - apply (is_RInt_Rsum (fun jc t => snd jc * (cos (INR (fst jc) * t) * sin t)) (fun jc => snd jc * cosint (fst jc))). intros [j c] _. cbn [fst snd]. apply is_RInt_scalR. apply is_RInt_cos_sin. }
  rewrite (RInt_uniq _ _ _ _ _ (is_RInt_pow_cos k) I). apply Rsum_map_ext. intros jc Hj. rewrite List.Forall_forall in Hl. rewrite H by (specialize (Hl _ Hj); cbn beta in *; lia). auto.
Qed.

(* ------------------------------------------------------------------ Chebyshev-Gauss *)
Definition cg1_angle (n k : nat) : R := INR (2 * k - 1) / (2 * INR n) * PI.
Lemma cg1_run n : (1 <= n)%nat -> chebyshev_gauss_1 n = Some (mk_c1 (cg_degree n) (map (fun k => (PI / INR n, cos (cg1_angle n k))) (seq 1 n))).
Proof.
  intros H. assert (P : INR n <> 0) by (apply not_0_INR; lia). unfold chebyshev_gauss_1.
  rewrite (opt_list_map _ (fun k => cos (cg1_angle n k))) by (intros; rewrite rdiv_ok by lra; auto). cbn [bind]. rewrite rdiv_ok by auto. cbn [bind].
  unfold c1_scheme_of. replace (repeat (PI / INR n) n) with (map (fun _ : nat => PI / INR n) (seq 1 n)) by (rewrite <- repeat_map, seq_length; auto). rewrite combine_map2. auto.
Qed.
Lemma cg1_cos n j : (0 < j < 2 * n)%nat -> Rsum (map (fun k => cos (INR j * cg1_angle n k)) (seq 1 n)) = 0.
Proof.
  intros H. assert (P : INR n <> 0) by (apply not_0_INR; lia). assert (E := cos_progression (INR j * PI / INR n) (- (INR j * PI / (2 * INR n))) 1 n).
  rewrite (Rsum_map_ext _ (fun k => cos (INR j * cg1_angle n k))) in E.
  - replace ((INR 1 + INR n - 1 / 2) * (INR j * PI / INR n) + - (INR j * PI / (2 * INR n))) with (INR j * PI) in E by (cbn [INR]; field; auto).
    replace ((INR 1 - 1 / 2) * (INR j * PI / INR n) + - (INR j * PI / (2 * INR n))) with 0 in E by (cbn [INR]; field; auto).
    rewrite sin_INR_PI, sin_0, Rminus_0_r in E. apply Rmult_integral in E. destruct E as [E|E]; auto. exfalso.
    apply Rmult_integral in E. destruct E as [E|E]; [lra|]. apply (sin_nz_frac j (2 * n) H). rewrite <- E. f_equal. rewrite mult_INR. cbn [INR]. field. auto.
  - intros k Hk. apply in_seq in Hk. f_equal. unfold cg1_angle. rewrite minus_INR, mult_INR by lia. cbn [INR]. field. auto.
Qed.
Theorem cg1_exact n c : (1 <= n)%nat -> (length c <= 2 * n)%nat ->
  apply1 (map (fun k => (PI / INR n, cos (cg1_angle n k))) (seq 1 n)) (peval c) = RInt (fun t => peval c (cos t)) 0 PI.
Proof.
  intros Hn Hc. assert (P : INR n <> 0) by (apply not_0_INR; lia).
  assert (C : cospoly (2 * n - 1) (fun t => peval c (cos t))).
  { apply (cospoly_ext _ (fun t => Rsum (map (fun i => nth i c 0 * cos t ^ i) (seq 0 (length c))))); [intros; symmetry; apply peval_nth|].
    apply (cospoly_sum (2 * n - 1) _ (fun i t => nth i c 0 * cos t ^ i)). intros i Hi. apply in_seq in Hi. apply cospoly_scal. apply (cospoly_le i); [lia|apply cospoly_pow]. }
  destruct C as [l [Hl E]]. unfold apply1. rewrite map_map. cbn [fst snd].
  transitivity (angle_sum (map (fun k => (PI / INR n, cg1_angle n k)) (seq 1 n)) (cosval l)).
  { unfold angle_sum. rewrite map_map. cbn [fst snd]. apply Rsum_map_ext. intros. rewrite E. auto. }
  rewrite angle_cosval. rewrite (RInt_ext _ (cosval l)) by (intros; apply E). rewrite (is_RInt_unique _ _ _ _ (is_RInt_cosval l)). unfold cos_mean.
  rewrite <- Rsum_map_scal. apply Rsum_map_ext. intros [j a] Hj. rewrite List.Forall_forall in Hl. specialize (Hl _ Hj). cbn [fst snd] in *.
  unfold angle_sum. rewrite map_map. cbn [fst snd]. rewrite Rsum_map_scal. destruct (Nat.eqb_spec j 0) as [-> | Hz].
  - cbn [INR]. rewrite (Rsum_map_ext _ (fun _ => 1)) by (intros; rewrite Rmult_0_l; apply cos_0). rewrite Rsum_map_const, seq_length. field. auto.
  - rewrite cg1_cos by lia. ring.
Qed.

Definition cg2_angle (n k : nat) : R := PI * INR k / (INR n + 1).
Lemma cg2_run n : chebyshev_gauss_2 n = Some (mk_c1 (cg_degree n) (map (fun k => (PI / (INR n + 1) * sin (cg2_angle n k) ^ 2, cos (cg2_angle n k))) (seq 1 n))).
Proof.
  assert (P : INR n + 1 <> 0) by (assert (0 <= INR n) by apply pos_INR; lra). unfold chebyshev_gauss_2.
  rewrite (opt_list_map _ (fun k => cos (cg2_angle n k))) by (intros; rewrite rdiv_ok by lra; auto). cbn [bind].
  rewrite (opt_list_map _ (fun k => PI / (INR n + 1) * sin (cg2_angle n k) ^ 2)) by (intros; rewrite !rdiv_ok by lra; auto). cbn [bind].
  unfold c1_scheme_of. rewrite combine_map2. auto.
Qed.
(** the trapezoidal sum with N panels on [0, pi] *)
Lemma trapez_cos N j : (0 < j < 2 * N)%nat -> Rsum (map (fun k => cos (INR j * (PI * INR k / INR N))) (seq 1 (N - 1))) = - (1 + (-1) ^ j) / 2.
Proof.
  intros H. assert (P : INR N <> 0) by (apply not_0_INR; lia). assert (E := cos_progression (INR j * PI / INR N) 0 1 (N - 1)).
  rewrite (Rsum_map_ext _ (fun k => cos (INR j * (PI * INR k / INR N)))) in E by (intros; f_equal; field; auto).
  rewrite minus_INR in E by lia.
  replace ((INR 1 + (INR N - INR 1) - 1 / 2) * (INR j * PI / INR N) + 0) with (INR j * PI - INR j * PI / INR N / 2) in E by (cbn [INR]; field; auto).
  replace ((INR 1 - 1 / 2) * (INR j * PI / INR N) + 0) with (INR j * PI / INR N / 2) in E by (cbn [INR]; field; auto).
  rewrite sin_minus, sin_INR_PI, cos_INR_PI in E.
  assert (S0 : sin (INR j * PI / INR N / 2) <> 0).
  { replace (INR j * PI / INR N / 2) with (INR j * PI / INR (2 * N)) by (rewrite mult_INR; cbn [INR]; field; auto). apply sin_nz_frac. auto. }
  apply (Rmult_eq_reg_r (2 * sin (INR j * PI / INR N / 2))); [|lra]. rewrite E. field.
Qed.
Lemma cos_mean_const l : cospoly 0 (fun _ => cos_mean l).
Proof. apply cospoly_const. Qed.
Theorem trapez_cosval N l : (1 <= N)%nat -> List.Forall (fun jc => (fst jc < 2 * N)%nat) l ->
  Rsum (map (fun k => cosval l (PI * INR k / INR N)) (seq 1 (N - 1))) = INR N * cos_mean l - (cosval l 0 + cosval l PI) / 2.
Proof.
  intros HN Hl. assert (P : INR N <> 0) by (apply not_0_INR; lia). unfold cosval, cos_mean. rewrite (Rsum_swap (fun k jc => snd jc * cos (INR (fst jc) * (PI * INR k / INR N)))).
  transitivity (Rsum (map (fun jc => INR N * (if (fst jc =? 0)%nat then snd jc else 0) - (snd jc * cos (INR (fst jc) * 0) + snd jc * cos (INR (fst jc) * PI)) / 2) l)).
  - apply Rsum_map_ext. intros [j c] Hj. rewrite List.Forall_forall in Hl. specialize (Hl _ Hj). cbn [fst snd] in *. rewrite Rsum_map_scal. destruct (Nat.eqb_spec j 0) as [-> | Hz].
    + cbn [INR]. rewrite (Rsum_map_ext _ (fun _ => 1)) by (intros; rewrite Rmult_0_l; apply cos_0). rewrite Rsum_map_const, seq_length, minus_INR by lia. rewrite !Rmult_0_l, cos_0. cbn [INR]. field.
    + rewrite trapez_cos by lia. rewrite (Rmult_0_r (INR j)), cos_0, cos_INR_PI. field.
  - rewrite Rsum_map_minus, Rsum_map_scal. f_equal. unfold Rdiv. rewrite Rsum_map_scal_r, Rsum_map_plus. auto.
Qed.
Lemma cospoly_mul_sin2 d f : cospoly d f -> cospoly (S (S d)) (fun t => f t * sin t ^ 2).
Proof.
  intros H. apply (cospoly_ext _ (fun t => f t + (-1) * (cos t * (cos t * f t)))).
  - intros t. replace (sin t ^ 2) with (Rsqr (sin t)) by (unfold Rsqr; ring). rewrite sin2. unfold Rsqr. ring.
  - apply cospoly_add; [apply (cospoly_le d); auto|]. apply cospoly_scal. apply cospoly_mul_cos, cospoly_mul_cos. auto.
Qed.
Theorem cg2_exact n c : (length c <= 2 * n)%nat ->
  apply1 (map (fun k => (PI / (INR n + 1) * sin (cg2_angle n k) ^ 2, cos (cg2_angle n k))) (seq 1 n)) (peval c) = RInt (fun t => peval c (cos t) * sin t ^ 2) 0 PI.
Proof.
  intros Hc. destruct c as [|c0 c'].
  { rewrite (RInt_ext _ (fun _ => 0)) by (intros; cbn [peval]; change (0 * sin x ^ 2 = 0); ring). rewrite (is_RInt_unique _ _ _ _ (is_RInt_const_pi 0)).
    unfold apply1. cbn [peval]. rewrite Rsum_map_zero; [ring|]. intros; ring. }
  set (c := c0 :: c') in *. assert (L : (1 <= length c)%nat) by (cbn; lia). assert (Hn : (1 <= n)%nat) by lia. clearbody c. clear c0 c'.
  assert (P : INR n + 1 <> 0) by (assert (0 <= INR n) by apply pos_INR; lra).
  assert (C : cospoly (2 * n + 1) (fun t => peval c (cos t) * sin t ^ 2)).
  { apply (cospoly_le (S (S (2 * n - 1)))); [lia|]. apply cospoly_mul_sin2. apply (cospoly_ext _ (fun t => Rsum (map (fun i => nth i c 0 * cos t ^ i) (seq 0 (length c))))); [intros; symmetry; apply peval_nth|].
    apply (cospoly_sum (2 * n - 1) _ (fun i t => nth i c 0 * cos t ^ i)). intros i Hi. apply in_seq in Hi. apply cospoly_scal. apply (cospoly_le i); [lia|apply cospoly_pow]. }
  destruct C as [l [Hl E]]. assert (T := trapez_cosval (n + 1) l ltac:(lia)). replace (n + 1 - 1)%nat with n in T by lia.
  rewrite <- !E, sin_0, sin_PI in T. rewrite plus_INR in T. cbn [INR] in T.
  rewrite (RInt_ext _ (cosval l)) by (intros; apply E). rewrite (is_RInt_unique _ _ _ _ (is_RInt_cosval l)).
  transitivity (PI / (INR n + 1) * Rsum (map (fun k => cosval l (PI * INR k / (INR n + 1))) (seq 1 n))).
  - unfold apply1. rewrite map_map, <- Rsum_map_scal. cbn [fst snd]. apply Rsum_map_ext. intros k _. rewrite <- E. unfold cg2_angle. ring.
  - rewrite T; [field; auto|]. eapply Forall_impl; [|exact Hl]. cbn beta. intros. lia.
Qed.
