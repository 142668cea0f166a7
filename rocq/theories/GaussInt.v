(** The Gaussian integral, and the values of int_0^oo r^a exp(-r^2) dr in terms of gamma_n_2. *)
From Coq Require Import Reals List Arith Lia Lra Bool.
From Coquelicot Require Import Coquelicot.
From Verif Require Import Spec RsumLemmas PyBase MiscModel SphereSpec RadialInt.
Import ListNotations.
Set Bullet Behavior "Strict Subproofs".
Open Scope R_scope.

Definition gF (x : R) : R := RInt (fun t => exp (- (t * t))) 0 x.
Definition gk (x t : R) : R := exp (- (x * x) * (1 + t * t)) / (1 + t * t).
Definition gH (x : R) : R := RInt (fun t => gk x t) 0 1.
Lemma one_sq t : 0 < 1 + t * t. Proof. nra. Qed.
Lemma cont_gauss t : continuous (fun t => exp (- (t * t))) t.
Proof. apply (ex_derive_continuous (fun t : R => exp (- (t * t)))). auto_derive. auto. Qed.
Lemma gF_derive x : is_derive gF x (exp (- (x * x))).
Proof.
  apply (is_derive_RInt (fun t => exp (- (t * t))) gF 0 x).
  - apply filter_forall. intros y. apply (RInt_correct (fun t => exp (- (t * t)))). apply (ex_RInt_continuous (fun t : R => exp (- (t * t)))). intros; apply cont_gauss.
  - apply cont_gauss.
Qed.
Lemma gk_derive x t : is_derive (fun u => gk u t) x (-2 * x * exp (- (x * x) * (1 + t * t))).
Proof. unfold gk. pose proof (one_sq t). auto_derive; [lra|]. field. lra. Qed.
Lemma cont_gk x t : continuous (fun t => gk x t) t.
Proof. unfold gk. pose proof (one_sq t). apply (ex_derive_continuous (fun t : R => exp (- (x * x) * (1 + t * t)) / (1 + t * t))). auto_derive. lra. Qed.
Lemma gH_derive x : is_derive gH x (-2 * exp (- (x * x)) * gF x).
Proof.
  assert (D : is_derive gH x (RInt (fun t => Derive (fun u => gk u t) x) 0 1)).
  { apply (is_derive_RInt_param gk 0 1 x).
    - apply filter_forall. intros y t _. eexists. apply gk_derive.
    - intros t _. apply (continuity_2d_pt_ext (fun u v => -2 * u * exp (- (u * u) * (1 + v * v)))).
      + intros u v. symmetry. apply is_derive_unique, gk_derive.
      + apply continuity_2d_pt_mult; [apply continuity_2d_pt_mult; [apply continuity_2d_pt_const|apply continuity_2d_pt_id1]|].
        apply (continuity_1d_2d_pt_comp exp (fun u v => - (u * u) * (1 + v * v))).
        * apply derivable_continuous_pt, derivable_pt_exp.
        * repeat first [apply continuity_2d_pt_mult | apply continuity_2d_pt_plus | apply continuity_2d_pt_opp | apply continuity_2d_pt_const | apply continuity_2d_pt_id1 | apply continuity_2d_pt_id2].
    - apply filter_forall. intros y. apply (ex_RInt_continuous (fun t : R => gk y t)). intros; apply cont_gk. }
  replace (-2 * exp (- (x * x)) * gF x) with (RInt (fun t => Derive (fun u => gk u t) x) 0 1); auto.
  apply is_RInt_unique. apply (is_RInt_ext (fun t => scal (-2 * exp (- (x * x))) (scal x (exp (- ((x * t + 0) * (x * t + 0))))))).
  { intros t _. assert (U : Derive (fun u : R => gk u t) x = -2 * x * exp (- (x * x) * (1 + t * t))) by (apply is_derive_unique, gk_derive). rewrite U. unfold scal; cbn; unfold mult; cbn.
    replace (- (x * x) * (1 + t * t)) with (- (x * x) + - ((x * t + 0) * (x * t + 0))) by ring. rewrite exp_plus. ring. }
  apply (is_RInt_scal (fun t => scal x (exp (- ((x * t + 0) * (x * t + 0)))))).
  apply (is_RInt_comp_lin (fun t => exp (- (t * t))) x 0 0 1). rewrite Rmult_0_r, Rmult_1_r, !Rplus_0_r. unfold gF.
  apply (RInt_correct (fun t => exp (- (t * t)))). apply (ex_RInt_continuous (fun t : R => exp (- (t * t)))). intros; apply cont_gauss.
Qed.
Lemma gF0 : gF 0 = 0.
Proof. unfold gF. apply (RInt_point 0 (fun t => exp (- (t * t)))). Qed.
Lemma gH0 : gH 0 = PI / 4.
Proof.
  unfold gH. apply is_RInt_unique. assert (EQ : atan 1 + - atan 0 = PI / 4) by (rewrite atan_0, atan_1; lra). rewrite <- EQ. change (atan 1 + - atan 0) with (minus (atan 1) (atan 0)).
  apply (is_RInt_ext (fun t => / (1 + t ^ 2))).
  - intros t _. unfold gk. replace (- (0 * 0) * (1 + t * t)) with 0 by ring. rewrite exp_0. pose proof (one_sq t). change (/ (1 + t ^ 2) = 1 / (1 + t * t)). field. nra.
  - apply (is_RInt_derive atan (fun t => / (1 + t ^ 2))).
    + intros t _. replace (t ^ 2) with (Rsqr t) by (unfold Rsqr; ring). apply is_derive_atan.
    + intros t _. apply (ex_derive_continuous (fun t : R => / (1 + t ^ 2))). auto_derive. nra.
Qed.
Lemma gFH x : gF x * gF x + gH x = PI / 4.
Proof.
  assert (D : forall t, is_derive (fun t => gF t * gF t + gH t) t 0).
  { intros t. replace 0 with (plus (plus (mult (exp (- (t * t))) (gF t)) (mult (gF t) (exp (- (t * t))))) (-2 * exp (- (t * t)) * gF t)) by (unfold plus, mult; cbn; ring).
    apply (is_derive_plus (fun t => mult (gF t) (gF t)) gH).
    - apply (is_derive_mult gF gF t); [apply gF_derive|apply gF_derive|]. intros; apply Rmult_comm.
    - apply gH_derive. }
  assert (E0 : gF 0 * gF 0 + gH 0 = PI / 4) by (rewrite gF0, gH0; ring). rewrite <- E0.
  destruct (Rtotal_order x 0) as [L | [-> | L]]; auto.
  - apply (eq_is_derive (fun t => gF t * gF t + gH t) x 0); auto.
  - symmetry. apply (eq_is_derive (fun t => gF t * gF t + gH t) 0 x); auto.
Qed.
Lemma gH_bounds x : 0 <= gH x <= exp (- (x * x)).
Proof.
  assert (EX : ex_RInt (fun t => gk x t) 0 1) by (apply (ex_RInt_continuous (fun t : R => gk x t)); intros; apply cont_gk).
  split.
  - apply RInt_ge_0; [lra|exact EX|]. intros t _. unfold gk. apply Rlt_le, Rdiv_lt_0_compat; [apply exp_pos|apply one_sq].
  - replace (exp (- (x * x))) with (RInt (fun _ => exp (- (x * x))) 0 1) by (rewrite RInt_const; unfold scal; cbn; unfold mult; cbn; ring).
    apply RInt_le; [lra|exact EX|apply ex_RInt_const|]. intros t _. unfold gk. pose proof (one_sq t). pose proof (exp_pos (- (x * x) * (1 + t * t))).
    assert (exp (- (x * x) * (1 + t * t)) <= exp (- (x * x))). { destruct (Req_dec (x * t) 0) as [Z|Z]; [replace (- (x * x) * (1 + t * t)) with (- (x * x) - (x * t) * (x * t)) by ring; rewrite Z; right; f_equal; ring|]. left. apply exp_increasing. nra. }
    apply (Rmult_le_reg_r (1 + t * t)); auto. replace (exp (- (x * x) * (1 + t * t)) / (1 + t * t) * (1 + t * t)) with (exp (- (x * x) * (1 + t * t))) by (field; lra).
    pose proof (exp_pos (- (x * x))). nra.
Qed.
Lemma gH_lim : is_lim gH p_infty 0.
Proof.
  apply (is_lim_le_le_loc (fun _ => 0) (fun x => exp (- x))).
  - exists 1. intros x Hx. pose proof (gH_bounds x). split; [lra|]. apply Rle_trans with (exp (- (x * x))); [lra|]. left. apply exp_increasing. nra.
  - apply is_lim_const.
  - apply (is_lim_comp exp Ropp p_infty 0 m_infty).
    + apply is_lim_exp_m.
    + replace m_infty with (Rbar_opp p_infty) by reflexivity. apply (is_lim_opp (fun x => x)). apply is_lim_id.
    + exists 0. intros y _. discriminate.
Qed.
Theorem gauss_integral : imp (fun r => r ^ 0 * exp (- (r * r))) (sqrt PI / 2).
Proof.
  destruct imp_gauss0 as [l [Pl Hl]]. replace (sqrt PI / 2) with l; auto. destruct Hl as [F [HF HL]].
  assert (E : forall x, 0 <= x -> F x = gF x).
  { intros x Hx. unfold gF. symmetry. apply is_RInt_unique. apply (is_RInt_ext (fun r => r ^ 0 * exp (- (r * r)))); [intros; cbn; ring|]. auto. }
  assert (L : is_lim (fun x => PI / 4 - gH x) p_infty (l * l)).
  { apply (is_lim_ext_loc (fun x => F x * F x)).
    - exists 0. intros x Hx. rewrite E by lra. rewrite <- (gFH x). ring.
    - apply (is_lim_mult F F p_infty l l); auto. exact I. }
  assert (L' : is_lim (fun x => PI / 4 - gH x) p_infty (PI / 4 - 0)).
  { apply (is_lim_minus (fun _ => PI / 4) gH p_infty (PI / 4) 0); [apply is_lim_const|apply gH_lim|]. reflexivity. }
  apply is_lim_unique in L. apply is_lim_unique in L'. rewrite L in L'. injection L' as X.
  assert (P := PI_RGT_0). assert (Q := sqrt_sqrt PI ltac:(lra)). assert (S := sqrt_lt_R0 PI P).
  assert (Y : (l - sqrt PI / 2) * (l + sqrt PI / 2) = 0) by nra. apply Rmult_integral in Y. destruct Y; lra.
Qed.

(* ------------------------------------------------------------------ gamma_n_2 *)
Lemma gamma_1 : gamma_n_2 1 = Some (sqrt PI).
Proof. unfold gamma_n_2. cbn. f_equal. field. Qed.
Lemma gamma_2 : gamma_n_2 2 = Some 1.
Proof. reflexivity. Qed.
Lemma gamma_step n g : gamma_n_2 n = Some g -> gamma_n_2 (n + 2) = Some (INR n / 2 * g).
Proof.
  unfold gamma_n_2. rewrite Nat.even_add. change (Nat.even 2) with true. destruct (Nat.even n) eqn:E; cbn [eqb].
  - apply Nat.even_spec in E. destruct E as [m ->]. destruct m as [|m]; [discriminate|].
    intros E. assert (Eg : g = INR (fact (2 * S m / 2 - 1))) by (injection E; intros Eg; rewrite <- Eg; reflexivity). rewrite Eg. clear E Eg. replace (2 * S m + 2)%nat with (S (2 * m + 3)) by lia. f_equal.
    replace (S (2 * m + 3) / 2 - 1)%nat with (S m) by (replace (S (2 * m + 3)) with ((m + 2) * 2)%nat by lia; rewrite Nat.div_mul; lia).
    replace (2 * S m / 2 - 1)%nat with m by (rewrite Nat.mul_comm, Nat.div_mul; lia).
    rewrite fact_simpl, !mult_INR. generalize (INR (S m)) (INR (fact m)). intros u v. simpl INR. field.
  - assert (O : Nat.odd n = true) by (unfold Nat.odd; rewrite E; auto). apply Nat.odd_spec in O. destruct O as [m ->].
    replace ((2 * m + 1) / 2)%nat with m by (rewrite Nat.mul_comm, Nat.div_add_l by lia; change (1 / 2)%nat with 0%nat; lia).
    replace ((2 * m + 1 + 2) / 2)%nat with (S m) by (replace (2 * m + 1 + 2)%nat with (S m * 2 + 1)%nat by lia; rewrite Nat.div_add_l by lia; change (1 / 2)%nat with 0%nat; lia).
    intros E0. assert (Eg : g = INR (fact (2 * m)) / (4 ^ m * INR (fact m)) * sqrt PI) by (injection E0; intros Eg; rewrite <- Eg; reflexivity). rewrite Eg. clear E0 Eg.
    f_equal. replace (2 * S m)%nat with (S (S (2 * m))) by lia. rewrite !fact_simpl, !mult_INR, !S_INR, plus_INR, mult_INR. cbn [INR pow].
    assert (INR (fact m) <> 0) by apply INR_fact_neq_0. assert (4 ^ m <> 0) by (apply pow_nonzero; lra). assert (P := pos_INR m). field. repeat split; auto; lra.
Qed.
(** gamma(n/2) = 2 int_0^oo r^(n-1) exp(-r^2) dr *)
Theorem gamma_moment a : exists g, gamma_n_2 (S a) = Some g /\ 0 < g /\ imp (fun r => r ^ a * exp (- (r * r))) (g / 2).
Proof.
  induction a as [a IH] using (well_founded_induction lt_wf). destruct a as [|[|a]].
  - exists (sqrt PI). split; [apply gamma_1|]. split; [apply sqrt_lt_R0, PI_RGT_0|apply gauss_integral].
  - exists 1. split; [apply gamma_2|]. split; [lra|apply imp_gauss1].
  - destruct (IH a ltac:(lia)) as [g [E [P H]]]. exists (INR (S a) / 2 * g). apply gamma_step in E. replace (S a + 2)%nat with (S (S (S a))) in E by lia.
    split; auto. assert (0 < INR (S a)) by (apply lt_0_INR; lia). split; [apply Rmult_lt_0_compat; lra|].
    replace (S (S a)) with (a + 2)%nat by lia. replace (INR (S a) / 2 * g / 2) with (INR (a + 1) / 2 * (g / 2)) by (replace (a + 1)%nat with (S a) by lia; field). apply imp_gauss_step. auto.
Qed.
Lemma enr2_volume n : (1 <= n)%nat -> exists g, gamma_n_2 n = Some g /\ 0 < g /\ radial_int (fun r => exp (- (r * r))) n (fun _ => 1) = sphere_int n (fun _ => 1) * (g / 2).
Proof.
  intros H. destruct n as [|n]; [lia|]. destruct (gamma_moment n) as [g [E [P I]]]. exists g. split; auto. split; auto.
  assert (X := radial_int_1 (fun r => exp (- (r * r))) (fun a => match gamma_n_2 (S a) with Some g => g / 2 | None => 0 end) n).
  rewrite X.
  - rewrite E, sphere_int_1. auto.
  - intros a. destruct (gamma_moment a) as [g' [E' [_ I']]]. rewrite E'. auto.
Qed.
