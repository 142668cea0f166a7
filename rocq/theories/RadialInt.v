(** Moments of the weights exp(-r), exp(-r^2) on R^n; the four rotation invariant functionals as fully symmetric
    functionals with moments  prod (l_i - 1)!! * h(|l|/2). *)
From Coq Require Import Reals List Arith Bool Lia Lra Permutation Factorial.
From Coquelicot Require Import Coquelicot.
From Verif Require Import Spec RsumLemmas IntegralSpec IntegralProofs IntegralPoly SphereSpec SphereInt SchemeTools CnTools.
Set Bullet Behavior "Strict Subproofs".
Import ListNotations.
Open Scope R_scope.

(* ------------------------------------------------------------------ improper integrals over [0, infinity) *)
Definition imp (f : R -> R) (l : R) : Prop := exists F : R -> R, (forall x, 0 <= x -> is_RInt f 0 x (F x)) /\ is_lim F p_infty l.
Lemma imp_gen f l : imp f l -> is_RInt_gen f (at_point 0) (Rbar_locally p_infty) l.
Proof.
  intros [F [HF HL]] P HP. assert (H := HL P HP). destruct H as [M HM]. cbn in HM.
  exists (fun x => x = 0) (fun x => Rmax 0 M < x).
  - reflexivity.
  - exists (Rmax 0 M). auto.
  - intros x y -> Hy. exists (F y). split.
    + cbn. apply HF. pose proof (Rmax_l 0 M). lra.
    + apply HM. pose proof (Rmax_r 0 M). lra.
Qed.
Lemma imp_RInt_gen f l : imp f l -> RInt_gen f (at_point 0) (Rbar_locally p_infty) = l.
Proof. intros H. exact (is_RInt_gen_unique (V := R_CompleteNormedModule) f l (imp_gen f l H)). Qed.
Lemma imp_ext f g l : (forall x, f x = g x) -> imp f l -> imp g l.
Proof. intros H [F [HF HL]]. exists F. split; auto. intros x Hx. eapply (is_RInt_ext (V := R_NormedModule)); [|exact (HF x Hx)]. intros; apply H. Qed.
Lemma imp_scal c f l : imp f l -> imp (fun x => c * f x) (c * l).
Proof.
  intros [F [HF HL]]. exists (fun x => c * F x). split; [intros x Hx; apply is_RInt_scalR; auto|].
  exact (is_lim_scal_l F c p_infty l HL).
Qed.
Lemma imp_plus f g l m : imp f l -> imp g m -> imp (fun x => f x + g x) (l + m).
Proof.
  intros [F [HF HL]] [G [HG HM]]. exists (fun x => F x + G x). split.
  - intros x Hx. apply (is_RInt_plus (V := R_NormedModule)); auto.
  - apply is_lim_plus'; auto.
Qed.
Lemma imp_0 : imp (fun _ => 0) 0.
Proof.
  exists (fun _ => 0). split; [|apply is_lim_const]. intros x _. assert (E := is_RInt_const (V := R_NormedModule) 0 x 0).
  replace (scal (x - 0) (0 : R_NormedModule)) with 0 in E; auto. unfold scal; cbn; unfold mult; cbn. ring.
Qed.
Lemma imp_Rsum {A} (f : A -> R -> R) (g : A -> R) l : (forall a, In a l -> imp (f a) (g a)) ->
  imp (fun x => Rsum (map (fun a => f a x) l)) (Rsum (map g l)).
Proof.
  induction l as [|a l IH]; intros H; [apply imp_0|]. cbn [map Rsum]. apply imp_plus; [apply H; left; auto|apply IH; intros; apply H; right; auto].
Qed.
(** integration by parts: F' = f with F -> 0 at infinity *)
Lemma imp_derive (F f : R -> R) : (forall x, is_derive F x (f x)) -> (forall x, continuous f x) -> is_lim F p_infty 0 -> imp f (- F 0).
Proof.
  intros HD HC HL. exists (fun x => F x - F 0). split.
  - intros x Hx. apply (is_RInt_derive (V := R_CompleteNormedModule) F f); intros; auto.
  - replace (- F 0) with (0 - F 0) by ring. apply is_lim_minus'; auto. apply is_lim_const.
Qed.

Lemma exp_INR_mult y m : exp (INR m * y) = exp y ^ m.
Proof.
  induction m as [|m IH]; [cbn; rewrite Rmult_0_l; apply exp_0|]. rewrite S_INR. cbn [pow]. rewrite <- IH, <- exp_plus. f_equal. ring.
Qed.
Lemma pow_le_exp a x : 0 <= x -> x ^ S a <= INR (S a) ^ S a * exp x.
Proof.
  intros Hx. assert (Hp : 0 < INR (S a)) by (apply lt_0_INR; lia).
  assert (E : exp x = exp (x / INR (S a)) ^ S a) by (rewrite <- exp_INR_mult; f_equal; field; lra).
  rewrite E, <- Rpow_mult_distr. apply pow_incr. split; auto.
  assert (1 + x / INR (S a) <= exp (x / INR (S a))).
  { destruct (Rle_lt_or_eq_dec 0 x Hx) as [H|<-].
    - left. apply exp_ineq1. apply Rgt_not_eq. apply Rdiv_lt_0_compat; auto.
    - unfold Rdiv. rewrite Rmult_0_l, exp_0. lra. }
  apply (Rmult_le_compat_l (INR (S a))) in H; [|lra]. 
  replace (INR (S a) * (1 + x / INR (S a))) with (INR (S a) + x) in H by (field; lra). lra.
Qed.
Lemma lim_pow_exp a : is_lim (fun x => x ^ a * exp (- x)) p_infty 0.
Proof.
  apply (is_lim_le_le_loc (fun _ => 0) (fun x => INR (S a) ^ S a * / x)).
  - exists 0. intros x Hx. split.
    + apply Rmult_le_pos; [apply pow_le; lra|left; apply exp_pos].
    + assert (H := pow_le_exp a x ltac:(lra)). apply (Rmult_le_reg_l x); auto.
      replace (x * (INR (S a) ^ S a * / x)) with (INR (S a) ^ S a) by (field; lra).
      apply (Rmult_le_reg_r (exp x)); [apply exp_pos|]. rewrite exp_Ropp. cbn [pow] in *.
      replace (x * (x ^ a * / exp x) * exp x) with (x * x ^ a) by (field; apply Rgt_not_eq, exp_pos). lra.
  - apply is_lim_const.
  - assert (E := is_lim_scal_l (fun x => / x) (INR (S a) ^ S a) p_infty 0). cbn in E. rewrite Rmult_0_r in E. apply E.
    apply (is_lim_inv (fun x => x) p_infty p_infty); [apply is_lim_id|discriminate].
Qed.
Lemma lim_pow_exp2 a : is_lim (fun x => x ^ a * exp (- (x * x))) p_infty 0.
Proof.
  apply (is_lim_le_le_loc (fun _ => 0) (fun x => x ^ a * exp (- x))).
  - exists 1. intros x Hx. split.
    + apply Rmult_le_pos; [apply pow_le; lra|left; apply exp_pos].
    + apply Rmult_le_compat_l; [apply pow_le; lra|]. assert (- (x * x) < - x) by nra. left. apply exp_increasing. auto.
  - apply is_lim_const.
  - apply lim_pow_exp.
Qed.

(* ------------------------------------------------------------------ exp(-r) *)
Lemma imp_exp a : imp (fun r => r ^ a * exp (- r)) (INR (fact a)).
Proof.
  induction a as [|a IH].
  - apply (imp_ext (fun x => exp (- x))); [intros; cbn; ring|]. replace (INR (fact 0)) with (- (- exp (- 0))) by (rewrite Ropp_0, exp_0; cbn; ring).
    apply (imp_derive (fun x => - exp (- x))).
    + intros x. auto_derive; auto. ring.
    + intros x. apply (ex_derive_continuous (fun x : R => exp (- x))). auto_derive. auto.
    + assert (E := is_lim_opp _ p_infty 0 (lim_pow_exp 0)). cbn in E. rewrite Ropp_0 in E. eapply is_lim_ext; [|exact E]. intros; cbn; ring.
  - assert (H : imp (fun x => x ^ S a * exp (- x) - INR (S a) * (x ^ a * exp (- x))) (- - (0 ^ S a * exp (- 0)))).
    { apply (imp_derive (fun x => - (x ^ S a * exp (- x)))).
      + intros x. auto_derive; auto. cbn [pred pow]. replace (match a with 0%nat => 1 | S _ => INR a + 1 end) with (INR (S a)) by reflexivity. ring.
      + intros x. apply (ex_derive_continuous (fun x : R => x ^ S a * exp (- x) - INR (S a) * (x ^ a * exp (- x)))). auto_derive. auto.
      + assert (E := is_lim_opp _ p_infty 0 (lim_pow_exp (S a))). cbn [Rbar_opp] in E. rewrite Ropp_0 in E. exact E. }
    assert (G := imp_plus _ _ _ _ H (imp_scal (INR (S a)) _ _ IH)). rewrite pow_i in G by lia.
    replace (- - (0 * exp (- 0)) + INR (S a) * INR (fact a)) with (INR (fact (S a))) in G by (rewrite fact_simpl, mult_INR; ring).
    eapply imp_ext; [|exact G]. intros; cbn beta. ring.
Qed.

(* ------------------------------------------------------------------ exp(-r^2) *)
Lemma imp_bounded (f : R -> R) (M : R) : (forall x, continuous f x) -> (forall x, 0 < f x) ->
  (forall x, 0 <= x -> RInt f 0 x <= M) -> exists l, 0 < l /\ imp f l.
Proof.
  intros HC HP HM.
  assert (HI : forall a b, ex_RInt f a b) by (intros a b; apply (ex_RInt_continuous (V := R_CompleteNormedModule)); auto).
  assert (HC' : forall a b, RInt f 0 a + RInt f a b = RInt f 0 b) by (intros a b; exact (RInt_Chasles (V := R_CompleteNormedModule) f 0 a b (HI _ _) (HI _ _))).
  assert (Mono : forall x y, x <= y -> RInt f 0 x <= RInt f 0 y).
  { intros x y H. rewrite <- (HC' x y). assert (0 <= RInt f x y); [|lra]. apply RInt_ge_0; auto. intros; left; auto. }
  destruct (completeness (fun v => exists x, 0 <= x /\ v = RInt f 0 x)) as [l [Hub Hl]].
  - exists M. intros v [x [Hx ->]]. auto.
  - exists (RInt f 0 0), 0. split; [lra|auto].
  - exists l. split.
    + assert (0 < RInt f 0 1) by (apply RInt_gt_0; [lra|intros; auto|intros; auto]). assert (RInt f 0 1 <= l); [|lra]. apply Hub. exists 1. split; [lra|auto].
    + exists (fun x => RInt f 0 x). split; [intros x _; apply (RInt_correct (V := R_CompleteNormedModule)); auto|].
      apply is_lim_spec. intros eps. unfold is_lim', Rbar_locally'.
      assert (HX : exists x, 0 <= x /\ l - eps < RInt f 0 x).
      { apply Classical_Prop.NNPP. intros Hn. assert (l <= l - eps); [|destruct eps; cbn in *; lra]. apply Hl. intros v [x [Hx ->]].
        destruct (Rle_lt_dec (RInt f 0 x) (l - eps)); auto. exfalso. apply Hn. exists x. auto. }
      destruct HX as [x [Hx Hl2]]. exists x. intros y Hy. assert (RInt f 0 y <= l) by (apply Hub; exists y; split; [lra|auto]).
      assert (RInt f 0 x <= RInt f 0 y) by (apply Mono; lra). rewrite Rabs_left1 by lra. lra.
Qed.
Lemma imp_gauss0 : exists l, 0 < l /\ imp (fun r => r ^ 0 * exp (- (r * r))) l.
Proof.
  destruct (imp_bounded (fun r => exp (- (r * r))) (exp (1 / 4))) as [l [Hp Hl]].
  - intros x. apply (ex_derive_continuous (fun x : R => exp (- (x * x)))). auto_derive. auto.
  - intros; apply exp_pos.
  - intros x Hx.
    assert (HB : is_RInt (fun r => exp (1 / 4) * exp (- r)) 0 x (exp (1 / 4) * (- exp (- x) - - exp (- 0)))).
    { apply is_RInt_scalR. apply (is_RInt_derive (V := R_CompleteNormedModule) (fun r => - exp (- r))).
      + intros r _. auto_derive; auto. ring.
      + intros r _. apply (ex_derive_continuous (fun x : R => exp (- x))). auto_derive. auto. }
    apply Rle_trans with (exp (1 / 4) * (- exp (- x) - - exp (- 0))).
    + rewrite <- (is_RInt_unique (V := R_CompleteNormedModule) _ _ _ _ HB). apply RInt_le; auto.
      * apply (ex_RInt_continuous (V := R_CompleteNormedModule)). intros r _. apply (ex_derive_continuous (fun x : R => exp (- (x * x)))). auto_derive. auto.
      * exists (exp (1 / 4) * (- exp (- x) - - exp (- 0))). exact HB.
      * intros r _. rewrite <- exp_plus. pose proof (Rle_0_sqr (r - 1 / 2)) as Q. unfold Rsqr in Q. destruct (Rle_lt_or_eq_dec (- (r * r)) (1 / 4 + - r)) as [H|H]; [lra|left; apply exp_increasing; auto|right; f_equal; auto].
    + rewrite Ropp_0, exp_0. pose proof (exp_pos (- x)). pose proof (exp_pos (1 / 4)). nra.
  - exists l. split; auto. eapply imp_ext; [|exact Hl]. intros; cbn; ring.
Qed.
Lemma imp_gauss1 : imp (fun r => r ^ 1 * exp (- (r * r))) (1 / 2).
Proof.
  replace (1 / 2) with (- (- (1 / 2) * exp (- (0 * 0)))) by (rewrite Rmult_0_l, Ropp_0, exp_0; field).
  apply (imp_derive (fun x => - (1 / 2) * exp (- (x * x)))).
  - intros x. auto_derive; auto. field.
  - intros x. apply (ex_derive_continuous (fun x : R => x ^ 1 * exp (- (x * x)))). auto_derive. auto.
  - assert (E := is_lim_scal_l _ (- (1 / 2)) p_infty 0 (lim_pow_exp2 0)). cbn [Rbar_mult] in E. 
    assert (Z : Rbar_mult (- (1 / 2)) 0 = 0) by (cbn; f_equal; ring). cbn in E, Z. rewrite Rmult_0_r in E. eapply is_lim_ext; [|exact E]. intros; cbn; ring.
Qed.
Lemma imp_gauss_step a l : imp (fun r => r ^ a * exp (- (r * r))) l -> imp (fun r => r ^ (a + 2) * exp (- (r * r))) (INR (a + 1) / 2 * l).
Proof.
  intros IH. assert (H : imp (fun x => x ^ (a + 2) * exp (- (x * x)) - INR (a + 1) / 2 * (x ^ a * exp (- (x * x)))) (- (- (1 / 2) * (0 ^ S a * exp (- (0 * 0)))))).
  { apply (imp_derive (fun x => - (1 / 2) * (x ^ S a * exp (- (x * x))))).
    + intros x. auto_derive; auto. rewrite pow_add. cbn [pred]. replace (INR (a + 1)) with (INR (S a)) by (f_equal; lia). cbn [pow]. 
      change (match a with 0%nat => 1 | S _ => INR a + 1 end) with (INR (S a)). field.
    + intros x. apply (ex_derive_continuous (fun x : R => x ^ (a + 2) * exp (- (x * x)) - INR (a + 1) / 2 * (x ^ a * exp (- (x * x))))). auto_derive. auto.
    + assert (E := is_lim_scal_l _ (- (1 / 2)) p_infty 0 (lim_pow_exp2 (S a))).
      assert (Z : Rbar_mult (- (1 / 2)) 0 = 0) by (cbn; f_equal; ring). rewrite Z in E. exact E. }
  assert (G := imp_plus _ _ _ _ H (imp_scal (INR (a + 1) / 2) _ _ IH)). rewrite pow_i in G by lia.
  replace (- (- (1 / 2) * (0 * exp (- (0 * 0)))) + INR (a + 1) / 2 * l) with (INR (a + 1) / 2 * l) in G by ring.
  eapply imp_ext; [|exact G]. intros; cbn beta. ring.
Qed.
(** int_0^oo r^a exp(-r^2) dr, with its recurrence *)
Lemma gauss_moments : exists G : nat -> R, (forall a, 0 < G a /\ imp (fun r => r ^ a * exp (- (r * r))) (G a)) /\ (forall a, G (a + 2)%nat = INR (a + 1) / 2 * G a).
Proof.
  destruct imp_gauss0 as [l0 [P0 H0]]. pose (G := fix G (a : nat) : R := match a with O => l0 | S O => 1 / 2 | S (S b) => INR (b + 1) / 2 * G b end).
  assert (HS : forall a, G (a + 2)%nat = INR (a + 1) / 2 * G a) by (intros a; replace (a + 2)%nat with (S (S a)) by lia; reflexivity).
  exists G. split; auto. intros a. induction a as [a IH] using (well_founded_induction lt_wf).
  destruct a as [|[|a]]; [split; [exact P0|exact H0]|split; [cbn; lra|exact imp_gauss1]|].
  replace (S (S a)) with (a + 2)%nat by lia. destruct (IH a ltac:(lia)) as [P H]. rewrite HS. split; [|apply imp_gauss_step; auto].
  apply Rmult_lt_0_compat; auto. assert (0 < INR (a + 1)) by (apply lt_0_INR; lia). lra.
Qed.

(* ------------------------------------------------------------------ radial integrals of polynomials *)
Theorem radial_int_mpeval w G n p : (forall a, imp (fun r => r ^ a * w r) (G a)) -> List.Forall (fun ck => length (snd ck) = S n) p ->
  radial_int w (S n) (mpeval p) = Rsum (map (fun ck => fst ck * (sph (snd ck) * G (n + tdeg (snd ck))%nat)) p).
Proof.
  intros HG Hp. apply imp_RInt_gen. rewrite Forall_forall in Hp.
  apply (imp_ext (fun r => Rsum (map (fun ck => fst ck * sph (snd ck) * (r ^ (n + tdeg (snd ck)) * w r)) p))).
  - intros r. rewrite (sphere_int_ext _ _ (mpeval (map (fun ck => (fst ck * r ^ tdeg (snd ck), snd ck)) p))).
    + rewrite sphere_int_mpeval.
      * rewrite map_map, <- Rsum_map_scal. apply Rsum_map_ext. intros [c k] _. cbn [fst snd]. rewrite pow_add. replace (S n - 1)%nat with n by lia. ring.
      * apply Forall_forall. intros ck Hc. apply in_map_iff in Hc. destruct Hc as [[c k] [<- Hc]]. exact (Hp _ Hc).
    + intros x Hx. unfold mpeval. rewrite map_map. apply Rsum_map_ext. intros [c k] Hk. apply Hp in Hk. cbn [fst snd] in *.
      rewrite mono_scale by congruence. ring.
  - replace (Rsum (map (fun ck => fst ck * (sph (snd ck) * G (n + tdeg (snd ck))%nat)) p)) with (Rsum (map (fun ck => fst ck * sph (snd ck) * G (n + tdeg (snd ck))%nat) p))
      by (apply Rsum_map_ext; intros; ring).
    apply (imp_Rsum (fun ck r => fst ck * sph (snd ck) * (r ^ (n + tdeg (snd ck)) * w r))). intros ck _. apply imp_scal. apply HG.
Qed.
Lemma mpeval_1 n x : length x = n -> mpeval [(1, repeat 0%nat n)] x = 1.
Proof.
  intros H. unfold mpeval. cbn [map Rsum fst snd]. replace (mono (repeat 0%nat n) x) with 1; [ring|].
  symmetry. revert n H. induction x as [|a x IH]; intros [|n] H; try discriminate; auto. cbn [repeat mono]. rewrite IH by (cbn in H; lia). cbn. ring.
Qed.
Lemma mpeval_k k x : mpeval [(1, k)] x = mono k x.
Proof. unfold mpeval. cbn. ring. Qed.
Lemma sphere_int_1 n : sphere_int (S n) (fun _ => 1) = sph0 (S n).
Proof.
  rewrite (sphere_int_ext _ _ (mpeval [(1, repeat 0%nat (S n))])) by (intros; rewrite mpeval_1; auto).
  rewrite sphere_int_mpeval; [unfold sph0; cbn [map Rsum fst snd]; ring|]. repeat constructor. cbn [snd]. apply repeat_length.
Qed.
Lemma sphere_int_k n k : length k = S n -> sphere_int (S n) (mono k) = sph k.
Proof.
  intros Hk. rewrite (sphere_int_ext _ _ (mpeval [(1, k)])) by (intros; rewrite mpeval_k; auto).
  rewrite sphere_int_mpeval; [cbn [map Rsum fst snd]; ring|]. repeat constructor. auto.
Qed.
Lemma ball_int_1 n : ball_int n 1 (fun _ => 1) = bal0 n.
Proof.
  rewrite (ball_int_ext _ _ _ (mpeval [(1, repeat 0%nat n)])) by (intros; rewrite mpeval_1; auto).
  rewrite ball_int_mpeval; [unfold bal0; cbn [map Rsum fst snd]; rewrite pow1; ring|lra|]. repeat constructor. cbn [snd]. apply repeat_length.
Qed.
Lemma ball_int_k n k : length k = n -> ball_int n 1 (mono k) = bal k.
Proof.
  intros Hk. rewrite (ball_int_ext _ _ _ (mpeval [(1, k)])) by (intros; rewrite mpeval_k; auto).
  rewrite ball_int_mpeval; [cbn [map Rsum fst snd]; rewrite pow1; ring|lra|]. repeat constructor. auto.
Qed.
Lemma radial_int_ext w n f g : (forall x, length x = n -> f x = g x) -> ex_RInt_gen (fun r => r ^ (n - 1) * w r * sphere_int n (fun y => f (map (Rmult r) y))) (at_point 0) (Rbar_locally p_infty) ->
  radial_int w n f = radial_int w n g.
Proof.
  intros H He. unfold radial_int. apply RInt_gen_ext_eq; auto. intros r. f_equal. apply sphere_int_ext. intros x Hx. apply H. rewrite map_length. auto.
Qed.
Lemma radial_int_ext' w n f g : (forall x, length x = n -> f x = g x) -> radial_int w n f = radial_int w n g.
Proof.
  intros H. unfold radial_int. f_equal. apply FunctionalExtensionality.functional_extensionality. intros r. f_equal. apply sphere_int_ext. intros x Hx. apply H. rewrite map_length. auto.
Qed.
Lemma radial_int_1 w G n : (forall a, imp (fun r => r ^ a * w r) (G a)) -> radial_int w (S n) (fun _ => 1) = sph0 (S n) * G n.
Proof.
  intros HG. rewrite (radial_int_ext' _ _ _ (mpeval [(1, repeat 0%nat (S n))])) by (intros; rewrite mpeval_1; auto).
  rewrite (radial_int_mpeval w G) by (auto; repeat constructor; cbn [snd]; apply repeat_length). unfold sph0. cbn [map Rsum fst snd].
  rewrite tdeg_repeat0, Nat.add_0_r. ring.
Qed.
Lemma radial_int_k w G n k : (forall a, imp (fun r => r ^ a * w r) (G a)) -> length k = S n -> radial_int w (S n) (mono k) = sph k * G (n + tdeg k)%nat.
Proof.
  intros HG Hk. rewrite (radial_int_ext' _ _ _ (mpeval [(1, k)])) by (intros; rewrite mpeval_k; auto).
  rewrite (radial_int_mpeval w G) by (auto; repeat constructor; auto). cbn [map Rsum fst snd]. ring.
Qed.

(* ------------------------------------------------------------------ the four functionals *)
Definition sphereI (n : nat) (k : list nat) : R := sphere_mean n (mono k).
Definition ballI (n : nat) (k : list nat) : R := ball_mean n (mono k).
Definition enrI (n : nat) (k : list nat) : R := enr_mean n (mono k).
Definition enr2I (n : nat) (k : list nat) : R := enr2_mean n (mono k).
(** prod (l_i - 1)!! * h(|l|/2), 0 if some l_i is odd *)
Definition rmoment (h : nat -> R) (l : list nat) : R := if existsb Nat.odd l then 0 else Rprod (map df l) * h (tdeg l / 2)%nat.
Definition h_sphere (n : nat) (m : nat) : R := / rise (INR n) m.
Definition h_ball (n : nat) (m : nat) : R := / rise (INR n + 2) m.
Definition h_enr (n : nat) (m : nat) : R := INR (fact (n - 1 + 2 * m)) / INR (fact (n - 1)) / rise (INR n) m.
Definition h_enr2 (n : nat) (m : nat) : R := / 2 ^ m.

Lemma rmoment_perm h l l' : Permutation l l' -> rmoment h l = rmoment h l'.
Proof.
  intros H. unfold rmoment. assert (E : existsb Nat.odd l = existsb Nat.odd l').
  { apply eq_true_iff_eq. rewrite !existsb_exists. split; intros [x [Hx Ho]]; exists x; split; auto; [eapply Permutation_in; eauto|eapply Permutation_in; [apply Permutation_sym|]; eauto]. }
  rewrite E. destruct (existsb Nat.odd l'); auto. rewrite (tdeg_perm l l' H). f_equal. apply Rprod_perm. apply Permutation_map. auto.
Qed.
Lemma rmoment_zeros h l m : rmoment h (l ++ repeat 0%nat m) = rmoment h l.
Proof.
  unfold rmoment. assert (E : existsb Nat.odd (repeat 0%nat m) = false) by (induction m; auto). rewrite existsb_app, E, orb_false_r.
  destruct (existsb Nat.odd l); auto. rewrite map_app, Rprod_app. replace (Rprod (map df (repeat 0%nat m))) with 1 by (induction m as [|m IH]; auto; cbn; rewrite <- IH; [ring|clear -E; destruct m; auto]).
  replace (tdeg (l ++ repeat 0%nat m)) with (tdeg l); [ring|]. unfold tdeg. rewrite list_sum_app. fold (tdeg (repeat 0%nat m)). rewrite tdeg_repeat0. lia.
Qed.
Lemma rmoment_fs n h I : (forall k, length k = n -> I k = rmoment h k) -> fs_functional n I (rmoment h).
Proof.
  intros H. split; [|split].
  - intros k k' Hp Hk. rewrite !H; auto; [apply rmoment_perm; auto|]. rewrite <- (Permutation_length Hp). auto.
  - intros k Hk Ho. rewrite H by auto. unfold rmoment. rewrite Ho. auto.
  - intros l m Hn. rewrite H by (rewrite app_length, repeat_length; auto). apply rmoment_zeros.
Qed.
Lemma sph_closed k : k <> [] -> sph k = sph0 (length k) * rmoment (h_sphere (length k)) k.
Proof.
  intros Hk. unfold rmoment, h_sphere. destruct (existsb Nat.odd k) eqn:E; [rewrite sph_odd by auto; ring|].
  assert (H := sph_even k Hk (not_all_even k E)). assert (0 < INR (length k)) by (apply lt_0_INR; destruct k; [congruence|cbn; lia]).
  assert (0 < rise (INR (length k)) (tdeg k / 2)) by (apply rise_pos; auto).
  apply (Rmult_eq_reg_r (rise (INR (length k)) (tdeg k / 2))); [|lra]. rewrite H. field. lra.
Qed.
Lemma bal_closed k : bal k = bal0 (length k) * rmoment (h_ball (length k)) k.
Proof.
  unfold rmoment, h_ball. destruct (existsb Nat.odd k) eqn:E; [rewrite bal_odd by auto; ring|].
  assert (H := bal_even k (not_all_even k E)). assert (0 <= INR (length k)) by apply pos_INR.
  assert (0 < rise (INR (length k) + 2) (tdeg k / 2)) by (apply rise_pos; lra).
  apply (Rmult_eq_reg_r (rise (INR (length k) + 2) (tdeg k / 2))); [|lra]. rewrite H. field. lra.
Qed.
Theorem sphereI_val n k : (1 <= n)%nat -> length k = n -> sphereI n k = rmoment (h_sphere n) k.
Proof.
  intros Hn Hk. destruct n as [|n]; [lia|]. unfold sphereI, sphere_mean. rewrite sphere_int_1, sphere_int_k, sph_closed, Hk by (auto; intros ->; discriminate).
  field. apply Rgt_not_eq, sph0_pos.
Qed.
Theorem ballI_val n k : length k = n -> ballI n k = rmoment (h_ball n) k.
Proof. intros Hk. unfold ballI, ball_mean. rewrite ball_int_1, ball_int_k, bal_closed, Hk by auto. field. apply Rgt_not_eq, bal0_pos. Qed.
Lemma radialI_val w G n k : (forall a, 0 < G a /\ imp (fun r => r ^ a * w r) (G a)) -> length k = S n ->
  radial_mean w (S n) (mono k) = rmoment (fun m => G (n + 2 * m)%nat / G n / rise (INR (S n)) m) k.
Proof.
  intros HG Hk. unfold radial_mean. rewrite (radial_int_1 w G), (radial_int_k w G), sph_closed, Hk by (auto; try (intros ->; discriminate); intros; apply HG).
  pose proof (sph0_pos n). pose proof (proj1 (HG n)). unfold rmoment, h_sphere. destruct (existsb Nat.odd k) eqn:E; [field; lra|].
  destruct (all_even_tdeg k (not_all_even k E)) as [j Hj]. rewrite Hj, half_double.
  assert (0 < rise (INR (S n)) j) by (apply rise_pos, lt_0_INR; lia). field. repeat split; lra.
Qed.
Theorem enrI_val n k : (1 <= n)%nat -> length k = n -> enrI n k = rmoment (h_enr n) k.
Proof.
  intros Hn Hk. destruct n as [|n]; [lia|]. unfold enrI, enr_mean. rewrite (radialI_val _ (fun a => INR (fact a))); auto.
  - unfold h_enr. replace (S n - 1)%nat with n by lia. auto.
  - intros a. split; [apply INR_fact_lt_0|apply imp_exp].
Qed.
Theorem enr2I_val n k : (1 <= n)%nat -> length k = n -> enr2I n k = rmoment (h_enr2 n) k.
Proof.
  intros Hn Hk. destruct n as [|n]; [lia|]. unfold enr2I, enr2_mean. destruct gauss_moments as [G [HG HS]]. rewrite (radialI_val _ G); auto.
  unfold rmoment. destruct (existsb Nat.odd k); auto. f_equal. unfold h_enr2. generalize (tdeg k / 2)%nat as m.
  assert (HR : forall m, G (n + 2 * m)%nat * 2 ^ m = rise (INR (S n)) m * G n).
  { induction m as [|m IH]; [cbn; rewrite Nat.add_0_r; ring|]. replace (n + 2 * S m)%nat with (n + 2 * m + 2)%nat by lia. rewrite HS, rise_S. cbn [pow].
    transitivity (INR (n + 2 * m + 1) * (G (n + 2 * m)%nat * 2 ^ m)); [field|]. rewrite IH, S_INR, !plus_INR, mult_INR. cbn [INR]. ring. }
  intros m. assert (0 < rise (INR (S n)) m) by (apply rise_pos, lt_0_INR; lia). assert (0 < 2 ^ m) by (apply pow_lt; lra). pose proof (proj1 (HG n)).
  apply (Rmult_eq_reg_r (2 ^ m)); [|lra]. transitivity (G (n + 2 * m)%nat * 2 ^ m / G n / rise (INR (S n)) m); [field; repeat split; lra|]. rewrite HR. field. repeat split; lra.
Qed.
Lemma sphere_fs n : (1 <= n)%nat -> fs_functional n (sphereI n) (rmoment (h_sphere n)).
Proof. intros H. apply rmoment_fs. intros. apply sphereI_val; auto. Qed.
Lemma ball_fs n : fs_functional n (ballI n) (rmoment (h_ball n)).
Proof. apply rmoment_fs. intros. apply ballI_val; auto. Qed.
Lemma enr_fs n : (1 <= n)%nat -> fs_functional n (enrI n) (rmoment (h_enr n)).
Proof. intros H. apply rmoment_fs. intros. apply enrI_val; auto. Qed.
Lemma enr2_fs n : (1 <= n)%nat -> fs_functional n (enr2I n) (rmoment (h_enr2 n)).
Proof. intros H. apply rmoment_fs. intros. apply enr2I_val; auto. Qed.
