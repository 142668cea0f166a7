(** Legendre, Laguerre and Hermite weights. *)
From Coq Require Import Reals List Arith ZArith Lia Lra Sorted.
From Coquelicot Require Import Coquelicot.
From Verif Require Import Spec Spec1 RsumLemmas AdaptModel PyBase UnModel C1Tools Interp C1Model C1Proofs GwSpec GwProofs GwExist GwModel GwRc GwRadau GwJacobi IntegralProofs RadialInt GaussInt WeightSpec GwInt.
Import ListNotations.
Set Bullet Behavior "Strict Subproofs".
Open Scope R_scope.

Lemma lmonic_mu_ext a b mu mu' k : (forall j, mu j = mu' j) -> forall m, lmonic a b mu k m = lmonic a b mu' k m.
Proof.
  intros H. assert (G : forall k, (forall m, lmonic a b mu k m = lmonic a b mu' k m) /\ (forall m, lmonic a b mu (S k) m = lmonic a b mu' (S k) m)).
  { clear k. induction k as [|k [IH1 IH2]]; [split; intros m; cbn [lmonic]; rewrite ?H; auto|]. split; auto. intros m. rewrite !lmonic_SS, !IH2, IH1. auto. }
  apply G.
Qed.
(* ------------------------------------------------------------------ Legendre *)
Lemma leg_alpha k : jacobi_alpha 0 0 k = 0.
Proof. destruct k; cbn [jacobi_alpha]; unfold Rdiv; ring. Qed.
Lemma leg_beta k : (0 < k)%nat -> jacobi_beta 0 0 k = INR k ^ 2 / (4 * INR k ^ 2 - 1).
Proof.
  intros H. destruct k as [|[|k]]; [lia| |]; cbn [jacobi_beta].
  - change (INR 1) with 1. field.
  - assert (P := pos_INR k). rewrite !S_INR. field. repeat split; try lra. nra.
Qed.
Lemma pow_int_gen k : is_RInt_gen (fun x => x ^ k) (at_right (-1)) (at_left 1) (pow_int k).
Proof.
  assert (E : pow_int k = 1 ^ S k / INR (S k) - (-1) ^ S k / INR (S k)).
  { rewrite <- RInt_xpow. apply (is_RInt_unique (V := R_CompleteNormedModule)). apply (is_RInt_derive (V := R_CompleteNormedModule) (fun x => x ^ S k / INR (S k))).
    - intros x _. auto_derive; auto. change (Init.Nat.pred (S k)) with k. change (match k with 0%nat => 1 | S _ => INR k + 1 end) with (INR (S k)). rewrite S_INR. assert (P := pos_INR k). field. lra.
    - intros x _. apply (ex_derive_continuous (fun x => x ^ k)). auto_derive; auto. }
  assert (C : forall x, continuous (fun x => x ^ S k / INR (S k)) x) by (intros x; apply (ex_derive_continuous (fun x => x ^ S k / INR (S k))); auto_derive; auto).
  rewrite E. apply (gen_derive _ _ _ _ jD jDa jDb jDc (fun x => x ^ S k / INR (S k))).
  - intros x _. auto_derive; auto. change (Init.Nat.pred (S k)) with k. change (match k with 0%nat => 1 | S _ => INR k + 1 end) with (INR (S k)). rewrite S_INR. assert (P := pos_INR k). field. lra.
  - intros x _. apply (ex_derive_continuous (fun x => x ^ k)). auto_derive; auto.
  - apply (lim_at_right (fun x => x ^ S k / INR (S k))). apply C.
  - apply (lim_at_left (fun x => x ^ S k / INR (S k))). apply C.
Qed.
Lemma jw_00 x : jD x -> Rpower (1 - x) 0 * Rpower (1 + x) 0 = 1.
Proof. intros [H1 H2]. rewrite !Rpower_O by lra. ring. Qed.
Theorem legendre_good : good_rc legendre_rc pow_int.
Proof.
  assert (P0 : pow_int 0 = 2) by (rewrite <- RInt_xpow; cbn [pow]; rewrite RInt_const; unfold scal; cbn; unfold mult; cbn; ring).
  assert (H : forall k, jacobi_int 0 0 (fun x => x ^ k) (pow_int k)).
  { intros k. unfold jacobi_int. eapply j_ext; [|apply pow_int_gen]. intros x Hx. cbn beta. rewrite jw_00 by auto. ring. }
  assert (H2 : jacobi_int 0 0 (fun _ => 1) 2) by (assert (E := H 0%nat); rewrite P0 in E; exact E).
  destruct (jacobi_good 0 0 2 ltac:(lra) ltac:(lra) H2) as [mu [[Hb [Hm [Hi HO]]] HM]].
  assert (E : forall k, mu k = pow_int k).
  { intros k. assert (E1 := is_RInt_gen_unique (V := R_CompleteNormedModule) _ _ (HM k)). assert (E2 := is_RInt_gen_unique (V := R_CompleteNormedModule) _ _ (H k)). cbn beta in E1, E2. rewrite <- E1. exact E2. }
  unfold good_rc. cbn [rc_alpha rc_beta rc_int legendre_rc jacobi_rc] in *. split; [|split; [|split]]; auto.
  - intros k Hk. rewrite <- leg_beta by auto. auto.
  - intros n k m Hk. assert (O := HO n k m Hk). etransitivity; [|exact O]. rewrite (lmonic_mu_ext _ _ mu pow_int) by auto. apply lmonic_ext.
    + intros i Hi'. symmetry. apply leg_alpha.
    + intros i Hi'. symmetry. apply leg_beta. lia.
Qed.

(* ------------------------------------------------------------------ falling factorials *)
Fixpoint ff (k m : nat) : R := match k with O => 1 | S k' => ff k' m * (INR m - INR k') end.
Lemma ff_S k m : ff (S k) (S m) = (INR m + 1) * ff k m.
Proof.
  induction k as [|k IH]; [cbn [ff]; rewrite S_INR; change (INR 0) with 0; ring|].
  change (ff (S (S k)) (S m)) with (ff (S k) (S m) * (INR (S m) - INR (S k))). rewrite IH. cbn [ff]. rewrite !S_INR. ring.
Qed.
Lemma ff_0 k m : (m < k)%nat -> ff k m = 0.
Proof.
  induction k as [|k IH]; intros H; [lia|]. cbn [ff]. destruct (Nat.eq_dec m k) as [->|N]; [ring|]. rewrite IH by lia. ring.
Qed.

(* ------------------------------------------------------------------ Laguerre *)
Lemma laguerre_lmonic a I mu : (forall m, mu (S m) = (a + INR m + 1) * mu m) -> forall k,
  (forall m, lmonic (rc_alpha (laguerre_rc a I)) (rc_beta (laguerre_rc a I)) mu k m = ff k m * mu m) /\ (forall m, lmonic (rc_alpha (laguerre_rc a I)) (rc_beta (laguerre_rc a I)) mu (S k) m = ff (S k) m * mu m).
Proof.
  intros H. induction k as [|k [IH1 IH2]].
  - split; intros m; cbn [lmonic ff rc_alpha laguerre_rc]; rewrite ?H; change (INR 0) with 0; ring.
  - split; auto. intros m. rewrite lmonic_SS, !IH2, IH1. rewrite ff_S, H. cbn [ff rc_alpha rc_beta laguerre_rc]. rewrite !S_INR. ring.
Qed.
Theorem laguerre_orthogonal a I mu n : (forall m, mu (S m) = (a + INR m + 1) * mu m) -> orthogonal (rc_alpha (laguerre_rc a I)) (rc_beta (laguerre_rc a I)) mu n.
Proof. intros H k m Hk. destruct (laguerre_lmonic a I mu H k) as [E _]. rewrite E, ff_0 by lia. ring. Qed.

Definition lD (x : R) : Prop := 0 < x.
Lemma lDa : at_right 0 lD. Proof. exists (mkposreal 1 Rlt_0_1). intros y _ Hl. exact Hl. Qed.
Lemma lDb : Rbar_locally p_infty lD. Proof. exists 0. intros x Hx. exact Hx. Qed.
Lemma lDc x y z : lD x -> lD y -> x <= z <= y -> lD z. Proof. unfold lD. lra. Qed.
Definition lw (a x : R) : R := Rpower x a * exp (- x).
Lemma l_ext (f g : R -> R) (l : R) : (forall x, lD x -> f x = g x) -> is_RInt_gen f (at_right 0) (Rbar_locally p_infty) l -> is_RInt_gen g (at_right 0) (Rbar_locally p_infty) l.
Proof. apply (gen_ext _ _ _ _ lD lDa lDb lDc). Qed.
Lemma lw_derive a x : lD x -> is_derive (lw (a + 1)) x ((a + 1) * lw a x - lw (a + 1) x).
Proof.
  intros H. unfold lw. assert (D1 := Rpower_derive (a + 1) x H). replace (a + 1 - 1) with a in D1 by ring.
  replace ((a + 1) * (Rpower x a * exp (- x)) - Rpower x (a + 1) * exp (- x)) with (plus (mult ((a + 1) * Rpower x a) (exp (- x))) (mult (Rpower x (a + 1)) (- exp (- x)))).
  - apply (is_derive_mult (fun x => Rpower x (a + 1)) (fun x => exp (- x))); auto; [auto_derive; auto; ring|intros; apply Rmult_comm].
  - unfold plus, mult; cbn. ring.
Qed.
Lemma lw_cont a x : lD x -> continuous (lw a) x.
Proof. intros H. apply (ex_derive_continuous (lw a)). assert (E := lw_derive (a - 1) x H). replace (a - 1 + 1) with a in E by ring. eexists. exact E. Qed.
Lemma lw_pos a x : 0 < lw a x. Proof. apply Rmult_lt_0_compat; apply exp_pos. Qed.
Lemma Rpower_le_pow a x : 1 <= x -> Rpower x a <= x ^ Z.to_nat (up (Rabs a)).
Proof.
  intros Hx. rewrite <- Rpower_pow by lra. apply Rle_Rpower; auto.
  destruct (archimed (Rabs a)) as [H1 _]. assert (P := Rabs_pos a). assert (Q := Rle_abs a).
  rewrite INR_IZR_INZ, Z2Nat.id; [lra|]. apply le_IZR. lra.
Qed.
Lemma lw_lim_r a : filterlim (lw a) (Rbar_locally p_infty) (locally 0).
Proof.
  assert (L : is_lim (lw a) p_infty 0); [|exact L].
  apply (is_lim_le_le_loc (fun _ => 0) (fun x => x ^ Z.to_nat (up (Rabs a)) * exp (- x))).
  - exists 1. intros x Hx. split; [left; apply lw_pos|]. apply Rmult_le_compat_r; [left; apply exp_pos|]. apply Rpower_le_pow. lra.
  - apply is_lim_const.
  - apply lim_pow_exp.
Qed.
Lemma lw_lim_l a : 0 < a -> filterlim (lw a) (at_right 0) (locally 0).
Proof.
  intros Ha. assert (H : filterlim (lw a) (at_right 0) (locally (0 * exp (- 0)))); [|rewrite Rmult_0_l in H; exact H]. unfold lw. apply lim_mult; [apply within_filter; apply locally_filter| |].
  - apply Rpower_lim0; auto.
  - apply (lim_at_right (fun x => exp (- x))). apply (ex_derive_continuous (fun x => exp (- x))). auto_derive; auto.
Qed.
Lemma lw_parts a : -1 < a -> is_RInt_gen (fun x => (a + 1) * lw a x - lw (a + 1) x) (at_right 0) (Rbar_locally p_infty) 0.
Proof.
  intros Ha. assert (H : is_RInt_gen (fun x => (a + 1) * lw a x - lw (a + 1) x) (at_right 0) (Rbar_locally p_infty) (0 - 0)); [|rewrite Rminus_0_r in H; exact H]. apply (gen_derive _ _ _ _ lD lDa lDb lDc (lw (a + 1))).
  - intros x Hx. apply lw_derive; auto.
  - intros x Hx. apply (continuous_minus (fun x => (a + 1) * lw a x) (lw (a + 1))); [apply (continuous_scal_r (K := R_AbsRing) (V := R_NormedModule))|]; apply lw_cont; auto.
  - apply lw_lim_l. lra.
  - apply lw_lim_r.
Qed.
Lemma lw_up a I : -1 < a -> is_RInt_gen (lw a) (at_right 0) (Rbar_locally p_infty) I -> is_RInt_gen (lw (a + 1)) (at_right 0) (Rbar_locally p_infty) ((a + 1) * I).
Proof.
  intros Ha H. assert (P := gen_lin _ _ _ _ _ _ (-1) (a + 1) _ _ (lw_parts a Ha) H). replace ((a + 1) * I) with (-1 * 0 + (a + 1) * I) by ring. eapply l_ext; [|exact P]. intros; cbn beta. ring.
Qed.
Lemma lw_down a I : -1 < a -> is_RInt_gen (lw (a + 1)) (at_right 0) (Rbar_locally p_infty) I -> is_RInt_gen (lw a) (at_right 0) (Rbar_locally p_infty) (/ (a + 1) * I).
Proof.
  intros Ha H. assert (P := gen_lin _ _ _ _ _ _ (/ (a + 1)) (/ (a + 1)) _ _ (lw_parts a Ha) H). replace (/ (a + 1) * I) with (/ (a + 1) * 0 + / (a + 1) * I) by ring. eapply l_ext; [|exact P]. intros; cbn beta. field. lra.
Qed.
(** The integral converges. *)
Lemma lw_tail a : exists l, is_RInt_gen (lw a) (at_point 1) (Rbar_locally p_infty) l.
Proof.
  set (N := Z.to_nat (up (Rabs a))). set (K := INR (S (S (S N))) ^ S (S (S N))).
  set (h := fun r => lw a (1 + Rabs r)).
  assert (HC : forall r, continuous h r).
  { intros r. apply (continuous_comp (fun r => 1 + Rabs r) (lw a)).
    - apply (continuous_plus (V := R_NormedModule) (fun _ => 1) Rabs); [apply continuous_const|apply continuous_Rabs].
    - apply lw_cont. unfold lD. assert (P := Rabs_pos r). lra. }
  destruct (imp_bounded h K) as [l [_ [F [HF HL]]]]; auto.
  - intros; apply lw_pos.
  - intros x Hx.
    assert (HB : is_RInt (fun r => K * / (1 + r) ^ 2) 0 x (K * (- / (1 + x) - - / (1 + 0)))).
    { apply (is_RInt_scal (V := R_NormedModule) (fun r => / (1 + r) ^ 2)). apply (is_RInt_derive (V := R_CompleteNormedModule) (fun r => - / (1 + r))).
      + intros r Hr. rewrite Rmin_left in Hr by lra. auto_derive; [lra|field; lra].
      + intros r Hr. rewrite Rmin_left in Hr by lra. apply (ex_derive_continuous (fun r => / (1 + r) ^ 2)). auto_derive. nra. }
    assert (KP : 0 <= K) by (apply pow_le; apply pos_INR).
    apply Rle_trans with (K * (- / (1 + x) - - / (1 + 0))).
    + rewrite <- (is_RInt_unique (V := R_CompleteNormedModule) _ _ _ _ HB). apply RInt_le; auto.
      * apply (ex_RInt_continuous (V := R_CompleteNormedModule)). intros; apply HC.
      * eexists; exact HB.
      * intros r Hr. unfold h. rewrite Rabs_right by lra. set (y := 1 + r). assert (Hy : 1 < y) by (unfold y; lra).
        assert (Q := pow_le_exp (S (S N)) y ltac:(lra)). fold K in Q. unfold lw. assert (R := Rpower_le_pow a y ltac:(lra)). fold N in R.
        assert (EP := exp_pos y). apply Rle_trans with (y ^ N * exp (- y)); [apply Rmult_le_compat_r; [left; apply exp_pos|auto]|].
        rewrite exp_Ropp. apply (Rmult_le_reg_r (exp y * y ^ 2)); [apply Rmult_lt_0_compat; auto; nra|].
        replace (y ^ N * / exp y * (exp y * y ^ 2)) with (y ^ S (S N)) by (cbn [pow]; field; lra).
        replace (K * / y ^ 2 * (exp y * y ^ 2)) with (K * exp y) by (field; lra).
        assert (0 <= y ^ S (S N)) by (apply pow_le; lra). cbn [pow] in *. nra.
    + assert (0 < / (1 + x)) by (apply Rinv_0_lt_compat; lra). rewrite Rplus_0_r, Rinv_1. nra.
  - exists l. intros P HP. destruct (HL P HP) as [M HM]. cbn in HM.
    exists (fun x => x = 1) (fun x => Rmax 1 (1 + M) < x); [reflexivity|exists (Rmax 1 (1 + M)); auto|].
    intros x y -> Hy. assert (Q1 := Rmax_l 1 (1 + M)). assert (Q2 := Rmax_r 1 (1 + M)). exists (F (y - 1)). split; [|apply HM; lra].
    cbn [fst snd]. assert (HFy := HF (y - 1) ltac:(lra)).
    assert (S := is_RInt_comp_lin (V := R_NormedModule) h 1 (-1) 1 y (F (y - 1))).
    replace (1 * 1 + -1) with 0 in S by ring. replace (1 * y + -1) with (y - 1) in S by ring. specialize (S HFy).
    eapply (is_RInt_ext (V := R_NormedModule)); [|exact S]. intros t Ht. rewrite Rmin_left in Ht by lra. unfold scal; cbn; unfold mult; cbn. unfold h. rewrite Rabs_right by lra. rewrite Rmult_1_l. f_equal. ring.
Qed.
Lemma lw_exists a : -1 < a -> exists I, is_RInt_gen (lw a) (at_right 0) (Rbar_locally p_infty) I.
Proof.
  intros Ha. destruct (lw_tail (a + 1)) as [l2 H2].
  destruct (C0_extension_lt (T := R_UniformSpace) (lw (a + 1)) 0 (lw (a + 1) 2) 0 2) as [g [Gc [Ge _]]].
  - lra.
  - intros c Hc. apply lw_cont. unfold lD. lra.
  - apply lw_lim_l. lra.
  - apply lim_at_left. apply lw_cont. unfold lD. lra.
  - set (G := fun x => RInt g 0 x).
    assert (GD : forall x, is_derive G x (g x)).
    { intros x. apply (is_derive_RInt (V := R_NormedModule) g G 0 x); [|apply Gc].
      apply filter_forall. intros y. apply (RInt_correct (V := R_CompleteNormedModule)). apply (ex_RInt_continuous (V := R_CompleteNormedModule)). intros; apply Gc. }
    assert (GC : forall x, continuous G x) by (intros x; apply (ex_derive_continuous G); eexists; apply GD).
    assert (H1 : is_RInt_gen (lw (a + 1)) (at_right 0) (at_point 1) (G 1 - G 0)).
    { eapply is_RInt_gen_ext; [|apply (gen_derive (at_right 0) (at_point 1) _ _ (fun x => 0 < x < 2)) with (F := G) (f := g)].
      - apply (Filter_prod _ _ _ (fun x => 0 < x < 2) (fun x => x = 1)); [|reflexivity|].
        + exists (mkposreal 1 Rlt_0_1). intros y Hy Hl. change (Rabs (y - 0) < 1) in Hy. apply Rabs_def2 in Hy. lra.
        + intros x y Hx -> z Hz. cbn [fst snd] in Hz. apply Ge. assert (Q := Rmax_lub_lt x 1 2 ltac:(lra) ltac:(lra)). assert (Q2 := Rmin_glb_lt x 1 0 ltac:(lra) ltac:(lra)). lra.
      - exists (mkposreal 1 Rlt_0_1). intros y Hy Hl. change (Rabs (y - 0) < 1) in Hy. apply Rabs_def2 in Hy. lra.
      - unfold at_point. lra.
      - intros; lra.
      - intros; apply GD.
      - intros; apply Gc.
      - apply lim_at_right. apply GC.
      - intros P HP. unfold filtermap, at_point. apply locally_singleton. exact HP. }
    assert (H := is_RInt_gen_Chasles (V := R_NormedModule) (lw (a + 1)) 1 _ _ H1 H2).
    eexists. apply lw_down; [auto|exact H].
Qed.
Lemma lw_int_pos a I : is_RInt_gen (lw a) (at_right 0) (Rbar_locally p_infty) I -> 0 < I.
Proof.
  apply (gen_pos _ _ _ _ lD lDa lDb lDc (lw a) 1 2); unfold lD; try lra.
  - exists (mkposreal 1 Rlt_0_1). intros y Hy _. change (Rabs (y - 0) < 1) in Hy. apply Rabs_def2 in Hy. lra.
  - exists 2. intros; lra.
  - intros; left; apply lw_pos.
  - intros; apply lw_pos.
  - intros; apply lw_cont; auto.
Qed.
Fixpoint lnu (a I : R) (m : nat) : R := match m with O => I | S m' => (a + INR m' + 1) * lnu a I m' end.
Lemma lnu_int a I m : -1 < a -> is_RInt_gen (lw a) (at_right 0) (Rbar_locally p_infty) I -> is_RInt_gen (lw (a + INR m)) (at_right 0) (Rbar_locally p_infty) (lnu a I m).
Proof.
  intros Ha H. induction m as [|m IH].
  - change (INR 0) with 0. rewrite Rplus_0_r. auto.
  - assert (P := pos_INR m). apply lw_up in IH; try lra. rewrite S_INR. cbn [lnu]. replace (a + (INR m + 1)) with (a + INR m + 1) by ring. exact IH.
Qed.
Lemma lw_pow a m x : 0 < x -> lw (a + INR m) x = lw a x * x ^ m.
Proof. intros H. unfold lw. rewrite Rpower_plus, Rpower_pow by auto. ring. Qed.
Theorem laguerre_good a I : -1 < a -> laguerre_int a (fun _ => 1) I -> exists mu, good_rc (laguerre_rc a I) mu /\ forall k, laguerre_int a (fun x => x ^ k) (mu k).
Proof.
  intros Ha H0. assert (H : is_RInt_gen (lw a) (at_right 0) (Rbar_locally p_infty) I) by (eapply l_ext; [|exact H0]; intros; unfold lw; ring).
  exists (lnu a I). split.
  - split; [|split; [reflexivity|split]].
    + intros k Hk. cbn [rc_beta laguerre_rc]. assert (1 <= INR k) by (apply (le_INR 1); lia). apply Rmult_lt_0_compat; lra.
    + exact (lw_int_pos a I H).
    + intros n. apply laguerre_orthogonal. reflexivity.
  - intros k. unfold laguerre_int. eapply l_ext; [|apply (lnu_int a I k); auto]. intros x Hx. cbn beta. rewrite lw_pow by auto. reflexivity.
Qed.

(* ------------------------------------------------------------------ Hermite *)
Lemma hermite_lmonic mu : (forall m, mu (S (S m)) = (INR m + 1) / 2 * mu m) -> mu 1%nat = 0 -> forall k,
  (forall m, lmonic (rc_alpha hermite_rc) (rc_beta hermite_rc) mu k m = ff k m / 2 ^ k * mu (m - k)%nat) /\
  (forall m, lmonic (rc_alpha hermite_rc) (rc_beta hermite_rc) mu (S k) m = ff (S k) m / 2 ^ S k * mu (m - S k)%nat).
Proof.
  intros H H1. induction k as [|k [IH1 IH2]].
  - split; intros m; cbn [lmonic ff pow rc_alpha hermite_rc]; [rewrite Nat.sub_0_r; field|].
    change (INR 0) with 0. destruct m as [|[|m]].
    + rewrite H1. change (INR 0) with 0. cbn. field.
    + cbn [Nat.sub]. rewrite H. change (INR 0) with 0. change (INR 1) with 1. field.
    + replace (S (S m) - 1)%nat with (S m) by lia. rewrite H, !S_INR. field.
  - split; auto. intros m. rewrite lmonic_SS, !IH2, IH1. rewrite ff_S. cbn [rc_alpha rc_beta hermite_rc]. replace (S m - S k)%nat with (m - k)%nat by lia.
    assert (P2 : 2 ^ k <> 0) by (apply pow_nonzero; lra). cbn [ff pow]. rewrite !S_INR.
    destruct (Nat.lt_trichotomy m (S k)) as [L|[->|L]].
    + destruct (Nat.eq_dec m k) as [->|N]; [field; auto|]. rewrite ff_0 by lia. field; auto.
    + replace (S k - k)%nat with 1%nat by lia. rewrite H1, S_INR. field; auto.
    + replace (m - k)%nat with (S (S (m - S (S k)))) by lia. rewrite H.
      replace (INR (m - S (S k))) with (INR m - INR k - 2) by (rewrite minus_INR by lia; rewrite !S_INR; ring). field; auto.
Qed.
Theorem hermite_orthogonal mu n : (forall m, mu (S (S m)) = (INR m + 1) / 2 * mu m) -> mu 1%nat = 0 -> orthogonal (rc_alpha hermite_rc) (rc_beta hermite_rc) mu n.
Proof. intros H H1 k m Hk. destruct (hermite_lmonic mu H H1 k) as [E _]. rewrite E, ff_0 by lia. unfold Rdiv. ring. Qed.

Definition hD (x : R) : Prop := True.
Lemma hDa : Rbar_locally m_infty hD. Proof. exists 0. intros; exact I. Qed.
Lemma hDb : Rbar_locally p_infty hD. Proof. exists 0. intros; exact I. Qed.
Lemma hDc x y z : hD x -> hD y -> x <= z <= y -> hD z. Proof. intros; exact I. Qed.
Lemma h_ext (f g : R -> R) (l : R) : (forall x, f x = g x) -> is_RInt_gen f (Rbar_locally m_infty) (Rbar_locally p_infty) l -> is_RInt_gen g (Rbar_locally m_infty) (Rbar_locally p_infty) l.
Proof. intros H. apply (gen_ext _ _ _ _ hD hDa hDb hDc). auto. Qed.
Lemma h_lim_r k : filterlim (fun x => exp (- x ^ 2) * x ^ k) (Rbar_locally p_infty) (locally 0).
Proof.
  assert (L : is_lim (fun x => exp (- x ^ 2) * x ^ k) p_infty 0); [|exact L].
  eapply is_lim_ext; [|apply (lim_pow_exp2 k)]. intros x. cbn beta. replace (x * x) with (x ^ 2) by ring. ring.
Qed.
Lemma h_lim_l k : filterlim (fun x => exp (- x ^ 2) * x ^ k) (Rbar_locally m_infty) (locally 0).
Proof.
  assert (L : is_lim (fun x => exp (- x ^ 2) * x ^ k) m_infty 0); [|exact L].
  assert (E : is_lim (fun x => (-1) ^ k * (exp (- (- x) ^ 2) * (- x) ^ k)) m_infty 0).
  { replace (Finite 0) with (Rbar_mult ((-1) ^ k) 0) by (cbn; f_equal; ring). apply is_lim_scal_l.
    apply (is_lim_comp (fun x => exp (- x ^ 2) * x ^ k) Ropp m_infty 0 p_infty); [apply h_lim_r| |exists 0; intros; discriminate].
    assert (Q := is_lim_opp (fun x => x) m_infty m_infty (is_lim_id m_infty)). exact Q. }
  eapply is_lim_ext; [|exact E]. intros x. cbn beta. replace (- x) with (-1 * x) by ring. rewrite !Rpow_mult_distr. replace ((-1) ^ 2) with 1 by ring. rewrite Rmult_1_l.
  replace ((-1) ^ k * (exp (- x ^ 2) * ((-1) ^ k * x ^ k))) with (((-1) * (-1)) ^ k * (exp (- x ^ 2) * x ^ k)) by (rewrite Rpow_mult_distr; ring).
  replace (-1 * -1) with 1 by ring. rewrite pow1. ring.
Qed.
Lemma h_cont k x : continuous (fun x => exp (- x ^ 2) * x ^ k) x.
Proof. apply (ex_derive_continuous (fun x => exp (- x ^ 2) * x ^ k)). auto_derive; auto. Qed.
Lemma h_moment0 : hermite_int (fun x => x ^ 0) (sqrt PI).
Proof.
  unfold hermite_int. destruct gauss_integral as [F [HF HL]].
  assert (HP : is_RInt_gen (fun x => exp (- x ^ 2) * x ^ 0) (at_point 0) (Rbar_locally p_infty) (sqrt PI / 2)).
  { apply imp_gen. eapply imp_ext; [|apply gauss_integral]. intros x. cbn beta. replace (x * x) with (x ^ 2) by ring. ring. }
  assert (HM : is_RInt_gen (fun x => exp (- x ^ 2) * x ^ 0) (Rbar_locally m_infty) (at_point 0) (sqrt PI / 2)).
  { intros P HPP. destruct (HL P HPP) as [M HMM]. cbn in HMM.
    exists (fun x => x < - Rmax 0 M) (fun x => x = 0); [exists (- Rmax 0 M); auto|reflexivity|].
    intros x y Hx ->. assert (Q1 := Rmax_l 0 M). assert (Q2 := Rmax_r 0 M). exists (F (- x)). split; [|apply HMM; lra]. cbn [fst snd].
    assert (HFx := HF (- x) ltac:(lra)). assert (C := is_RInt_comp_opp (V := R_NormedModule) (fun r => r ^ 0 * exp (- (r * r))) 0 x (F (- x))).
    rewrite Ropp_0 in C. specialize (C HFx). apply (is_RInt_swap (V := R_NormedModule)) in C. apply (is_RInt_opp (V := R_NormedModule)) in C. rewrite opp_opp in C.
    eapply (is_RInt_ext (V := R_NormedModule)); [|exact C]. intros t _. unfold opp; cbn. replace (- t * - t) with (t ^ 2) by ring. cbn. ring. }
  replace (sqrt PI) with (sqrt PI / 2 + sqrt PI / 2) by field. exact (is_RInt_gen_Chasles (V := R_NormedModule) _ 0 _ _ HM HP).
Qed.
Lemma h_moment1 : hermite_int (fun x => x ^ 1) 0.
Proof.
  unfold hermite_int. replace 0 with (-1 / 2 * 0 - -1 / 2 * 0) by ring.
  assert (L : forall F (FF : Filter F), filterlim (fun x => exp (- x ^ 2) * x ^ 0) F (locally 0) -> filterlim (fun x => -1 / 2 * exp (- x ^ 2)) F (locally (-1 / 2 * 0))).
  { intros F FF H. apply (filterlim_ext (fun x => -1 / 2 * (exp (- x ^ 2) * x ^ 0))); [intros; cbn; ring|]. apply lim_mult; auto. apply filterlim_const. }
  apply (gen_derive _ _ _ _ hD hDa hDb hDc (fun x => -1 / 2 * exp (- x ^ 2))).
  - intros x _. auto_derive; auto. replace (x * (x * 1)) with (x ^ 2) by ring. field.
  - intros x _. apply h_cont.
  - apply L; [apply Rbar_locally_filter|]. apply h_lim_l.
  - apply L; [apply Rbar_locally_filter|]. apply h_lim_r.
Qed.
Lemma h_step k I : hermite_int (fun x => x ^ k) I -> hermite_int (fun x => x ^ S (S k)) ((INR k + 1) / 2 * I).
Proof.
  unfold hermite_int. intros H.
  assert (P : is_RInt_gen (fun x => (INR k + 1) * (exp (- x ^ 2) * x ^ k) - 2 * (exp (- x ^ 2) * x ^ S (S k))) (Rbar_locally m_infty) (Rbar_locally p_infty) (0 - 0)).
  { apply (gen_derive _ _ _ _ hD hDa hDb hDc (fun x => exp (- x ^ 2) * x ^ S k)).
    - intros x _. auto_derive; auto. change (Init.Nat.pred (S k)) with k. change (match k with 0%nat => 1 | S _ => INR k + 1 end) with (INR (S k)). rewrite S_INR. replace (x * (x * 1)) with (x ^ 2) by ring. cbn [pow]. ring.
    - intros x _. apply (continuous_minus (fun x => (INR k + 1) * (exp (- x ^ 2) * x ^ k)) (fun x => 2 * (exp (- x ^ 2) * x ^ S (S k)))); apply (continuous_scal_r (K := R_AbsRing) (V := R_NormedModule)); apply h_cont.
    - apply h_lim_l.
    - apply h_lim_r. }
  assert (Q := gen_lin _ _ _ _ _ _ (- / 2) ((INR k + 1) / 2) _ _ P H). replace ((INR k + 1) / 2 * I) with (- / 2 * (0 - 0) + (INR k + 1) / 2 * I) by ring.
  eapply h_ext; [|exact Q]. intros x. cbn beta. field.
Qed.
Fixpoint hnu2 (j : nat) : R * R := match j with O => (sqrt PI, 0) | S j' => (snd (hnu2 j'), (INR j' + 1) / 2 * fst (hnu2 j')) end.
Definition hnu (j : nat) : R := fst (hnu2 j).
Lemma hnu_SS m : hnu (S (S m)) = (INR m + 1) / 2 * hnu m. Proof. reflexivity. Qed.
Lemma hnu_int k : hermite_int (fun x => x ^ k) (hnu k) /\ hermite_int (fun x => x ^ S k) (hnu (S k)).
Proof. induction k as [|k [IH1 IH2]]; [split; [exact h_moment0|exact h_moment1]|]. split; auto. rewrite hnu_SS. apply h_step; auto. Qed.
Theorem hermite_good : good_rc hermite_rc hnu /\ forall k, hermite_int (fun x => x ^ k) (hnu k).
Proof.
  split; [|intros k; exact (proj1 (hnu_int k))]. unfold good_rc, hermite_rc. cbn [rc_alpha rc_beta rc_int]. split; [|split; [|split]].
  - intros k Hk. assert (1 <= INR k) by (apply (le_INR 1); lia). lra.
  - unfold hnu. cbn [hnu2 fst]. reflexivity.
  - apply sqrt_lt_R0. apply PI_RGT_0.
  - intros n. apply (hermite_orthogonal hnu n hnu_SS). unfold hnu. cbn [hnu2 fst snd]. reflexivity.
Qed.
