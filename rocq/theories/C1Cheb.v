(** The Chebyshev weights as integrals over [-1, 1]. *)
From Coq Require Import Reals List Arith Lia Lra Ratan.
From Coquelicot Require Import Coquelicot.
From Verif Require Import Spec Spec1 RsumLemmas IntegralProofs IntegralPoly SphereInt C1Tools.
Import ListNotations.
Set Bullet Behavior "Strict Subproofs".
Open Scope R_scope.

Lemma acos_is_derive x : -1 < x < 1 -> is_derive acos x (-1 / sqrt (1 - x²)).
Proof.
  intros H. apply is_derive_Reals. assert (E := derive_pt_acos x H). destruct (derivable_pt_acos x H) as [l Hl]. cbn in E. rewrite <- E. exact Hl.
Qed.
Lemma acos_lt_of x t : 0 <= t <= PI -> -1 <= x <= 1 -> cos t < x -> acos x < t.
Proof.
  intros Ht Hx H. destruct (Rlt_or_le (acos x) t) as [|G]; auto. exfalso. destruct (acos_bound x) as [A1 A2].
  assert (cos (acos x) <= cos t) by (apply cos_decr_1; lra). rewrite cos_acos in H0 by auto. lra.
Qed.
Lemma acos_gt_of x t : 0 <= t <= PI -> -1 <= x <= 1 -> x < cos t -> t < acos x.
Proof.
  intros Ht Hx H. destruct (Rlt_or_le t (acos x)) as [|G]; auto. exfalso. destruct (acos_bound x) as [A1 A2].
  assert (cos t <= cos (acos x)) by (apply cos_decr_1; lra). rewrite cos_acos in H0 by auto. lra.
Qed.
Theorem cheb1_integral c : is_RInt_gen (fun x => peval c x / sqrt (1 - x * x)) (at_right (-1)) (at_left 1) (RInt (fun t => peval c (cos t)) 0 PI).
Proof.
  set (h := fun t => peval c (cos t)).
  assert (Ch : forall t, continuous h t).
  { intros t. apply (continuous_comp cos (peval c)); [|apply peval_continuous]. apply (ex_derive_continuous (fun t : R => cos t)). auto_derive. auto. }
  set (Phi := fun t => RInt h 0 t).
  assert (D : forall t, is_derive Phi t (h t)).
  { intros t. apply (is_derive_RInt h Phi 0 t); [|apply Ch]. exists (mkposreal 1 Rlt_0_1). intros y _. apply (@RInt_correct R_CompleteNormedModule). apply (@ex_RInt_continuous R_CompleteNormedModule). intros; apply Ch. }
  assert (CP : forall t, continuous Phi t) by (intros t; apply (ex_derive_continuous Phi); eexists; apply D).
  assert (I : forall a b, -1 < a < 1 -> -1 < b < 1 -> is_RInt (fun x => peval c x / sqrt (1 - x * x)) a b (Phi (acos a) - Phi (acos b))).
  { intros a b Ha Hb. replace (Phi (acos a) - Phi (acos b)) with (minus (- Phi (acos b)) (- Phi (acos a))) by (unfold minus, plus, opp; cbn; ring).
    assert (M : forall x, Rmin a b <= x <= Rmax a b -> -1 < x < 1).
    { intros x [X1 X2]. split; [apply Rlt_le_trans with (2 := X1); apply Rmin_glb_lt; lra|apply Rle_lt_trans with (1 := X2); apply Rmax_lub_lt; lra]. }
    apply (is_RInt_derive (fun x => - Phi (acos x))).
    - intros x Hx. specialize (M x Hx). assert (S0 : sqrt (1 - x * x) <> 0) by (apply Rgt_not_eq, sqrt_lt_R0; nra).
      replace (peval c x / sqrt (1 - x * x)) with (opp (scal (-1 / sqrt (1 - x²)) (h (acos x)))).
      + apply (@is_derive_opp R_AbsRing R_NormedModule). apply (is_derive_comp Phi acos); [apply D|apply acos_is_derive; auto].
      + unfold opp, scal, h. cbn. unfold mult. cbn. rewrite cos_acos by lra. unfold Rsqr. field. auto.
    - intros x Hx. specialize (M x Hx). apply (continuous_mult (peval c) (fun x => / sqrt (1 - x * x))); [apply peval_continuous|].
      apply (ex_derive_continuous (fun x : R => / sqrt (1 - x * x))). auto_derive. split; [nra|]. split; auto. apply Rgt_not_eq, sqrt_lt_R0. nra. }
  intros P [eps HP]. assert (C0 := CP 0). assert (C1 := CP PI).
  assert (E2 : 0 < eps / 2) by (destruct eps; cbn; lra).
  assert (L0 := C0 _ (locally_ball (Phi 0) (mkposreal _ E2))). assert (L1 := C1 _ (locally_ball (Phi PI) (mkposreal _ E2))). destruct L0 as [d0 L0]. destruct L1 as [d1 L1].
  assert (PP := PI_RGT_0). set (e0 := Rmin (d0 / 2) (PI / 2)). set (e1 := Rmin (d1 / 2) (PI / 2)).
  assert (B0 : 0 < e0 <= PI / 2 /\ e0 <= d0 / 2). { unfold e0. destruct d0 as [d0 Hd]; cbn. split; [split; [apply Rmin_glb_lt; lra|apply Rmin_r]|apply Rmin_l]. }
  assert (B1 : 0 < e1 <= PI / 2 /\ e1 <= d1 / 2). { unfold e1. destruct d1 as [d1 Hd]; cbn. split; [split; [apply Rmin_glb_lt; lra|apply Rmin_r]|apply Rmin_l]. }
  clearbody e0 e1.
  assert (K0 : cos e0 < 1). { rewrite <- cos_0. apply cos_decreasing_1; lra. }
  assert (K1 : -1 < cos (PI - e1)). { rewrite <- cos_PI. apply cos_decreasing_1; lra. }
  assert (K0' : 0 <= cos e0) by (apply cos_ge_0; lra). assert (K1' : cos (PI - e1) <= 0) by (rewrite Rtrigo_facts.cos_pi_minus; assert (0 <= cos e1) by (apply cos_ge_0; lra); lra).
  exists (fun a => -1 < a < cos (PI - e1)) (fun b => cos e0 < b < 1).
  - assert (X : 0 < cos (PI - e1) - -1) by lra. exists (mkposreal _ X). cbn. intros y Hy Hy'. apply Rabs_def2 in Hy. unfold minus, plus, opp in Hy. cbn in Hy. lra.
  - assert (X : 0 < 1 - cos e0) by lra. exists (mkposreal _ X). cbn. intros y Hy Hy'. apply Rabs_def2 in Hy. unfold minus, plus, opp in Hy. cbn in Hy. lra.
  - intros a b Ha Hb. cbn [fst snd]. exists (Phi (acos a) - Phi (acos b)). split; [apply I; lra|]. apply HP.
    assert (A := acos_gt_of a (PI - e1) ltac:(lra) ltac:(lra) ltac:(lra)). assert (B := acos_lt_of b e0 ltac:(lra) ltac:(lra) ltac:(lra)).
    assert (A2 := acos_bound a). assert (B2 := acos_bound b).
    assert (X0 : Rabs (Phi (acos b) - Phi 0) < eps / 2). { apply (L0 (acos b)). change (Rabs (acos b - 0) < d0). apply Rabs_def1; lra. }
    assert (X1 : Rabs (Phi (acos a) - Phi PI) < eps / 2). { apply (L1 (acos a)). change (Rabs (acos a - PI) < d1). apply Rabs_def1; lra. }
    assert (Z : Phi 0 = 0) by (unfold Phi; rewrite RInt_point; reflexivity). change (Rabs (Phi (acos a) - Phi (acos b) - Phi PI) < eps).
    apply Rabs_def2 in X0. apply Rabs_def2 in X1. apply Rabs_def1; lra.
Qed.
(** sqrt(1 - x^2) is bounded, so the second weight gives a proper integral. *)
Theorem cheb2_integral c : is_RInt (fun x => peval c x * sqrt (1 - x * x)) (-1) 1 (RInt (fun t => peval c (cos t) * sin t ^ 2) 0 PI).
Proof.
  assert (E : RInt (fun t => peval c (cos t) * sin t ^ 2) 0 PI = Rsum (map (fun i => nth i c 0 * W i 2) (seq 0 (length c)))).
  { apply is_RInt_unique. apply (is_RInt_ext (fun t => Rsum (map (fun i => nth i c 0 * (cos t ^ i * sin t ^ 2)) (seq 0 (length c))))).
    - intros t _. rewrite peval_nth, <- Rsum_map_scal_r. apply Rsum_map_ext. intros; ring.
    - apply (is_RInt_Rsum (fun i t => nth i c 0 * (cos t ^ i * sin t ^ 2)) (fun i => nth i c 0 * W i 2)). intros i _. apply is_RInt_scalR. apply is_RInt_W. }
  rewrite E. apply (is_RInt_ext (fun x => Rsum (map (fun i => nth i c 0 * (x ^ i * sqrt (1 ^ 2 - x ^ 2) ^ 1)) (seq 0 (length c))))).
  - intros x _. rewrite peval_nth, <- Rsum_map_scal_r. replace (1 ^ 2 - x ^ 2) with (1 - x * x) by ring. apply Rsum_map_ext. intros; ring.
  - apply (is_RInt_Rsum (fun i x => nth i c 0 * (x ^ i * sqrt (1 ^ 2 - x ^ 2) ^ 1)) (fun i => nth i c 0 * W i 2)). intros i _. apply is_RInt_scalR.
    assert (I := is_RInt_cap 1 i 1 ltac:(lra)). rewrite (pow1 (i + 1 + 1)), Rmult_1_l in I. exact I.
Qed.
