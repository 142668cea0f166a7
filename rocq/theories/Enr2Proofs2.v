(** The degree 7 rules of Stroud and the rules of Cools and Haegemans for the weight exp(-r^2). *)
From Coq Require Import Reals List Arith Lia Lra Permutation Bool.
From Verif Require Import Spec RsumLemmas CombModel CombProofs CombProofs2 Moments SymExact
  IntegralSpec IntegralProofs PyBase SymmModel SymmProofs MiscModel CnModel SchemeTools CnTools CnProofs IntegralProofs2 CnProofs2 CnProofs4
  TrigSums CnProofs5 MsModel MsProofs MsProofs2 Dobrodeev SphereSpec SphereInt RadialInt RadialTools UnModel UnProofs NsimplexProofs RadialDob SnModel RadialTrig
  SnProofs SnDob EnrModel RadialMs EnrProofs.
Import ListNotations.
Set Bullet Behavior "Strict Subproofs".
Open Scope R_scope.

Theorem enr2_stroud_1967_7_2_exact n (v : bool) : In n (if v then [2; 3; 4; 6; 7] else [3; 4])%nat -> good_scheme n 7 (enr2I n) (enr2_stroud_1967_7_2 n v).
Proof.
  intros H. unfold enr2_stroud_1967_7_2. cbv zeta.
  assert (Hn : (2 <= n <= 7)%nat /\ n <> 5%nat /\ (v = false -> 3 <= n <= 4)%nat) by (destruct v; cbn in H; repeat (destruct H as [<- | H]; [repeat split; try lia; discriminate|]); destruct H).
  destruct Hn as [Hn [H5 Hv]].
  assert (N2 : 2 <= INR n) by (apply (le_INR 2); lia).
  assert (N7 : INR n <= 7) by (replace 7 with (INR 7) by (simpl; lra); apply le_INR; lia).
  assert (NV : v = false -> 3 <= INR n <= 4).
  { intros E. specialize (Hv E). replace 3 with (INR 3) by (simpl; lra). replace 4 with (INR 4) by (simpl; lra). split; apply le_INR; lia. }
  assert (N5 : 5 - INR n <> 0) by (intros E; apply H5; apply INR_eq; simpl INR at 2; lra).
  assert (N8 : 3 * INR n - 8 <> 0).
  { intros E. assert (X : INR (3 * n) = INR 8) by (rewrite mult_INR; simpl INR; simpl INR in E; lra). apply INR_eq in X. lia. }
  apply bind_guard. { apply existsb_exists. exists n. split; [destruct v; auto|apply Nat.eqb_refl]. }
  set (tt := if v then 1 else -1). assert (Htt : tt * tt = 1) by (unfold tt; destruct v; lra).
  apply bind_sqrt; [lra|]. intros be Pbe Qbe. assert (B6 : be < 6) by nra. assert (B0 : 0 < be) by nra.
  assert (Et : tt ^ 2 = 1) by (rewrite <- Htt; ring). assert (Eb : be ^ 2 = 3 * (8 - INR n)) by (rewrite <- Qbe; ring).
  apply bind_div; [auto|]. intros r2 Hr2. apply bind_div; [auto|]. intros s2 Hs2.
  set (t2 := (6 + tt * be) / 2). assert (Ht2 : t2 = (6 + tt * be) / 2) by reflexivity. clearbody t2.
  assert (Ht : t2 * (2 * (6 - tt * be) / (3 * (INR n + 4))) = 1).
  { rewrite Ht2. field_simplify_eq; [|lra]. rewrite ?Et, ?Eb. ring. }
  assert (Hs : s2 * (2 * (3 * INR n + 2 * tt * be) / (3 * (INR n + 4))) = 1).
  { rewrite Hs2. field_simplify_eq; [|repeat split; auto; lra]. rewrite ?Et, ?Eb. ring. }
  assert (Hr : r2 * (2 * (3 * (8 - INR n) + tt * (INR n - 2) * be) / (3 * (8 - INR n) * (INR n + 4))) = 1).
  { rewrite Hr2. field_simplify_eq; [|repeat split; auto; lra]. rewrite ?Et, ?Eb. ring. }
  assert (Pt : 0 < t2) by (subst t2; unfold tt; destruct v; lra).
  assert (Ps : 0 < s2).
  { apply (pos_of_inv _ _ Hs). apply Rdiv_lt_0_compat; [|lra]. unfold tt. destruct v; [lra|]. specialize (NV eq_refl). nra. }
  assert (Pr : 0 < r2).
  { apply (pos_of_inv _ _ Hr). apply Rdiv_lt_0_compat; [|repeat apply Rmult_lt_0_compat; lra]. unfold tt. destruct v; [nra|]. specialize (NV eq_refl). nra. }
  assert (It := inv_of _ _ Ht). assert (Is := inv_of _ _ Hs). assert (Ir := inv_of _ _ Hr).
  assert (P2 := pow2_nz n).
  apply bind_div; [apply pow_nonzero; lra|]. intros B HB. apply bind_div; [apply pow_nonzero; lra|]. intros C HC. apply bind_div; [apply pow_nonzero; lra|]. intros D HD.
  apply bind_sqrt; [lra|]. intros r Pr' Qr. apply bind_sqrt; [lra|]. intros s Ps' Qs. apply bind_sqrt; [lra|]. intros t Pt' Qt.
  clear Hr2 Hs2 Ht2.
  assert (E8 : 2 ^ (n + 3) = 2 ^ n * 8) by (rewrite pow_add; ring).
  apply (seven_exact n (enr2I n) (h_enr2 n) r s t r2 s2 t2); auto using h_enr2_0; try lia; [apply enr2_fs; lia| | | | | |].
  - rewrite HB. unfold h_enr2. field. lra.
  - rewrite HC, E8. unfold h_enr2. field. repeat split; auto; lra.
  - rewrite HD. unfold h_enr2. field. lra.
  - replace (2 / t2) with (2 * (1 / t2)) by (field; lra). rewrite It, Is. unfold h_enr2. field. lra.
  - replace (2 * (8 - INR n) / r2) with (2 * (8 - INR n) * (1 / r2)) by (field; lra). replace (2 * (INR n - 1) / t2) with (2 * (INR n - 1) * (1 / t2)) by (field; lra).
    rewrite It, Is, Ir. unfold h_enr2. field. repeat split; lra.
  - replace (2 * (8 - INR n) / r2 ^ 2) with (2 * (8 - INR n) * (1 / r2) ^ 2) by (field; lra). replace (2 * (INR n - 1) / t2 ^ 2) with (2 * (INR n - 1) * (1 / t2) ^ 2) by (field; lra).
    replace (1 / s2 ^ 2) with ((1 / s2) ^ 2) by (field; lra).
    rewrite It, Is, Ir. unfold h_enr2. field_simplify_eq; [|repeat split; lra]. rewrite ?Et, ?Eb. ring.
Qed.

(* ------------------------------------------------------------------ Cools and Haegemans *)
Lemma rdiv_some a b q : b <> 0 -> q * b = a -> rdiv a b = Some q.
Proof. intros Hb E. rewrite rdiv_ok by auto. f_equal. rewrite <- E. field. auto. Qed.
Lemma mu0 : enr2_mu 0 = 1. Proof. reflexivity. Qed.
Lemma mu2 : enr2_mu 2 = 1 / 2. Proof. cbn. lra. Qed.
Lemma mu4 : enr2_mu 4 = 3 / 4. Proof. cbn. lra. Qed.
Lemma mu6 : enr2_mu 6 = 15 / 8. Proof. cbn. lra. Qed.
Theorem enr2_cools_haegemans_1_exact n delta2 : (1 <= n)%nat -> 1 / 2 <= delta2 -> good_scheme n 3 (enr2I n) (enr2_cools_haegemans_1 n delta2).
Proof.
  intros Hn Hd. unfold enr2_cools_haegemans_1. destruct Rle_dec; [|lra]. inr_pos n. assert (P2 := pow2_nz n).
  apply bind_div; [lra|]. intros w0 H0. apply bind_div; [apply Rmult_integral_contrapositive; split; auto; lra|]. intros w Hw. rewrite mu2 in Hw.
  apply bind_sqrt; [lra|]. intros d Pd Qd. rewrite Rz_combine, Rpm_combine by (apply (sq_pos_nz d delta2); auto; lra).
  apply (from_data_good n [(w0, [([0], n)]); (w, [([d; - d], n)])]). subst w0 w.
  enr2_even n. all: rad_pre n; rewrite ?Qd; prep n; intros; field; side.
Qed.
Lemma ch_gener_1 delta2 : 1 / 2 < delta2 -> ch_gener enr2_mu delta2 1 = Some [2 * delta2 / (2 * delta2 - 1)].
Proof.
  intros H. unfold ch_gener. change (seq 1 1) with [1%nat]. cbn [ch_gener_loop]. unfold ch_gener_step. cbv zeta. unfold prod_list. cbn [np_poly length seq List.combine map fst snd fold_right fold_left Nat.sub Nat.mul Nat.add].
  rewrite mu0, mu2, mu4. destruct Req_EM_T; [lra|].
  rewrite (rdiv_some _ _ (1 / 4)) by (cbn; lra). cbn [bind].
  rewrite (rdiv_some _ _ (2 * delta2 / (2 * delta2 - 1))). 1: reflexivity.
  - intros E. assert (X : (2 * delta2 - 1) / (4 * delta2) = 0) by (rewrite <- E; field; lra). assert (0 < (2 * delta2 - 1) / (4 * delta2)) by (apply Rdiv_lt_0_compat; lra). lra.
  - field. lra.
Qed.
Lemma rdiv_zero a b : b = 0 -> rdiv a b = None.
Proof. intros ->. unfold rdiv. destruct (Req_EM_T 0 0); congruence. Qed.
Lemma ch_gener_1_half m : ch_gener enr2_mu (1 / 2) (S m) = None.
Proof.
  unfold ch_gener. cbn [seq ch_gener_loop]. unfold ch_gener_step. cbv zeta. unfold prod_list. cbn [np_poly length seq List.combine map fst snd fold_right fold_left Nat.sub Nat.mul Nat.add].
  rewrite mu0, mu2, mu4. destruct Req_EM_T; [lra|]. rewrite (rdiv_some _ _ (1 / 4)) by (cbn; lra). cbn [bind]. rewrite rdiv_zero by field. reflexivity.
Qed.
(** the weights are those of the generic formulas; delta2 = 1/2 passes the assertion but divides by zero *)
Theorem enr2_cools_haegemans_2_exact n delta2 : (1 <= n)%nat -> 1 / 2 < delta2 -> ((2 < n)%nat -> delta2 <= (INR n + 2) / (2 * INR n - 4)) ->
  good_scheme n 5 (enr2I n) (enr2_cools_haegemans_2 n delta2).
Proof.
  intros Hn Hd Hu. unfold enr2_cools_haegemans_2. cbv zeta. inr_pos n. assert (P2 := pow2_nz n). apply bind_guard; [apply Nat.leb_le; auto|].
  destruct Rle_dec; [|lra].
  assert (E : (if (2 <? n)%nat then if Rle_dec delta2 ((INR n + 2) / (2 * INR n - 4)) then true else false else true) = true).
  { destruct (Nat.ltb_spec 2 n); auto. destruct Rle_dec; [reflexivity|exfalso; auto]. }
  rewrite E. clear E. rewrite ch_gener_1 by auto. cbn [bind nth].
  apply bind_div; [nz_prod|]. intros w0 H0. apply bind_div; [nz_prod|]. intros w1 H1. apply bind_div; [apply Rmult_integral_contrapositive; split; [auto|apply pow_nonzero; lra]|]. intros w Hw. rewrite mu2 in Hw.
  set (la := 2 * delta2 / (2 * delta2 - 1)). assert (Pla : 0 < la) by (apply Rdiv_lt_0_compat; lra).
  apply bind_sqrt; [lra|]. intros l0 Pl Ql. fsd_step. apply bind_sqrt; [lra|]. intros d Pd Qd.
  rewrite Rz_combine, Rpm_combine by (apply (sq_pos_nz d delta2); auto; lra).
  apply (from_data_good n [(w0, [([0], n)]); (w1, [([l0; - l0], 1%nat); ([0], (n - 1)%nat)]); (w, [([d; - d], n)])]). subst w0 w1 w. unfold la in *.
  enr2_even n. all: rad_pre n; rewrite ?Qd, ?Ql; prep n; intros; field; side.
Qed.
Theorem enr2_cools_haegemans_2_half n : enr2_cools_haegemans_2 n (1 / 2) = None.
Proof. unfold enr2_cools_haegemans_2. destruct (1 <=? n)%nat; [|reflexivity]. cbn [guard]. rewrite ch_gener_1_half. destruct Rle_dec; [|reflexivity]. destruct (if (2 <? n)%nat then _ else _); reflexivity. Qed.
Lemma ch_gener_2 delta2 : 1 / 2 < delta2 < 3 / 4 \/ 3 / 2 < delta2 ->
  ch_gener enr2_mu delta2 2 = Some [2 * delta2 / (2 * delta2 - 1); 4 * delta2 * (4 * delta2 - 3) / ((2 * delta2 - 1) * (2 * delta2 - 3))].
Proof.
  intros H. assert (D1 : 2 * delta2 - 1 > 0) by lra. assert (D3 : 2 * delta2 - 3 <> 0) by lra.
  assert (E := ch_gener_1 delta2 ltac:(lra)). unfold ch_gener in *. change (seq 1 1) with [1%nat] in E. change (seq 1 2) with [1; 2]%nat. cbn [ch_gener_loop] in *.
  destruct (ch_gener_step enr2_mu delta2 [] 1) as [l|]; [|discriminate]. cbn [bind app] in *. injection E as ->. 
  unfold ch_gener_step. cbv zeta. unfold prod_list. cbn [np_poly length seq List.combine map fst snd fold_right fold_left Nat.sub Nat.mul Nat.add app].
  rewrite mu0, mu2, mu4, mu6. destruct Req_EM_T; [lra|].
  rewrite (rdiv_some _ _ (1 / 8)) by (cbn; lra). cbn [bind].
  rewrite (rdiv_some _ _ (4 * delta2 * (4 * delta2 - 3) / ((2 * delta2 - 1) * (2 * delta2 - 3)))). 1: reflexivity.
  - match goal with |- ?e <> 0 => intros E0; assert (X : (2 * delta2 - 1) * (2 * delta2 - 3) = 0) by
      (transitivity (e * (8 * delta2 * (2 * delta2 - 1))); [field; repeat split; lra|rewrite E0; ring]) end.
    apply Rmult_integral in X. destruct X; lra.
  - field. repeat split; lra.
Qed.

Theorem enr2_cools_haegemans_3_exact n delta2 : (2 <= n)%nat -> 1 / 2 < delta2 < 3 / 4 \/ 3 / 2 < delta2 ->
  good_scheme n 7 (enr2I n) (enr2_cools_haegemans_3 n delta2).
Proof.
  intros Hn H. assert (D1 : 2 * delta2 - 1 > 0) by lra. assert (D3 : 2 * delta2 - 3 <> 0) by lra. assert (D4 : 4 * delta2 - 3 <> 0) by lra.
  unfold enr2_cools_haegemans_3. cbv zeta. inr_pos n. assert (P2 := pow2_nz n). apply bind_guard; [apply Nat.leb_le; auto|].
  rewrite ch_gener_2 by auto. cbn [bind nth].
  apply bind_div; [nz_prod|]. intros w0 H0. apply bind_div; [nz_prod|]. intros w1 H1. apply bind_div; [nz_prod|]. intros w2 H2.
  apply bind_div; [nz_prod|]. intros w11 H11.
  apply bind_div; [apply Rmult_integral_contrapositive; split; [auto|apply pow_nonzero; lra]|]. intros w Hw. rewrite mu2 in Hw.
  set (la := 2 * delta2 / (2 * delta2 - 1)). assert (Pla : 0 < la) by (apply Rdiv_lt_0_compat; lra).
  set (lb := 4 * delta2 * (4 * delta2 - 3) / ((2 * delta2 - 1) * (2 * delta2 - 3))). assert (Plb : 0 < lb).
  { unfold lb. destruct H as [H | H].
    - replace (4 * delta2 * (4 * delta2 - 3) / ((2 * delta2 - 1) * (2 * delta2 - 3))) with (4 * delta2 * (3 - 4 * delta2) / ((2 * delta2 - 1) * (3 - 2 * delta2))) by (field; repeat split; lra).
      apply Rdiv_lt_0_compat; repeat apply Rmult_lt_0_compat; lra.
    - apply Rdiv_lt_0_compat; repeat apply Rmult_lt_0_compat; lra. }
  apply bind_sqrt; [lra|]. intros d Pd Qd. apply bind_sqrt; [lra|]. intros l0 Pl Ql. apply bind_sqrt; [lra|]. intros l1 Pl1 Ql1.
  fsd_step. fsd_step. fsd_step.
  rewrite Rz_combine, Rpm_combine by (apply (sq_pos_nz d delta2); auto; lra).
  apply (from_data_good n [(w0, [([0], n)]); (- w1, [([l0; - l0], 1%nat); ([0], (n - 1)%nat)]); (w2, [([l1; - l1], 1%nat); ([0], (n - 1)%nat)]);
     (w11, [([l0; - l0], 2%nat); ([0], (n - 2)%nat)]); (w, [([d; - d], n)])]). subst w0 w1 w2 w11 w. unfold la, lb in *.
  enr2_even n. all: rad_pre n; rewrite ?Qd, ?Ql, ?Ql1; prep n; intros; field; side.
Qed.
