(** The McNamee-Stenger rules for the ball and for the weights exp(-r), exp(-r^2). *)
From Coq Require Import Reals List Arith Lia Lra Permutation Bool.
From Verif Require Import Spec RsumLemmas IntegralSpec PyBase MiscModel CnModel SchemeTools CnTools CnProofs MsModel MsProofs MsProofs2
  SphereSpec SphereInt RadialInt RadialTools UnModel SnModel EnrModel SnDob.
Import ListNotations.
Set Bullet Behavior "Strict Subproofs".
Open Scope R_scope.

Definition rad_integ (n : nat) (z : R) (h : nat -> R) (integ : list nat -> R) : Prop :=
  0 < z /\ h 0%nat = 1 /\ forall l, (length l <= n)%nat -> integ l = z * rmoment h l.
Lemma rad_ms_integ n z h integ : rad_integ n z h integ -> ms_integ n integ (rmoment h).
Proof.
  intros [Hz [H0 H]]. assert (E := H [] ltac:(cbn; lia)). rewrite rm_0, H0, Rmult_1_r in E. split.
  - rewrite E. lra.
  - intros l Hl. rewrite E. apply H. auto.
Qed.
Lemma good_of n d I r : (exists s, r = Some s) -> (forall s, r = Some s -> scheme_ok n d I s) -> good_scheme n d I r.
Proof. intros [s E] H. exists s. split; auto. exact (H s E). Qed.
Lemma rm_24 h : rmoment h [2; 4]%nat = 3 * h 3%nat. Proof. rm_tac. Qed.
Lemma rm_26 h : rmoment h [2; 6]%nat = 15 * h 4%nat. Proof. rm_tac. Qed.

Theorem rad_ms3 n z h integ I : (1 <= n)%nat -> fs_functional n I (rmoment h) -> rad_integ n z h integ -> 0 < h 1%nat -> good_scheme n 3 I (ms3 n integ).
Proof.
  intros Hn Fs Hr H1. assert (M := rad_ms_integ _ _ _ _ Hr). destruct Hr as [Hz [H0 H]]. apply good_of.
  - apply ms3_defined; auto; rewrite H by (cbn; lia); rewrite ?rm_0, ?rm_2, ?H0; nra.
  - intros s Hs. exact (ms3_exact n _ _ _ s Fs M Hn Hs).
Qed.
Theorem rad_ms5 n z h integ I : (2 <= n)%nat -> fs_functional n I (rmoment h) -> rad_integ n z h integ -> 0 < h 1%nat -> 0 < h 2%nat -> good_scheme n 5 I (ms5 n integ).
Proof.
  intros Hn Fs Hr H1 H2. assert (M := rad_ms_integ _ _ _ _ Hr). destruct Hr as [Hz [H0 H]]. apply good_of.
  - apply ms5_defined; auto; rewrite H by (cbn; lia); rewrite ?rm_0, ?rm_2, ?rm_4, ?H0; nra.
  - intros s Hs. exact (ms5_exact n _ _ _ s Fs M Hs).
Qed.
Definition h7_good (h : nat -> R) : Prop := good_abc (h 1%nat ^ 2 - 3 * h 2%nat, 3 * h 1%nat * h 2%nat - 15 * h 3%nat, 9 * h 2%nat ^ 2 - 15 * h 1%nat * h 3%nat).
Definition h9_good (h : nat -> R) : Prop := good_abc (9 * h 2%nat ^ 2 - 15 * h 1%nat * h 3%nat, 45 * h 2%nat * h 3%nat - 105 * h 1%nat * h 4%nat, 225 * h 3%nat ^ 2 - 315 * h 2%nat * h 4%nat).
Theorem rad_ms7 n z h integ I sw : (3 <= n)%nat -> fs_functional n I (rmoment h) -> rad_integ n z h integ -> h7_good h -> good_scheme n 7 I (ms7 n integ sw).
Proof.
  intros Hn Fs Hr Hg. assert (M := rad_ms_integ _ _ _ _ Hr). destruct Hr as [Hz [H0 H]]. apply good_of.
  - apply ms7_defined; auto.
    + rewrite H by (cbn; lia). rewrite rm_0, H0. lra.
    + unfold ms7_abc. rewrite !H by (cbn; lia). rewrite rm_0, rm_2, rm_4, rm_6, H0. unfold h7_good in Hg.
      eapply (good_abc_scale (z ^ 2)); [apply pow_lt; auto| | | |exact Hg]; ring.
  - intros s Hs. exact (ms7_exact n _ _ _ sw s Fs M Hs).
Qed.
Lemma rad_ms9_defined n z h integ sw : (4 <= n)%nat -> rad_integ n z h integ -> h9_good h -> exists s, ms9 n integ sw = Some s.
Proof.
  intros Hn [Hz [H0 H]] Hg. apply ms9_defined; auto.
  - rewrite H by (cbn; lia). rewrite rm_0, H0. lra.
  - unfold ms9_abc. rewrite !H by (cbn; lia). rewrite rm_2, rm_4, rm_6, rm_8. unfold h9_good in Hg.
    eapply (good_abc_scale (z ^ 2)); [apply pow_lt; auto| | | |exact Hg]; ring.
Qed.
Definition h9_rel (h : nat -> R) : Prop :=
  (9 * h 2%nat ^ 2 - 15 * h 1%nat * h 3%nat) * (15 * h 4%nat) =
  (45 * h 2%nat * h 3%nat - 105 * h 1%nat * h 4%nat) * (3 * h 3%nat) - (225 * h 3%nat ^ 2 - 315 * h 2%nat * h 4%nat) * h 2%nat.
Lemma rad_ms9_rel n z h integ : (4 <= n)%nat -> rad_integ n z h integ -> (ms9_relation integ <-> h9_rel h).
Proof.
  intros Hn [Hz [H0 H]]. unfold ms9_relation, h9_rel. rewrite !H by (cbn; lia). rewrite rm_2, rm_4, rm_6, rm_8, rm_22, rm_24, rm_26.
  assert (Z : z ^ 3 <> 0) by (apply pow_nonzero; lra). split; intros E.
  - apply (Rmult_eq_reg_l (z ^ 3)); auto. transitivity (((z * (3 * h 2%nat)) ^ 2 - z * h 1%nat * (z * (15 * h 3%nat))) * (z * (15 * h 4%nat))); [ring|]. rewrite E. ring.
  - match type of E with ?a = ?b => transitivity (z ^ 3 * a); [ring|]; rewrite E; ring end.
Qed.
Theorem rad_ms9 n z h integ I sw : (4 <= n)%nat -> fs_functional n I (rmoment h) -> rad_integ n z h integ -> h9_good h -> h9_rel h -> good_scheme n 9 I (ms9 n integ sw).
Proof.
  intros Hn Fs Hr Hg Hrel. apply good_of; [eapply rad_ms9_defined; eauto|]. intros s Hs.
  destruct (ms9_core n _ _ _ sw s Fs (rad_ms_integ _ _ _ _ Hr) Hs) as [E1 [E2 [E3 _]]]. split; auto. split; auto. apply E3.
  apply (rad_ms9_rel n z h); auto.
Qed.
Theorem rad_ms9_bad n z h integ I sw : (4 <= n)%nat -> fs_functional n I (rmoment h) -> rad_integ n z h integ -> h9_good h -> ~ h9_rel h ->
  exists s, ms9 n integ sw = Some s /\ s_dim s = n /\ s_degree s = 9%nat /\ apply (s_rule s) (mono (2 :: 2 :: repeat 0 (n - 2))%nat) <> I (2 :: 2 :: repeat 0 (n - 2))%nat.
Proof.
  intros Hn Fs Hr Hg Hrel. destruct (rad_ms9_defined n z h integ sw Hn Hr Hg) as [s Hs]. exists s. split; auto.
  destruct (ms9_core n _ _ _ sw s Fs (rad_ms_integ _ _ _ _ Hr) Hs) as [E1 [E2 [_ E4]]]. split; auto. split; auto.
  destruct Fs as [_ [_ F3]]. assert (X := F3 [2; 2]%nat (n - 2)%nat ltac:(cbn; lia)). cbn [app] in X. rewrite X. apply E4.
  intros E. apply Hrel. apply (rad_ms9_rel n z h integ); auto.
Qed.

(* ------------------------------------------------------------------ the three domains *)
Lemma ball_rad_integ n : rad_integ n (bal0 n) (h_ball n) (sn_integrator n).
Proof.
  split; [apply bal0_pos|]. split; [apply h_ball_0|]. intros l Hl. unfold sn_integrator.
  rewrite ndim_nball_val by (rewrite app_length, repeat_length; lia). rewrite rmoment_zeros. auto.
Qed.
Lemma ndim_enr_val n k : (1 <= n)%nat -> length k = n -> ndim_enr n k = radial_int (fun r => exp (- r)) n (fun _ => 1) * rmoment (h_enr n) k /\ 0 < radial_int (fun r => exp (- r)) n (fun _ => 1).
Proof.
  intros Hn Hk. destruct n as [|n]; [lia|]. 
  assert (P : 0 < radial_int (fun r => exp (- r)) (S n) (fun _ => 1)).
  { rewrite (radial_int_1 _ (fun a => INR (fact a)) n imp_exp). apply Rmult_lt_0_compat; [apply sph0_pos; lia|apply INR_fact_lt_0]. }
  split; auto. rewrite <- enrI_val by auto. unfold enrI, enr_mean, radial_mean, ndim_enr. field. lra.
Qed.
Lemma ndim_enr2_val n k : (1 <= n)%nat -> length k = n -> ndim_enr2 n k = radial_int (fun r => exp (- (r * r))) n (fun _ => 1) * rmoment (h_enr2 n) k /\ 0 < radial_int (fun r => exp (- (r * r))) n (fun _ => 1).
Proof.
  intros Hn Hk. destruct n as [|n]; [lia|]. 
  assert (P : 0 < radial_int (fun r => exp (- (r * r))) (S n) (fun _ => 1)).
  { destruct gauss_moments as [G [HG _]]. rewrite (radial_int_1 _ G n (fun a => proj2 (HG a))). apply Rmult_lt_0_compat; [apply sph0_pos; lia|apply HG]. }
  split; auto. rewrite <- enr2I_val by auto. unfold enr2I, enr2_mean, radial_mean, ndim_enr2. field. lra.
Qed.
Lemma enr_rad_integ n : (1 <= n)%nat -> rad_integ n (radial_int (fun r => exp (- r)) n (fun _ => 1)) (h_enr n) (enr_integrator n).
Proof.
  intros Hn. split; [apply (ndim_enr_val n (repeat 0%nat n)); [auto|apply repeat_length]|]. split; [apply h_enr_0|]. intros l Hl. unfold enr_integrator.
  destruct (ndim_enr_val n (l ++ repeat 0%nat (n - length l))) as [E _]; auto; [rewrite app_length, repeat_length; lia|]. rewrite E, rmoment_zeros. auto.
Qed.
Lemma enr2_rad_integ n : (1 <= n)%nat -> rad_integ n (radial_int (fun r => exp (- (r * r))) n (fun _ => 1)) (h_enr2 n) (enr2_integrator n).
Proof.
  intros Hn. split; [apply (ndim_enr2_val n (repeat 0%nat n)); [auto|apply repeat_length]|]. split; [apply h_enr2_0|]. intros l Hl. unfold enr2_integrator.
  destruct (ndim_enr2_val n (l ++ repeat 0%nat (n - length l))) as [E _]; auto; [rewrite app_length, repeat_length; lia|]. rewrite E, rmoment_zeros. auto.
Qed.
Ltac nnf := repeat (apply Rmult_integral_contrapositive; split); try apply pow_nonzero; lra.
Lemma ball_h7 n : h7_good (h_ball n).
Proof.
  assert (P := pos_INR n). unfold h7_good, h_ball. cbn [rise].
  apply (good_abc_scale ((INR n + 1) / ((INR n + 2) ^ 2 * (INR n + 4) ^ 2 * (INR n + 6))) _ _ _ (-2 * (INR n + 4) * (INR n + 6)) (-12 * (INR n + 4)) (-6)).
  1: apply Rdiv_lt_0_compat; [lra|]; repeat apply Rmult_lt_0_compat; try apply pow_lt; lra.
  1,2,3: field; repeat split; lra.
  unfold good_abc. repeat split; nra.
Qed.
Lemma ball_h9 n : h9_good (h_ball n).
Proof.
  assert (P := pos_INR n). unfold h9_good, h_ball. cbn [rise].
  apply (good_abc_scale ((INR n + 1) / ((INR n + 2) ^ 2 * (INR n + 4) ^ 2 * (INR n + 6) ^ 2 * (INR n + 8))) _ _ _ (-6 * (INR n + 6) * (INR n + 8)) (-60 * (INR n + 6)) (-90)).
  1: apply Rdiv_lt_0_compat; [lra|]; repeat apply Rmult_lt_0_compat; try apply pow_lt; lra.
  1,2,3: field; repeat split; lra.
  unfold good_abc. repeat split; nra.
Qed.
Lemma ball_h9_rel n : h9_rel (h_ball n).
Proof. assert (P := pos_INR n). unfold h9_rel, h_ball. cbn [rise]. field. repeat split; lra. Qed.
Lemma enr2_h7 n : h7_good (h_enr2 n).
Proof. unfold h7_good, h_enr2, good_abc. repeat split; lra. Qed.
Lemma enr2_h9 n : h9_good (h_enr2 n).
Proof. unfold h9_good, h_enr2, good_abc. repeat split; lra. Qed.
Lemma enr2_h9_rel n : h9_rel (h_enr2 n).
Proof. unfold h9_rel, h_enr2. field. Qed.
Lemma enr_h7 n : (1 <= n)%nat -> h7_good (h_enr n).
Proof.
  intros H. assert (P := pos_INR n). unfold h7_good. rewrite !h_enr_rise by auto. cbn [rise].
  apply (good_abc_scale (INR n + 1) _ _ _ (-2 * (INR n + 4)) (-12 * (INR n + 3) * (INR n + 6)) (-6 * (INR n + 1) * (INR n + 3) * (INR n + 8))).
  1: lra. 1,2,3: ring.
  unfold good_abc. generalize dependent (INR n). intros N HN. repeat split; [lra|nra| |].
  - assert (0 < (N + 1) * (N + 3) * (N + 8)) by (repeat apply Rmult_lt_0_compat; lra). lra.
  - match goal with |- 0 < ?e => replace e with (48 * (N + 3) * (3 * (N + 3) * (N + 6) ^ 2 - (N + 4) * (N + 1) * (N + 8))) by ring end.
    apply Rmult_lt_0_compat; [lra|]. ring_simplify. assert (0 <= N ^ 3) by (apply pow_le; auto). assert (0 <= N ^ 2) by (apply pow_le; auto). lra.
Qed.
Lemma enr_h9 n : (1 <= n)%nat -> h9_good (h_enr n).
Proof.
  intros H. assert (P := pos_INR n). unfold h9_good. rewrite !h_enr_rise by auto. cbn [rise].
  apply (good_abc_scale ((INR n + 1) ^ 2 * (INR n + 3)) _ _ _ (-6 * (INR n + 8)) (-60 * (INR n + 5) * (INR n + 10)) (-90 * (INR n + 3) * (INR n + 5) * (INR n + 12))).
  1: apply Rmult_lt_0_compat; [apply pow_lt|]; lra. 1,2,3: ring.
  unfold good_abc. generalize dependent (INR n). intros N HN. repeat split; [lra|nra| |].
  - assert (0 < (N + 3) * (N + 5) * (N + 12)) by (repeat apply Rmult_lt_0_compat; lra). lra.
  - match goal with |- 0 < ?e => replace e with (720 * (N + 5) * (5 * (N + 5) * (N + 10) ^ 2 - 3 * (N + 8) * (N + 3) * (N + 12))) by ring end.
    apply Rmult_lt_0_compat; [lra|]. ring_simplify. assert (0 <= N ^ 3) by (apply pow_le; auto). assert (0 <= N ^ 2) by (apply pow_le; auto). lra.
Qed.
Lemma enr_h9_no_rel n : (1 <= n)%nat -> ~ h9_rel (h_enr n).
Proof.
  intros H. assert (P := pos_INR n). unfold h9_rel. rewrite !h_enr_rise by auto. cbn [rise]. intros E.
  assert (X : 720 * ((INR n + 1) ^ 3 * (INR n + 3) ^ 2 * (INR n + 5)) = 0).
  { match type of E with ?a = ?b => transitivity (a - b); [ring|]; rewrite E; ring end. }
  assert (0 < (INR n + 1) ^ 3 * (INR n + 3) ^ 2 * (INR n + 5)) by (repeat apply Rmult_lt_0_compat; try apply pow_lt; lra). lra.
Qed.

(* ------------------------------------------------------------------ instances *)
Lemma h_ball_pos n m : 0 < h_ball n m.
Proof. unfold h_ball. apply Rinv_0_lt_compat, rise_pos. assert (P := pos_INR n). lra. Qed.
Lemma h_enr2_pos n m : 0 < h_enr2 n m.
Proof. unfold h_enr2. apply Rinv_0_lt_compat, pow_lt. lra. Qed.
Lemma h_enr_pos n m : (1 <= n)%nat -> 0 < h_enr n m.
Proof. intros H. rewrite h_enr_rise by auto. apply rise_pos. assert (P := pos_INR n). lra. Qed.
Theorem sn_ms3 n : (1 <= n)%nat -> good_scheme n 3 (ballI n) (sn_mcnamee_stenger_3 n).
Proof. intros H. eapply rad_ms3; eauto using ball_fs, ball_rad_integ, h_ball_pos. Qed.
Theorem sn_ms5 n : (2 <= n)%nat -> good_scheme n 5 (ballI n) (sn_mcnamee_stenger_5 n).
Proof. intros H. eapply rad_ms5; eauto using ball_fs, ball_rad_integ, h_ball_pos. Qed.
Theorem sn_ms7 n sw : (3 <= n)%nat -> good_scheme n 7 (ballI n) (ms7 n (sn_integrator n) sw).
Proof. intros H. eapply rad_ms7; eauto using ball_fs, ball_rad_integ, ball_h7. Qed.
Theorem sn_ms9 n sw : (4 <= n)%nat -> good_scheme n 9 (ballI n) (ms9 n (sn_integrator n) sw).
Proof. intros H. eapply rad_ms9; eauto using ball_fs, ball_rad_integ, ball_h9, ball_h9_rel. Qed.
Theorem enr_ms3 n : (1 <= n)%nat -> good_scheme n 3 (enrI n) (enr_mcnamee_stenger_3 n).
Proof. intros H. eapply rad_ms3; [auto|apply enr_fs; lia|apply enr_rad_integ; lia|apply h_enr_pos; lia]. Qed.
Theorem enr_ms5 n : (2 <= n)%nat -> good_scheme n 5 (enrI n) (enr_mcnamee_stenger_5 n).
Proof. intros H. eapply rad_ms5; [auto|apply enr_fs; lia|apply enr_rad_integ; lia|apply h_enr_pos; lia|apply h_enr_pos; lia]. Qed.
Theorem enr_ms7 n sw : (3 <= n)%nat -> good_scheme n 7 (enrI n) (ms7 n (enr_integrator n) sw).
Proof. intros H. eapply rad_ms7; [auto|apply enr_fs; lia|apply enr_rad_integ; lia|apply enr_h7; lia]. Qed.
Theorem enr_ms9_bad n sw : (4 <= n)%nat ->
  exists s, ms9 n (enr_integrator n) sw = Some s /\ s_dim s = n /\ s_degree s = 9%nat /\ apply (s_rule s) (mono (2 :: 2 :: repeat 0 (n - 2))%nat) <> enrI n (2 :: 2 :: repeat 0 (n - 2))%nat.
Proof. intros H. eapply rad_ms9_bad; [auto|apply enr_fs; lia|apply enr_rad_integ; lia|apply enr_h9; lia|apply enr_h9_no_rel; lia]. Qed.
Theorem enr2_ms3 n : (1 <= n)%nat -> good_scheme n 3 (enr2I n) (enr2_mcnamee_stenger_3 n).
Proof. intros H. eapply rad_ms3; [auto|apply enr2_fs; lia|apply enr2_rad_integ; lia|apply h_enr2_pos]. Qed.
Theorem enr2_ms5 n : (2 <= n)%nat -> good_scheme n 5 (enr2I n) (enr2_mcnamee_stenger_5 n).
Proof. intros H. eapply rad_ms5; [auto|apply enr2_fs; lia|apply enr2_rad_integ; lia|apply h_enr2_pos|apply h_enr2_pos]. Qed.
Theorem enr2_ms7 n sw : (3 <= n)%nat -> good_scheme n 7 (enr2I n) (ms7 n (enr2_integrator n) sw).
Proof. intros H. eapply rad_ms7; [auto|apply enr2_fs; lia|apply enr2_rad_integ; lia|apply enr2_h7]. Qed.
Theorem enr2_ms9 n sw : (4 <= n)%nat -> good_scheme n 9 (enr2I n) (ms9 n (enr2_integrator n) sw).
Proof. intros H. eapply rad_ms9; [auto|apply enr2_fs; lia|apply enr2_rad_integ; lia|apply enr2_h9|apply enr2_h9_rel]. Qed.
