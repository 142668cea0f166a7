(** Exactness of the rules for R^n with the weight exp(-r), for every dimension. *)
From Coq Require Import Reals List Arith Lia Lra Permutation Bool.
From Verif Require Import Spec RsumLemmas CombModel CombProofs CombProofs2 Moments SymExact
  IntegralSpec IntegralProofs PyBase SymmModel SymmProofs MiscModel CnModel SchemeTools CnTools CnProofs IntegralProofs2 CnProofs2 CnProofs4
  TrigSums CnProofs5 MsModel MsProofs MsProofs2 Dobrodeev SphereSpec SphereInt RadialInt RadialTools UnModel UnProofs NsimplexProofs RadialDob SnModel RadialTrig
  SnProofs SnDob EnrModel RadialMs.
Import ListNotations.
Set Bullet Behavior "Strict Subproofs".
Open Scope R_scope.

Ltac enr_even n := let F := fresh "Fs" in assert (F := enr_fs n ltac:(lia)); rad_even F.
Ltac enr2_even n := let F := fresh "Fs" in assert (F := enr2_fs n ltac:(lia)); rad_even F.
Lemma ne_h n : (1 <= n)%nat -> (forall k, length k = n -> enrI n k = rmoment (h_enr n) k). Proof. intros. apply enrI_val; auto. Qed.
Lemma ne2_h n : (1 <= n)%nat -> (forall k, length k = n -> enr2I n k = rmoment (h_enr2 n) k). Proof. intros. apply enr2I_val; auto. Qed.

(* ------------------------------------------------------------------ _nsimplex is sqrt(n) times the regular simplex *)
Definition enr2_s (n j : nat) : R := sqrt ((INR n + 1) / ((INR n + 1 - INR j) * (INR n - INR j))).
Lemma enr2_s_val n j : (j < n)%nat -> enr2_s n j = sqrt (INR n) * nsx_s n j.
Proof.
  intros H. assert (P := pos_INR j). assert (L : INR j + 1 <= INR n) by (rewrite <- S_INR; apply le_INR; lia).
  unfold enr2_s, nsx_s. rewrite <- sqrt_mult.
  - f_equal. field. repeat split; lra.
  - lra.
  - apply Rlt_le, Rdiv_lt_0_compat; [lra|]. repeat apply Rmult_lt_0_compat; lra.
Qed.
Lemma enr2_head_run n ks : Forall (fun i => (i < n)%nat) ks -> enr2_nsimplex_head n ks = Some (map (fun i => sqrt (INR n) * - nsx_s n i) ks).
Proof.
  induction 1 as [|j ks Hj _ IH]; [reflexivity|]. cbn [enr2_nsimplex_head map]. assert (P := pos_INR j). assert (L : INR j + 1 <= INR n) by (rewrite <- S_INR; apply le_INR; lia).
  rewrite rdiv_ok by nz_prod. cbn [bind]. rewrite rsqrt_ok by (apply Rlt_le, Rdiv_lt_0_compat; [lra|]; apply Rmult_lt_0_compat; lra). cbn [bind].
  rewrite IH. cbn [bind]. f_equal. f_equal. fold (enr2_s n j). rewrite enr2_s_val by auto. ring.
Qed.
Lemma enr2_row_run n i : (1 <= n)%nat -> (i <= n)%nat -> enr2_nsimplex_row n i = Some (vscale (sqrt (INR n)) (nsx_point n i)).
Proof.
  intros H1 Hi. unfold enr2_nsimplex_row. rewrite enr2_head_run by (apply Forall_forall; intros k Hk; apply in_seq in Hk; lia). cbn [bind].
  unfold vscale, nsx_point. rewrite map_map. destruct (Nat.ltb_spec i n).
  - assert (P := pos_INR i). assert (L : INR i + 1 <= INR n) by (rewrite <- S_INR; apply le_INR; lia).
    rewrite rdiv_ok by lra. cbn [bind]. rewrite rsqrt_ok by (apply Rlt_le, Rdiv_lt_0_compat; [|lra]; apply Rmult_lt_0_compat; lra). cbn [bind]. f_equal.
    rewrite (seq_cut n i) by auto. rewrite !map_app. cbn [map]. f_equal.
    { apply map_ext_in. intros j Hj. apply in_seq in Hj. rewrite nsx_above by lia. auto. }
    f_equal.
    + f_equal. rewrite nsx_diag. transitivity ((INR n - INR i) * (sqrt (INR n) * nsx_s n i)); [|ring]. rewrite <- enr2_s_val by auto. unfold enr2_s.
      replace ((INR n + 1) * (INR n - INR i) / (INR n + 1 - INR i)) with ((INR n - INR i) * (INR n - INR i) * ((INR n + 1) / ((INR n + 1 - INR i) * (INR n - INR i)))) by (field; repeat split; lra).
      rewrite sqrt_mult_alt by nra. rewrite sqrt_square by lra. auto.
    + symmetry. apply nth_ext with (d := 0) (d' := 0).
      * rewrite map_length, seq_length, repeat_length. auto.
      * intros j Hj. rewrite map_length, seq_length in Hj. rewrite nth_repeat. rewrite (nth_indep _ 0 (sqrt (INR n) * nsx n i 0)) by (rewrite map_length, seq_length; auto).
        rewrite (map_nth (fun x => sqrt (INR n) * nsx n i x)), seq_nth by auto. rewrite nsx_below by lia. ring.
  - f_equal. replace i with n by lia. apply map_ext_in. intros j Hj. apply in_seq in Hj. rewrite nsx_above by lia. auto.
Qed.
Theorem enr2_nsimplex_run n : (1 <= n)%nat -> enr2_nsimplex n = Some (map (vscale (sqrt (INR n))) (nsx_pts n)).
Proof.
  intros H. unfold enr2_nsimplex. rewrite (opt_list_run _ (fun i => vscale (sqrt (INR n)) (nsx_point n i))).
  - rewrite pts_as_points, map_map. auto.
  - intros a Ha. apply in_seq in Ha. apply enr2_row_run; lia.
Qed.
Lemma simplex_scheme n I h c : (1 <= n)%nat -> (forall k, length k = n -> I k = rmoment h k) -> h 0%nat = 1 -> h 1%nat = c * c ->
  good_scheme n 2 I (let! p := enr2_nsimplex n in Some (from_data n [(1 / (INR n + 1), map (vscale c) p)] 2)).
Proof.
  intros Hn HI H0 H1. inr_pos n. rewrite enr2_nsimplex_run by auto. cbn [bind]. eexists. split; [reflexivity|]. split; [auto|]. split; [auto|]. cbn [s_rule from_data].
  rewrite mk_rule_untangle. cbn [flat_map fst snd]. rewrite app_nil_r, pts_as_points, !map_map.
  rewrite (map_ext _ (fun r => (1 / (INR n + 1), vscale (c * sqrt (INR n)) (nsx_point n r)))).
  - apply (simplex2_exact n (c * sqrt (INR n)) I h); auto. rewrite H1. replace (c * sqrt (INR n) * (c * sqrt (INR n))) with (c * c * (sqrt (INR n) * sqrt (INR n))) by ring.
    rewrite sqrt_sqrt by lra. field. lra.
  - intros r. f_equal. unfold vscale. rewrite map_map. apply map_ext. intros; ring.
Qed.

(* ------------------------------------------------------------------ enr *)
Theorem enr_stroud_secrest_1_exact n : (1 <= n)%nat -> good_scheme n 2 (enrI n) (enr_stroud_secrest_1 n).
Proof.
  intros H. unfold enr_stroud_secrest_1. inr_pos n. rewrite rdiv_ok by lra. cbn [bind]. apply bind_sqrt; [lra|]. intros c Pc Qc.
  apply (simplex_scheme n _ (h_enr n)); auto using ne_h, h_enr_0. rewrite h_enr_rise by auto. cbn. lra.
Qed.
Theorem enr_stroud_secrest_2_exact n : (1 <= n)%nat -> good_scheme n 3 (enrI n) (enr_stroud_secrest_2 n).
Proof.
  intros H. unfold enr_stroud_secrest_2. inr_pos n. assert (0 < INR n * (INR n + 1)) by (apply Rmult_lt_0_compat; lra). apply bind_sqrt; [lra|]. intros r Pr Qr.
  apply bind_div; [lra|]. intros w Hw. fsd_step.
  apply (from_data_good n [(w, [([r; - r], 1%nat); ([0], (n - 1)%nat)])]). subst w.
  enr_even n. all: rad_pre n; rewrite ?Qr; prep n; intros; field; side.
Qed.
Theorem enr_stroud_secrest_3_exact n : (1 <= n)%nat -> good_scheme n 3 (enrI n) (enr_stroud_secrest_3 n).
Proof.
  intros H. unfold enr_stroud_secrest_3. inr_pos n. apply bind_sqrt; [lra|]. intros r Pr Qr. rewrite Rpm_combine by (apply (sq_pos_nz r (INR n + 1)); auto; lra).
  apply (from_data_good n [(1 / 2 ^ n, [([r; - r], n)])]).
  enr_even n. all: rad_pre n; rewrite ?Qr; prep n; intros; field; side.
Qed.
Theorem enr_stroud_secrest_4_exact n : (2 <= n)%nat -> good_scheme n 5 (enrI n) (enr_stroud_secrest_4 n).
Proof.
  intros H. unfold enr_stroud_secrest_4. cbv zeta. inr_pos n. assert (0 < (INR n + 2) * (INR n + 3)) by (apply Rmult_lt_0_compat; lra).
  apply bind_sqrt; [lra|]. intros r Pr Qr. apply bind_sqrt; [lra|]. intros s Ps Qs.
  apply bind_div; [nz_prod|]. intros A HA. apply bind_div; [nz_prod|]. intros B HB. apply bind_div; [nz_prod|]. intros C HC. fsd_step. fsd_step. rewrite Rz_combine.
  apply (from_data_good n [(A, [([0], n)]); (B, [([r; - r], 1%nat); ([0], (n - 1)%nat)]); (C, [([s; - s], 2%nat); ([0], (n - 2)%nat)])]). subst A B C.
  enr_even n. all: rad_pre n; rewrite ?Qr, ?Qs; prep n; intros; field; side.
Qed.
Lemma face_data_total n c s2 : (1 <= n)%nat -> 0 < s2 ->
  fold_right Rplus 0 (map (fun item => fst item * INR (length (snd item))) (face_list n c s2 (seq 1 n))) = c - 2 * c / (INR n + 2).
Proof.
  intros Hn Hs. assert (Ez : tdeg (repeat 0%nat n) = 0%nat) by apply tdeg_repeat0.
  assert (G := face_sum n c s2 n Hs 1 [] (repeat 0%nat n) ltac:(lia) ltac:(lia) (repeat_length _ _) eq_refl ltac:(lia)).
  cbn [app] in G. rewrite Ez in G. change (0 ^ tdeg []) with 1 in G. unfold face in G. rewrite Ez in G.
  replace (existsb Nat.odd (repeat 0%nat n)) with false in G by (clear; induction n; auto). cbn [pow INR] in G.
  assert (E : data_sum (face_list n c s2 (seq 1 n)) (mono (repeat 0%nat n)) = fold_right Rplus 0 (map (fun item => fst item * INR (length (snd item))) (face_list n c s2 (seq 1 n)))).
  { unfold data_sum. generalize (face_list n c s2 (seq 1 n)). induction l as [|g l IH]; [reflexivity|]. cbn [map Rsum fold_right]. rewrite IH. f_equal. f_equal.
    rewrite (Rsum_map_ext _ (fun _ => 1)) by (intros; apply mono0; auto). rewrite Rsum_map_const. ring. }
  rewrite <- E. lra.
Qed.
Lemma stroud_enr_5_3_data_run n ks : (1 <= n)%nat -> stroud_enr_5_3_data n (sqrt (INR n + 3)) ks =
  Some (face_list n ((INR n + 1) / (INR n + 3)) (INR n + 3) ks).
Proof.
  intros H. inr_pos n. induction ks as [|k ks IH]; [reflexivity|]. cbn [stroud_enr_5_3_data]. cbv zeta. pose proof (pos_INR k).
  rewrite rsqrt_ok by nra. rewrite rdiv_ok by nz_prod. rewrite IH. cbn [bind]. unfold face_list. cbn [map]. unfold face_entry at 2. f_equal. f_equal. f_equal.
  assert (2 ^ n <> 0) by apply pow2_nz. field. repeat split; auto; lra.
Qed.
Theorem stroud_enr_5_3_exact n : (1 <= n)%nat -> good_scheme n 5 (enrI n) (stroud_enr_5_3 n).
Proof.
  intros H. unfold stroud_enr_5_3. inr_pos n. rewrite rsqrt_ok by lra. cbn [bind].
  rewrite stroud_enr_5_3_data_run by auto. cbn [bind]. cbv zeta. rewrite face_data_total by (auto; lra). eexists. split; [reflexivity|]. split; [auto|]. split; [auto|].
  apply (face_exact n ((INR n + 1) / (INR n + 3)) (INR n + 3) (1 - ((INR n + 1) / (INR n + 3) - 2 * ((INR n + 1) / (INR n + 3)) / (INR n + 2))) _ (h_enr n)); auto using ne_h, h_enr_0.
  - lra.
  - rewrite h_enr_rise by auto. cbn. field. lra.
  - rewrite h_enr_rise by auto. cbn. field. lra.
  - field. lra.
  - intros f. unfold data_sum. rewrite map_app, Rsum_app. cbn [map Rsum fst snd]. unfold Rz, z. cbn [map Rsum]. ring.
  - apply Forall_app. split; [apply face_dims; apply Forall_forall; intros k Hk; apply in_seq in Hk; lia|]. repeat constructor. cbn. apply repeat_length.
Qed.
Theorem stroud_enr_5_4_exact n : (1 <= n)%nat -> good_scheme n 5 (enrI n) (stroud_enr_5_4 n).
Proof.
  intros H. unfold stroud_enr_5_4. cbv zeta. inr_pos n. assert (P2 := pow2_nz n).
  apply bind_sqrt; [lra|]. intros a Pa Qa. assert (2 < a) by nra. assert (a < INR n + 2) by nra.
  apply bind_div; [lra|]. intros r2 Hr2. assert (0 < r2).
  { subst; apply Rdiv_lt_0_compat; [|lra]. assert (0 <= (INR n - 1) * (INR n + 3) * a) by (repeat apply Rmult_le_pos; lra). assert (0 < (INR n + 2) * (INR n + 3)) by (apply Rmult_lt_0_compat; lra). lra. }
  apply bind_sqrt; [lra|]. intros r Pr Qr. apply bind_div; [lra|]. intros s2 Hs2. assert (0 < s2) by (subst; apply Rdiv_lt_0_compat; nra).
  apply bind_sqrt; [lra|]. intros s Ps Qs. apply bind_div; [nz_prod|]. intros B0 HB0. apply bind_div; [nz_prod|]. intros B1 HB1.
  apply bind_fsd_full; auto. rewrite Rz_combine.
  apply (from_data_good n [(B0, [([0], n)]); (B1, [([r; - r], 1%nat); ([s; - s], (n - 1)%nat)])]).
  assert (Eq : INR n = (a * a - 4) / 2) by lra. assert (a * a - 4 <> 0) by lra. assert (a - 2 <> 0) by lra. assert (a + 2 <> 0) by lra. assert (a * a + 2 <> 0) by nra.
  enr_even n. all: rad_pre n; rewrite ?Qr, ?Qs, ?HB0, ?HB1, ?Hr2, ?Hs2; clear Hr2 Hs2 Qr Qs HB1 HB0.
  all: inr_lits; rewrite ?pow1, ?pow2_pred by lia; nz_facts n; elim_n n.
  all: field; side; try lra; try (intros ?; nra).
Qed.
