(** Exactness of the rules for R^n with the weight exp(-r^2), for every dimension. *)
From Coq Require Import Reals List Arith Lia Lra Permutation Bool.
From Verif Require Import Spec RsumLemmas CombModel CombProofs CombProofs2 Moments SymExact
  IntegralSpec IntegralProofs PyBase SymmModel SymmProofs MiscModel CnModel SchemeTools CnTools CnProofs IntegralProofs2 CnProofs2 CnProofs4
  TrigSums CnProofs5 MsModel MsProofs MsProofs2 Dobrodeev SphereSpec SphereInt RadialInt RadialTools UnModel UnProofs NsimplexProofs RadialDob SnModel RadialTrig
  SnProofs SnDob EnrModel RadialMs EnrProofs.
Import ListNotations.
Set Bullet Behavior "Strict Subproofs".
Open Scope R_scope.

Theorem enr2_stroud_secrest_1_exact n : (1 <= n)%nat -> good_scheme n 2 (enr2I n) (enr2_stroud_secrest_1 n).
Proof.
  intros H. unfold enr2_stroud_secrest_1. inr_pos n. rewrite rdiv_ok by lra. cbn [bind]. apply bind_sqrt; [lra|]. intros c Pc Qc.
  apply (simplex_scheme n _ (h_enr2 n)); auto using ne2_h, h_enr2_0. rewrite Qc. unfold h_enr2. cbn. lra.
Qed.
Theorem enr2_stroud_secrest_2_exact n : (1 <= n)%nat -> good_scheme n 3 (enr2I n) (enr2_stroud_secrest_2 n).
Proof.
  intros H. unfold enr2_stroud_secrest_2. inr_pos n. apply bind_sqrt; [lra|]. intros r Pr Qr.
  apply bind_div; [lra|]. intros w Hw. fsd_step.
  apply (from_data_good n [(w, [([r; - r], 1%nat); ([0], (n - 1)%nat)])]). subst w.
  enr2_even n. all: rad_pre n; rewrite ?Qr; prep n; intros; field; side.
Qed.
Theorem enr2_stroud_secrest_3_exact n : (1 <= n)%nat -> good_scheme n 3 (enr2I n) (enr2_stroud_secrest_3 n).
Proof.
  intros H. unfold enr2_stroud_secrest_3. inr_pos n. apply bind_sqrt; [lra|]. intros r Pr Qr. rewrite Rpm_combine by (apply (sq_pos_nz r (1 / 2)); auto; lra).
  apply (from_data_good n [(1 / 2 ^ n, [([r; - r], n)])]).
  enr2_even n. all: rad_pre n; rewrite ?Qr; prep n; intros; field; side.
Qed.
Theorem enr2_stroud_secrest_4_exact n : (2 <= n)%nat -> good_scheme n 5 (enr2I n) (enr2_stroud_secrest_4 n).
Proof.
  intros H. unfold enr2_stroud_secrest_4. cbv zeta. inr_pos n.
  apply bind_sqrt; [lra|]. intros r Pr Qr. apply bind_sqrt; [lra|]. intros s Ps Qs.
  apply bind_div; [nz_prod|]. intros A HA. apply bind_div; [nz_prod|]. intros B HB. apply bind_div; [nz_prod|]. intros C HC. fsd_step. fsd_step. rewrite Rz_combine.
  apply (from_data_good n [(A, [([0], n)]); (B, [([r; - r], 1%nat); ([0], (n - 1)%nat)]); (C, [([s; - s], 2%nat); ([0], (n - 2)%nat)])]). subst A B C.
  enr2_even n. all: rad_pre n; rewrite ?Qr, ?Qs; prep n; intros; field; side.
Qed.
Theorem enr2_phillips_exact n : (2 <= n)%nat -> good_scheme n 5 (enr2I n) (enr2_phillips n).
Proof.
  intros H. unfold enr2_phillips. cbv zeta. inr_pos n.
  apply bind_sqrt; [lra|]. intros r Pr Qr. fsd_step. fsd_step. rewrite Rz_combine.
  apply (from_data_good n [((INR n ^ 2 - 7 * INR n + 18) / 18, [([0], n)]); ((4 - INR n) / 18, [([r; - r], 1%nat); ([0], (n - 1)%nat)]); (1 / 36, [([r; - r], 2%nat); ([0], (n - 2)%nat)])]).
  enr2_even n. all: rad_pre n; rewrite ?Qr; prep n; intros; field; side.
Qed.
Theorem enr2_xiu_exact n : (1 <= n)%nat -> good_scheme n 2 (enr2I n) (enr2_xiu n).
Proof.
  intros H. unfold enr2_xiu. inr_pos n. apply bind_sqrt; [lra|]. intros s Ps Qs. assert (0 < s) by nra. apply bind_div; [lra|]. intros d Hd.
  apply bind_div; [lra|]. intros w Hw. apply (trig2_exact n 1 d w _ (h_enr2 n)); auto using ne2_h, h_enr2_0.
  - unfold h_enr2. cbn. lra.
  - rewrite Hd. unfold h_enr2. cbn. replace (1 / s * (1 / s)) with (1 / (s * s)) by (field; lra). rewrite Qs. field.
Qed.
Lemma vscale_dim n c l : Forall (fun p : point => length p = n) l -> Forall (fun p : point => length p = n) (map (vscale c) l).
Proof. intros H. apply Forall_map. eapply Forall_impl; [|exact H]. intros p Hp. cbn beta in *. unfold vscale. rewrite map_length. auto. Qed.
Theorem enr2_lu_darmofal_1_exact n : (2 <= n)%nat -> good_scheme n 5 (enr2I n) (enr2_lu_darmofal_1 n).
Proof.
  intros H. inr_pos n. unfold enr2_lu_darmofal_1. cbv zeta. apply bind_guard; [apply Nat.leb_le; auto|].
  assert (N2 : 2 <= INR n) by (apply (le_INR 2); lia).
  rewrite nsimplex_run. cbn [bind]. apply bind_div; [lra|]. intros q Hq. apply bind_sqrt; [subst; apply Rlt_le, Rdiv_lt_0_compat; lra|]. intros c Pc Qc.
  apply bind_sqrt; [lra|]. intros sg Psg Qsg. apply bind_div; [lra|]. intros p Hp. apply bind_div; [nz_prod|]. intros A HA. apply bind_div; [nz_prod|]. intros B HB.
  eexists. split; [reflexivity|]. split; [auto|]. split; [auto|]. cbn [s_rule].
  assert (E4 : c ^ 4 = INR n ^ 2 / (4 * (INR n - 1) ^ 2)) by (replace (c ^ 4) with ((c * c) ^ 2) by ring; rewrite Qc, Hq; field; lra).
  assert (E2 : c ^ 2 = INR n / (2 * (INR n - 1))) by (replace (c ^ 2) with (c * c) by ring; rewrite Qc, Hq; auto).
  assert (S2 : sg ^ 2 = INR n / 2 + 1) by (replace (sg ^ 2) with (sg * sg) by ring; auto).
  assert (S4 : sg ^ 4 = (INR n / 2 + 1) ^ 2) by (replace (sg ^ 4) with ((sg * sg) ^ 2) by ring; rewrite Qsg; auto).
  apply (pair5_exact n _ (h_enr2 n) _ p A B sg c); auto; try lia.
  - apply ne2_h. lia.
  - apply mk_rule_dim. repeat (apply Forall_app; split); auto using nsx_pts_dim, pair_dim, vscale_dim. repeat constructor. apply repeat_length.
  - intros l Hb. rewrite !mk_rule_app, !apply_app, !apply_uniform by (rewrite ?repeat_length, ?map_length; auto).
    rewrite !map_map. cbn [map]. unfold apply at 1, mk_rule. cbn [List.combine fst snd map Rsum].
    rewrite !(Rsum_map_ext (fun x => iprod (coord (vscale sg x)) l) (fun x => iprod (fun a => sg * coord x a) l)) by (intros; apply iprod_ext; intros; apply coord_scale).
    rewrite !(Rsum_map_ext (fun x => iprod (coord (vscale (- sg) x)) l) (fun x => iprod (fun a => - sg * coord x a) l)) by (intros; apply iprod_ext; intros; apply coord_scale).
    rewrite !vert_sum, !pair_sum by auto.
    rewrite (iprod_ext (coord (repeat 0 n)) (fun _ => 0)) by (intros; unfold coord; apply nth_repeat). rewrite iprod_zero.
    rewrite !Rpow_mult_distr. replace ((- sg) ^ length l) with ((-1) ^ length l * sg ^ length l) by (rewrite <- Rpow_mult_distr; f_equal; ring). ring.
  - rewrite HA, HB, Hp, h_enr2_0. field. lra.
  - rewrite Rpow_mult_distr, E2, S2, HA, HB. unfold h_enr2. field. lra.
  - rewrite E4, HA, HB. field. lra.
  - rewrite Rpow_mult_distr, E4, S4, HB. unfold h_enr2. field. lra.
Qed.
Theorem stroud_enr2_5_3_exact n : (3 <= n)%nat -> good_scheme n 5 (enr2I n) (stroud_enr2_5_3 n).
Proof.
  intros H. unfold stroud_enr2_5_3. cbv zeta. inr_pos n. assert (N3 : 3 <= INR n) by (replace 3 with (INR 3) by (simpl; lra); apply le_INR; lia).
  assert (P2 := pow2_nz n).
  apply bind_guard; [apply Nat.ltb_lt; lia|]. apply bind_sqrt; [lra|]. intros r Pr Qr. apply bind_div; [lra|]. intros q Hq.
  assert (0 < q) by (subst; apply Rdiv_lt_0_compat; lra). apply bind_sqrt; [lra|]. intros s Ps Qs.
  apply bind_div; [nz_prod|]. intros A HA. apply bind_div; [apply Rmult_integral_contrapositive; split; [auto|apply pow_nonzero; lra]|]. intros B HB. fsd_step. rewrite Rpm_combine by (apply (sq_pos_nz s q); auto).
  apply (from_data_good n [(A, [([r; - r], 1%nat); ([0], (n - 1)%nat)]); (B, [([s; - s], n)])]). subst A B.
  enr2_even n. all: rad_pre n; rewrite ?Qr, ?Qs, ?Hq; clear Hq; prep n; intros; field; side.
Qed.
Lemma stroud_enr2_5_4_data_run n ks : (1 <= n)%nat -> stroud_enr2_5_4_data n ks = Some (face_list n 1 (1 / 2) ks).
Proof.
  intros H. inr_pos n. induction ks as [|k ks IH]; [reflexivity|]. cbn [stroud_enr2_5_4_data]. cbv zeta. pose proof (pos_INR k).
  rewrite !rsqrt_ok by lra. rewrite rdiv_ok by nz_prod. rewrite IH. cbn [bind]. unfold face_list. cbn [map]. unfold face_entry at 2. f_equal. f_equal. f_equal.
  - rewrite Rmult_1_l. auto.
  - replace ((INR k + 2) * (1 / 2)) with ((INR k + 2) / 2) by field. auto.
Qed.
Theorem stroud_enr2_5_4_exact n : (1 <= n)%nat -> good_scheme n 5 (enr2I n) (stroud_enr2_5_4 n).
Proof.
  intros H. unfold stroud_enr2_5_4. inr_pos n. rewrite rdiv_ok by lra. cbn [bind].
  rewrite stroud_enr2_5_4_data_run by auto. cbn [bind]. eexists. split; [reflexivity|]. split; [auto|]. split; [auto|].
  apply (face_exact n 1 (1 / 2) (2 / (INR n + 2)) _ (h_enr2 n)); auto using ne2_h, h_enr2_0.
  - lra.
  - unfold h_enr2. cbn. lra.
  - unfold h_enr2. cbn. lra.
  - field. lra.
  - intros f. unfold data_sum. cbn [map Rsum fst snd]. unfold Rz, z. cbn [map Rsum]. ring.
  - constructor; [repeat constructor; cbn; apply repeat_length|]. apply face_dims; apply Forall_forall; intros k Hk; apply in_seq in Hk; lia.
Qed.
Lemma stroud_enr2_5_5_gen n pm : (1 <= n)%nat -> pm * pm = 1 -> 0 < INR n + 2 + pm * (INR n - 1) * sqrt (2 * (INR n + 2)) ->
  good_scheme n 5 (enr2I n) (stroud_enr2_5_5 n pm).
Proof.
  intros H Hpm Hr. unfold stroud_enr2_5_5. cbv zeta. inr_pos n. assert (P2 := pow2_nz n).
  rewrite (rsqrt_ok (2 * (INR n + 2))) by lra. cbn [bind]. assert (Pa := sqrt_pos (2 * (INR n + 2))). assert (Qa := sqrt_sqrt (2 * (INR n + 2)) ltac:(lra)).
  set (a := sqrt (2 * (INR n + 2))) in *. clearbody a. assert (2 < a) by nra. assert (a < INR n + 2) by nra.
  assert (Hpm' : pm = 1 \/ pm = -1) by (assert ((pm - 1) * (pm + 1) = 0) by lra; apply Rmult_integral in H2; destruct H2; lra).
  apply bind_div; [lra|]. intros r2 Hr2. assert (0 < r2) by (subst; apply Rdiv_lt_0_compat; lra).
  apply bind_sqrt; [lra|]. intros r Pr Qr. apply bind_div; [lra|]. intros s2 Hs2. assert (0 < s2) by (subst s2; apply Rdiv_lt_0_compat; [destruct Hpm'; subst pm; lra|lra]).
  apply bind_sqrt; [lra|]. intros s Ps Qs. apply bind_div; [lra|]. intros B0 HB0. apply bind_div; [apply Rmult_integral_contrapositive; split; auto; lra|]. intros B1 HB1.
  apply bind_fsd_full; auto. rewrite Rz_combine.
  apply (from_data_good n [(B0, [([0], n)]); (B1, [([r; - r], 1%nat); ([s; - s], (n - 1)%nat)])]).
  assert (Ea : a ^ 2 = 2 * (INR n + 2)) by (rewrite <- Qa; ring). assert (Ep : pm ^ 2 = 1) by (rewrite <- Hpm; ring).
  enr2_even n. all: rad_pre n; rewrite ?Qr, ?Qs, ?HB0, ?HB1, ?Hr2, ?Hs2; clear Hr2 Hs2 Qr Qs HB1 HB0 Hpm Hpm' Hr Qa.
  all: inr_lits; rewrite ?pow1, ?pow2_pred by lia; nz_facts n.
  all: field_simplify_eq; [|side]. all: rewrite ?Ea, ?Ep; ring.
Qed.
Theorem stroud_enr2_5_5a_exact n : (1 <= n)%nat -> good_scheme n 5 (enr2I n) (stroud_enr2_5_5a n).
Proof.
  intros H. inr_pos n. apply stroud_enr2_5_5_gen; auto; [ring|]. assert (P := sqrt_pos (2 * (INR n + 2))). nra.
Qed.
Theorem stroud_enr2_5_5b_exact n : (1 <= n <= 2)%nat -> good_scheme n 5 (enr2I n) (stroud_enr2_5_5b n).
Proof.
  intros H. inr_pos n. apply stroud_enr2_5_5_gen; [lia|ring|]. assert (P := sqrt_pos (2 * (INR n + 2))). assert (Q := sqrt_sqrt (2 * (INR n + 2)) ltac:(lra)).
  assert (HN : INR n = 1 \/ INR n = 2). { destruct n as [|[|[|]]]; try lia; cbn; [left|right]; lra. }
  destruct HN as [E | E]; rewrite E in *; nra.
Qed.
Theorem stroud_enr2_5_5b_raises n : (3 <= n)%nat -> stroud_enr2_5_5b n = None.
Proof.
  intros H. unfold stroud_enr2_5_5b, stroud_enr2_5_5. cbv zeta. assert (N3 : 3 <= INR n) by (replace 3 with (INR 3) by (simpl; lra); apply le_INR; lia).
  rewrite (rsqrt_ok (2 * (INR n + 2))) by lra. cbn [bind]. assert (Pa := sqrt_pos (2 * (INR n + 2))). assert (Qa := sqrt_sqrt (2 * (INR n + 2)) ltac:(lra)).
  set (a := sqrt (2 * (INR n + 2))) in *. clearbody a. rewrite rdiv_ok by lra. cbn [bind]. 
  assert (3 < a) by nra. assert (X : (INR n + 2 + -1 * (INR n - 1) * a) / (2 * INR n) < 0).
  { apply (Rmult_lt_reg_r (2 * INR n)); [lra|]. replace ((INR n + 2 + -1 * (INR n - 1) * a) / (2 * INR n) * (2 * INR n)) with (INR n + 2 + -1 * (INR n - 1) * a) by (field; lra). nra. }
  unfold rsqrt at 1. destruct Rle_dec; [lra|]. reflexivity.
Qed.
Theorem stroud_enr2_5_6_exact n : (5 <= n)%nat -> good_scheme n 5 (enr2I n) (stroud_enr2_5_6 n).
Proof.
  intros H. unfold stroud_enr2_5_6. cbv zeta. inr_pos n. assert (N5 : 5 <= INR n) by (replace 5 with (INR 5) by (simpl; lra); apply le_INR; lia).
  assert (P2 := pow2_nz n). apply bind_guard; [apply Nat.leb_le; lia|].
  apply bind_sqrt; [lra|]. intros p Pp Qp. assert (p < 1.4143) by nra. assert (0 < p) by nra.
  apply bind_sqrt; [lra|]. intros a Pa Qa. assert (0 < a) by nra.
  assert (p + a < INR n).
  { assert (a < INR n - 1.5); [|lra]. assert (a * a < (INR n - 1.5) * (INR n - 1.5)); [rewrite Qa; nra|]. nra. }
  apply bind_div; [lra|]. intros r2 Hr2. assert (0 < r2) by (subst; apply Rdiv_lt_0_compat; nra).
  apply bind_sqrt; [lra|]. intros r Pr Qr. apply bind_div; [lra|]. intros s2 Hs2. assert (0 < s2) by (subst s2; apply Rdiv_lt_0_compat; lra).
  apply bind_sqrt; [lra|]. intros s Ps Qs. apply bind_sqrt; [lra|]. intros t Pt Qt.
  apply bind_div; [apply Rmult_integral_contrapositive; split; auto; lra|]. intros A HA.
  apply bind_fsd_full; [lia|]. rewrite Rpm_combine by (apply (sq_pos_nz t ((1 + p) / 2)); auto; lra).
  apply (from_data_good n [(A, [([r; - r], 1%nat); ([s; - s], (n - 1)%nat)]); (A, [([t; - t], n)])]).
  assert (Ea : a ^ 2 = 2 * (INR n + 1)) by (rewrite <- Qa; ring). assert (Ep : p ^ 2 = 2) by (rewrite <- Qp; ring).
  enr2_even n. all: rad_pre n; rewrite ?Qr, ?Qs, ?Qt, ?HA, ?Hr2, ?Hs2; clear Hr2 Hs2 Qr Qs Qt HA Qa Qp.
  all: inr_lits; rewrite ?pow1, ?pow2_pred by lia; nz_facts n.
  all: field_simplify_eq; [|side]. all: rewrite ?Ea, ?Ep; ring.
Qed.
