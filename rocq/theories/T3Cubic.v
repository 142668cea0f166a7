(** The tetrahedron scheme liu_vinokur_12 of quadpy/t3, whose parameter is a root of a cubic. *)
From Coq Require Import Reals List Arith ZArith Lia Lra String Permutation QArith Qreals.
From Verif Require Import Spec RsumLemmas IntegralSpec IntegralProofs PyBase SymmModel OrbitModel SchemeTools Tower TowerSym TowerMoments FixSpec FixTools T3Model.
Import ListNotations.
Set Bullet Behavior "Strict Subproofs".
Open Scope R_scope.
Local Notation length := List.length.

(** In barycentric coordinates the monomials of the highest degree are enough. *)
Lemma simplex_moment_bump n k : length k = S n -> simplex_moment n k = Rsum (map (fun i => simplex_moment n (bump 1 i k)) (seq 0 (S n))).
Proof.
  intros L.
  assert (P : forall k, Rsum (map (fun i => prodfactR (bump 1 i k)) (seq 0 (length k))) = INR (length k + tdeg k) * prodfactR k).
  { clear. induction k as [|a k IH]; [cbn; unfold prodfactR; cbn; ring|]. cbn [length]. rewrite <- cons_seq. cbn [map Rsum].
    rewrite <- seq_shift, map_map.
    rewrite (Rsum_map_ext _ (fun i => INR (fact a) * prodfactR (bump 1 i k))) by (intros; reflexivity). rewrite Rsum_map_scal, IH.
    change (bump 1 0 (a :: k)) with ((a + 1)%nat :: k). change (prodfactR ((a + 1)%nat :: k)) with (INR (fact (a + 1)) * prodfactR k). change (prodfactR (a :: k)) with (INR (fact a) * prodfactR k).
    replace (a + 1)%nat with (S a) by lia. rewrite fact_simpl, mult_INR, !plus_INR. replace (tdeg (a :: k)) with (a + tdeg k)%nat by reflexivity. rewrite plus_INR, !S_INR. ring. }
  transitivity (Rsum (map (fun i => INR (fact n) / INR (fact (n + S (tdeg k))) * prodfactR (bump 1 i k)) (seq 0 (S n)))).
  2:{ apply Rsum_map_ext. intros i Hi. apply in_seq in Hi. unfold simplex_moment. rewrite bump_tdeg by lia. replace (tdeg k + 1)%nat with (S (tdeg k)) by lia. field. apply INR_fact_neq_0. }
  rewrite Rsum_map_scal, <- L, P. unfold simplex_moment. replace (n + S (tdeg k))%nat with (S (n + tdeg k)) by lia. rewrite fact_simpl, mult_INR, L. cbn [Nat.add]. field.
  split; [apply INR_fact_neq_0|apply not_0_INR; lia].
Qed.
Lemma simplex_top n d q : List.Forall (fun wp => length (snd wp) = S n /\ Rsum (snd wp) = 1) q ->
  (forall k, length k = S n -> tdeg k = d -> apply q (mono k) = simplex_moment n k) -> exact (S n) d (fun k => simplex_mean n (mono k)) q.
Proof.
  intros D H. rewrite List.Forall_forall in D. split.
  - apply List.Forall_forall. intros wp Hw. apply D. auto.
  - assert (G : forall m k, length k = S n -> (tdeg k <= d)%nat -> (d - tdeg k = m)%nat -> apply q (mono k) = simplex_moment n k).
    { induction m as [|m IH]; intros k L T E; [apply H; auto; lia|]. rewrite simplex_moment_bump by auto.
      rewrite (Rsum_map_ext _ (fun i => apply q (mono (bump 1 i k)))).
      2:{ intros i Hi. apply in_seq in Hi. symmetry. apply IH; [rewrite bump_length; auto|rewrite bump_tdeg by lia; lia|rewrite bump_tdeg by lia; lia]. }
      unfold apply at 2. rewrite (Rsum_swap (fun i wp => fst wp * mono (bump 1 i k) (snd wp))). unfold apply. apply Rsum_map_ext. intros wp Hw. destruct (D wp Hw) as [Lw Sw].
      rewrite Rsum_map_scal. f_equal. rewrite (Rsum_map_ext _ (fun i => nth i (snd wp) 0 ^ 1 * mono k (snd wp))) by (intros i Hi; apply in_seq in Hi; apply mono_bump; [lia|etransitivity; [exact Lw|auto]]).
      rewrite Rsum_map_scal_r. rewrite <- Lw, Rsum_nth_pow. match goal with |- _ = ?A * _ => replace A with 1; [ring|] end.
      rewrite <- Sw. rewrite (map_ext _ (fun u => u)) by (intros; ring). rewrite map_id. auto. }
    intros k L T. rewrite simplex_mean_mono by auto. apply (G _ k L T eq_refl).
Qed.
Lemma sorted_top n d (P : list nat -> Prop) l : (forall k k', Permutation k k' -> length k = n -> P k' -> P k) ->
  forallb (fun k => if (tdeg k =? d)%nat then existsb (listeqb (isort k)) l else true) (exps n d) = true ->
  List.Forall P l -> forall k, length k = n -> tdeg k = d -> P k.
Proof.
  intros HP C F k L T. rewrite forallb_forall in C. specialize (C k (exps_complete _ _ _ L (Nat.eq_le_incl _ _ T))). rewrite T, Nat.eqb_refl in C.
  apply existsb_exists in C. destruct C as [k' [Hk' E]]. apply listeqb_eq in E. rewrite List.Forall_forall in F. apply (HP k k'); auto. rewrite <- E. apply isort_perm.
Qed.
(** The rule s31, s31, s22. *)
Definition lv_rule (w1 w2 W a1 a2 a : R) : rule :=
  let b1 := 1 - 3 * a1 in let b2 := 1 - 3 * a2 in let b := (1 - 2 * a) / 2 in
  [(w1, [a1; a1; a1; b1]); (w2, [a2; a2; a2; b2]); (w1, [a1; a1; b1; a1]); (w2, [a2; a2; b2; a2]); (w1, [a1; b1; a1; a1]); (w2, [a2; b2; a2; a2]); (w1, [b1; a1; a1; a1]); (w2, [b2; a2; a2; a2]);
   (W, [a; a; b; b]); (W, [a; b; a; b]); (W, [b; a; a; b]); (W, [a; b; b; a]); (W, [b; a; b; a]); (W, [b; b; a; a])].
Lemma lv_swap w1 w2 W a1 a2 a i k : length k = 4%nat -> apply (lv_rule w1 w2 W a1 a2 a) (mono (swp i k)) = apply (lv_rule w1 w2 W a1 a2 a) (mono k).
Proof.
  intros L. destruct k as [|k0 [|k1 [|k2 [|k3 [|? ?]]]]]; try discriminate. unfold lv_rule, apply. cbv zeta. set (b1 := 1 - 3 * a1). set (b2 := 1 - 3 * a2). set (b := (1 - 2 * a) / 2). clearbody b1 b2 b.
  destruct i as [|[|[|i]]]; [..|destruct i as [|i]; [reflexivity|destruct i; reflexivity]]; cbn [swp map Rsum fst snd mono]; ring.
Qed.
Lemma lv_perm w1 w2 W a1 a2 a k k' : Permutation k k' -> length k = 4%nat -> apply (lv_rule w1 w2 W a1 a2 a) (mono k') = apply (lv_rule w1 w2 W a1 a2 a) (mono k).
Proof.
  intros P L. destruct (perm_swaps _ _ P) as [js [-> _]]. clear P. induction js as [|j js IH]; auto. cbn [fold_right]. rewrite lv_swap; auto.
  clear -L. induction js as [|i js IH]; auto. cbn [fold_right]. rewrite swp_length. auto.
Qed.
Ltac ring_mono := unfold lv_rule, apply; cbv zeta; cbn [map Rsum fst snd mono]; field.
Ltac lv_moment := rewrite <- simplex_mean_mono, simplexQ_ok by reflexivity;
  match goal with |- context [Q2R ?q] => let v := eval vm_compute in q in change q with v end; unfold Q2R; cbn [Qnum Qden].
(** The conditions on the parameters. *)
Lemma lv_exact lm w1 w2 x1 x2 h : lm <> 0 -> h ^ 2 = 4 / lm -> 9 * lm ^ 3 = 284 * lm ^ 2 - 2800 * lm + 8512 ->
  (forall m, (m <= 5)%nat -> w1 * x1 ^ m + w2 * x2 ^ m = nth m [(21 - lm) / 420 * (112 - 10 * lm) / 8 - ((112 - 10 * lm) / 480 - (21 - lm) / 420 * (28 - 3 * lm) / 4) * (28 - 3 * lm) / 4;
     (112 - 10 * lm) / 480 - (21 - lm) / 420 * (28 - 3 * lm) / 4; (21 - lm) / 420; 1/60; 1/84; 1/140] 0) ->
  exact 4 5 (fun k => simplex_mean 3 (mono k)) (lv_rule w1 w2 (lm ^ 2 / 840) ((1 - x1) / 4) ((1 - x2) / 4) ((1 - h) / 4)).
Proof.
  intros L0 Hh Hc HS. apply (simplex_top 3 5).
  { unfold lv_rule. cbv zeta. repeat (apply List.Forall_cons; [split; [reflexivity|cbn [snd Rsum]; field]|]). apply List.Forall_nil. }
  apply (sorted_top 4 5 (fun k => apply _ (mono k) = simplex_moment 3 k) [[5;0;0;0];[4;1;0;0];[3;2;0;0];[3;1;1;0];[2;2;1;0];[2;1;1;1]]%nat).
  { intros k k' P L E. rewrite <- (lv_perm _ _ _ _ _ _ k k' P L), E. symmetry. apply simplex_moment_perm. auto. }
  { vm_compute. reflexivity. }
  set (W := lm ^ 2 / 840). pose (S := fun m : nat => w1 * x1 ^ m + w2 * x2 ^ m).
  assert (S0 := HS 0%nat ltac:(lia)). assert (S1 := HS 1%nat ltac:(lia)). assert (S2 := HS 2%nat ltac:(lia)). assert (S3 := HS 3%nat ltac:(lia)). assert (S4 := HS 4%nat ltac:(lia)). assert (S5 := HS 5%nat ltac:(lia)).
  cbn [nth] in S0, S1, S2, S3, S4, S5. fold (S 0%nat) in S0. fold (S 1%nat) in S1. fold (S 2%nat) in S2. fold (S 3%nat) in S3. fold (S 4%nat) in S4. fold (S 5%nat) in S5.
  assert (W0 : W = lm ^ 2 / 840) by auto. assert (W2 : W * h ^ 2 = lm / 210) by (rewrite Hh; unfold W; field; auto).
  assert (W4 : W * h ^ 4 = 2 / 105) by (replace (h ^ 4) with (h ^ 2 * h ^ 2) by ring; rewrite Hh; unfold W; field; auto).
  clearbody W.
  repeat apply List.Forall_cons; try apply List.Forall_nil.
  - transitivity ((1/256) * S 0%nat + (0) * S 1%nat + (15/128) * S 2%nat + (15/64) * S 3%nat + (105/256) * S 4%nat + (15/64) * S 5%nat + (3/512) * W + (15/256) * (W * h ^ 2) + (15/512) * (W * h ^ 4)).
    + unfold S. ring_mono.
    + rewrite S0, S1, S2, S3, S4, S5, W2, W4, W0. lv_moment. field_simplify_eq. nra.
  - transitivity ((1/256) * S 0%nat + (0) * S 1%nat + (7/128) * S 2%nat + (3/64) * S 3%nat + (-7/256) * S 4%nat + (-5/64) * S 5%nat + (3/512) * W + (7/256) * (W * h ^ 2) + (-1/512) * (W * h ^ 4)).
    + unfold S. ring_mono.
    + rewrite S0, S1, S2, S3, S4, S5, W2, W4, W0. lv_moment. field_simplify_eq. nra.
  - transitivity ((1/256) * S 0%nat + (0) * S 1%nat + (3/128) * S 2%nat + (-3/64) * S 3%nat + (1/256) * S 4%nat + (1/64) * S 5%nat + (3/512) * W + (3/256) * (W * h ^ 2) + (7/512) * (W * h ^ 4)).
    + unfold S. ring_mono.
    + rewrite S0, S1, S2, S3, S4, S5, W2, W4, W0. lv_moment. field_simplify_eq. nra.
  - transitivity ((1/256) * S 0%nat + (0) * S 1%nat + (1/128) * S 2%nat + (0) * S 3%nat + (-11/256) * S 4%nat + (1/32) * S 5%nat + (3/512) * W + (1/256) * (W * h ^ 2) + (-5/512) * (W * h ^ 4)).
    + unfold S. ring_mono.
    + rewrite S0, S1, S2, S3, S4, S5, W2, W4, W0. lv_moment. field_simplify_eq. nra.
  - transitivity ((1/256) * S 0%nat + (0) * S 1%nat + (-1/128) * S 2%nat + (-1/64) * S 3%nat + (9/256) * S 4%nat + (-1/64) * S 5%nat + (3/512) * W + (-1/256) * (W * h ^ 2) + (-1/512) * (W * h ^ 4)).
    + unfold S. ring_mono.
    + rewrite S0, S1, S2, S3, S4, S5, W2, W4, W0. lv_moment. field_simplify_eq. nra.
  - transitivity ((1/256) * S 0%nat + (0) * S 1%nat + (-3/128) * S 2%nat + (1/32) * S 3%nat + (-3/256) * S 4%nat + (0) * S 5%nat + (3/512) * W + (-3/256) * (W * h ^ 2) + (3/512) * (W * h ^ 4)).
    + unfold S. ring_mono.
    + rewrite S0, S1, S2, S3, S4, S5, W2, W4, W0. lv_moment. field_simplify_eq. nra.
Qed.
(** The parameter: 4 sqrt 79 cos (...) is a root of u^3 = 948 u + 268. *)
Lemma cos_triple x : 4 * cos x ^ 3 - 3 * cos x = cos (3 * x).
Proof.
  replace (3 * x) with (2 * x + x) by ring. rewrite cos_plus, cos_2a_cos, sin_2a. pose proof (sin2_cos2 x) as H. unfold Rsqr in H.
  replace (2 * sin x * cos x * sin x) with (2 * (sin x * sin x) * cos x) by ring. replace (sin x * sin x) with (1 - cos x * cos x) by lra. ring.
Qed.
Lemma lv_lambda r : 0 <= r -> r * r = 79 -> exists lm, 4 / 27 * (4 * r * cos ((acos (67 * r / 24964) + 2 * PI) / 3) + 71) = lm /\ 5 < lm < 8 /\ 9 * lm ^ 3 = 284 * lm ^ 2 - 2800 * lm + 8512.
Proof.
  intros P H. assert (B : 8 < r < 9) by (split; nra). set (t := 67 * r / 24964). assert (T : 0 < t < 1) by (unfold t; lra).
  pose proof PI_RGT_0 as PI0. assert (A : 0 < acos t < PI / 2).
  { assert (E := cos_acos t ltac:(lra)). pose proof (acos_bound t) as [B1 B2]. split.
    - destruct B1 as [B1|B1]; auto. rewrite <- B1, cos_0 in E. lra.
    - destruct (Rlt_le_dec (acos t) (PI / 2)) as [L|L]; auto. exfalso. assert (Q : cos (acos t) <= 0) by (apply cos_le_0; lra). lra. }
  set (x := (acos t + 2 * PI) / 3). assert (X : 2 * (PI / 3) < x < 5 * (PI / 6)) by (unfold x; lra).
  assert (C : 4 * cos x ^ 3 - 3 * cos x = t). { rewrite cos_triple. unfold x. replace (3 * ((acos t + 2 * PI) / 3)) with (acos t + 2 * PI) by field. rewrite cos_plus, cos_2PI, sin_2PI, cos_acos by lra. ring. }
  assert (C1 : cos x < - (1/2)). { replace (- (1/2)) with (cos (2 * (PI / 3))); [apply cos_decreasing_1; lra|]. replace (2 * (PI / 3)) with (PI - PI / 3) by field. rewrite Rtrigo_facts.cos_pi_minus, cos_PI3. auto. }
  assert (C2 : - (87/100) < cos x). { apply Rle_lt_trans with (cos (5 * (PI / 6))); [|apply cos_decreasing_1; lra]. replace (5 * (PI / 6)) with (PI - PI / 6) by field. rewrite Rtrigo_facts.cos_pi_minus, cos_PI6.
    pose proof (sqrt_sqrt 3 ltac:(lra)). pose proof (sqrt_pos 3). nra. }
  set (c := cos x) in *. clearbody c. exists (4 / 27 * (4 * r * c + 71)). split; [reflexivity|]. split; [split; nra|].
  assert (U : (4 * r * c) ^ 3 = 948 * (4 * r * c) + 268).
  { replace ((4 * r * c) ^ 3) with (16 * (r * r) * r * (4 * c ^ 3)) by ring. replace (4 * c ^ 3) with (3 * c + t) by lra. rewrite H. unfold t. replace (16 * 79 * r * (3 * c + 67 * r / 24964)) with (948 * (4 * r * c) + 16 * 79 * 67 / 24964 * (r * r)) by field. rewrite H. field. }
  set (u := 4 * r * c) in *. clearbody u. nra.
Qed.
Lemma t3_liu_vinokur_12_ok : delivers (simplex_mean 3) 4 5 t3_liu_vinokur_12.
Proof.
  unfold t3_liu_vinokur_12. fix_step. cbv zeta. destruct (lv_lambda r P H) as (lm & -> & B & C). clear r P H.
  assert (D : 0 <= 9 * lm ^ 2 - 248 * lm + 1680) by nra. destruct (rsqrt_some _ D) as (s & -> & Ps & Hs). cbn [bind].
  assert (D0 : 112 - 10 * lm <> 0) by lra. rewrite !rdiv_ok by auto. cbn [bind].
  set (x1 := (s + 28 - 3 * lm) / (112 - 10 * lm)). set (x2 := (- s + 28 - 3 * lm) / (112 - 10 * lm)).
  assert (E1 : x1 + x2 = 2 * (28 - 3 * lm) / (112 - 10 * lm)) by (unfold x1, x2; field; auto).
  assert (E2 : x1 * x2 = - 8 / (112 - 10 * lm)).
  { unfold x1, x2. replace ((s + 28 - 3 * lm) / (112 - 10 * lm) * ((- s + 28 - 3 * lm) / (112 - 10 * lm))) with (((28 - 3 * lm) ^ 2 - s * s) / (112 - 10 * lm) ^ 2) by (field; auto). rewrite Hs. field. auto. }
  assert (E3 : x2 - x1 = - 2 * s / (112 - 10 * lm)) by (unfold x1, x2; field; auto).
  assert (S0 : s <> 0) by (intros Z; rewrite Z in Hs; nra).
  assert (Q12 : x1 * x2 < 0) by (rewrite E2; apply Ropp_lt_cancel; replace (- (- 8 / (112 - 10 * lm))) with (8 / (112 - 10 * lm)) by (field; auto); rewrite Ropp_0; apply Rdiv_lt_0_compat; lra).
  assert (N1 : x1 <> 0) by (intros Z; rewrite Z in Q12; lra). assert (N2 : x2 <> 0) by (intros Z; rewrite Z in Q12; lra).
  assert (N3 : x2 - x1 <> 0) by (rewrite E3; unfold Rdiv; apply Rmult_integral_contrapositive_currified; [lra|apply Rinv_neq_0_compat; auto]).
  clearbody x1 x2. assert (Z1 : 420 * x1 ^ 2 * (x2 - x1) <> 0) by (repeat apply Rmult_integral_contrapositive_currified; auto; lra).
  assert (Z2 : 420 * x2 ^ 2 * (x1 - x2) <> 0) by (repeat apply Rmult_integral_contrapositive_currified; auto; lra).
  rewrite !rdiv_ok by auto. cbn [bind]. destruct (rsqrt_some lm ltac:(lra)) as (l & -> & Pl & Hl). cbn [bind]. assert (L0 : l <> 0) by (intros Z; rewrite Z in Hl; lra). rewrite rdiv_ok by auto. cbn [bind].
  set (w1 := ((21 - lm) * x2 - 7) / (420 * x1 ^ 2 * (x2 - x1))). set (w2 := ((21 - lm) * x1 - 7) / (420 * x2 ^ 2 * (x1 - x2))).
  assert (M2 : w1 * x1 ^ 2 + w2 * x2 ^ 2 = (21 - lm) / 420) by (unfold w1, w2; field; repeat split; auto; lra).
  assert (M3 : w1 * x1 ^ 3 + w2 * x2 ^ 3 = 1 / 60) by (unfold w1, w2; field; repeat split; auto; lra).
  clearbody w1 w2.
  assert (St : forall m, w1 * x1 ^ (S (S m)) + w2 * x2 ^ (S (S m)) = (x1 + x2) * (w1 * x1 ^ S m + w2 * x2 ^ S m) - x1 * x2 * (w1 * x1 ^ m + w2 * x2 ^ m)) by (intros m; cbn [pow]; ring).
  rewrite E1, E2 in St.
  eapply delivers_run; [lazy -[Rplus Rmult Rminus Ropp Rdiv Rinv IZR pow]; reflexivity|]. apply delivers_intro; [reflexivity|]. cbn [s_rule].
  apply (lv_exact lm w1 w2 x1 x2 (2 / l)); auto; [lra|rewrite <- Hl; field; auto|].
  assert (M4 := St 2%nat). assert (M5 := St 3%nat). assert (M1 := St 1%nat). assert (M0 := St 0%nat). rewrite M3, M2 in M4. rewrite M4, M3 in M5. rewrite M3, M2 in M1. rewrite M2 in M0.
  assert (K4 : w1 * x1 ^ 4 + w2 * x2 ^ 4 = 1 / 84) by (rewrite M4; field; auto). rewrite <- M4, K4 in M5.
  assert (K5 : w1 * x1 ^ 5 + w2 * x2 ^ 5 = 1 / 140) by (rewrite M5; field; auto).
  set (T1 := w1 * x1 ^ 1 + w2 * x2 ^ 1) in *. set (T0 := w1 * x1 ^ 0 + w2 * x2 ^ 0) in *.
  assert (K1 : T1 = (112 - 10 * lm) / 480 - (21 - lm) / 420 * (28 - 3 * lm) / 4).
  { apply (Rmult_eq_reg_l (8 / (112 - 10 * lm))); [|apply Rgt_not_eq, Rdiv_lt_0_compat; lra]. replace (8 / (112 - 10 * lm) * T1) with (1 / 60 - 2 * (28 - 3 * lm) / (112 - 10 * lm) * ((21 - lm) / 420)) by (rewrite M1; field; auto). field. auto. }
  assert (K0 : T0 = (21 - lm) / 420 * (112 - 10 * lm) / 8 - T1 * (28 - 3 * lm) / 4).
  { apply (Rmult_eq_reg_l (8 / (112 - 10 * lm))); [|apply Rgt_not_eq, Rdiv_lt_0_compat; lra]. replace (8 / (112 - 10 * lm) * T0) with ((21 - lm) / 420 - 2 * (28 - 3 * lm) / (112 - 10 * lm) * T1) by (rewrite M0; field; auto). field. auto. }
  rewrite K1 in K0. intros m Hm. destruct m as [|[|[|[|[|[|m]]]]]]; [exact K0|exact K1|exact M2|exact M3|exact K4|exact K5|lia].
Qed.
