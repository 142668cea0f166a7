(** Proofs about the schemes of RestModel.v. *)
From Coq Require Import Reals List Arith Lia Lra String ZArith QArith Qreals.
From Verif Require Import Spec Spec1 RsumLemmas IntegralSpec IntegralProofs SphereSpec SphereInt RadialInt PyraSpec PyBase CombModel SymmModel SchemeTools Tower TowerSym TowerMoments
  FelippaModel FelippaProofs NearTools NearSym FixSpec FixTools DecSpec DecModel DecTools LegSpec LegTools S2Families T2Lether C3Model C3Param S2Model S2Proofs T2Model T3Model U3Model GoodModel PyraModel GeomModel RestModel RestSpec.
Import ListNotations.
Local Notation length := List.length.
Set Bullet Behavior "Strict Subproofs".
Open Scope R_scope.

Lemma reaches_monos c M nc d I s tol : moments M nc I -> s_degree s = d -> 0 < tol -> List.Forall (fun wp => length (snd wp) = nc) (s_rule s) ->
  (forall k, length k = nc -> (tdeg k <= d)%nat -> Rabs (apply (s_rule s) (mono k) - Q2R (I k)) <= c * tol) -> reaches c M nc d (Some (s, tol)).
Proof.
  intros [HM _] HD H0 P E. exists s, tol. repeat split; auto. intros p Hp. rewrite (HM p d Hp).
  rewrite apply_mpeval. unfold mp_ok in Hp. induction Hp as [|[a k] p [Lk Dk] _ IH]; cbn [map Rsum fst snd] in *.
  - rewrite Rminus_eq_0, Rabs_R0. lra.
  - replace (_ - _) with (a * (apply (s_rule s) (mono k) - Q2R (I k)) + (Rsum (map (fun ck => fst ck * apply (s_rule s) (mono (snd ck))) p) - Rsum (map (fun ck => fst ck * Q2R (I (snd ck))) p))) by ring.
    eapply Rle_trans; [apply Rabs_triang|]. rewrite Rmult_plus_distr_l. apply Rplus_le_compat; [|apply IH].
    rewrite Rabs_mult, (Rmult_comm (c * tol)). apply Rmult_le_compat_l; [apply Rabs_pos|]. apply E; auto.
Qed.

(** c3.sarma_stroud *)
Lemma c3_sarma_stroud_ok : exists s, c3_sarma_stroud = Some (s, 1.0e-14) /\ delivers (cube_mean 3) 3 7 (Some s).
Proof.
  assert (R : exists s, c3_hammer_wymore 1.0329785305 = Some s); [|destruct R as [s Hs]; exists s; split; [unfold c3_sarma_stroud; rewrite Hs; reflexivity|apply (hammer_wymore_ok _ _ Hs)]].
  unfold c3_hammer_wymore. cbv zeta.
  replace 1.0329785305 with (2065957061/2000000000) by lra.
  replace ((8 / 7 - 2 * (8 / 15) + 8 / 27 + (2065957061/2000000000) * (8 / 15 - 8 / 27)) / (8 / 5 - 8 / 9)) with (12153899809/14000000000) by field.
  rewrite (rdiv_val (12153899809/14000000000) (2065957061/2000000000) (12153899809/14461699427)) by (try lra; field). cbn [bind].
  erewrite (rdiv_val _ ((12153899809/14000000000)^3) (13798400000000000000000000000000/48474207757939029430390309767483)) by (try lra; field). cbn [bind].
  erewrite (rdiv_val _ ((12153899809/14461699427)^3) (24196245352161191685410478139864/242371038789695147151951548837415)) by (try lra; field). cbn [bind].
  replace (8 - 6 * (13798400000000000000000000000000/48474207757939029430390309767483) - 12 * (24196245352161191685410478139864/242371038789695147151951548837415)) with (45728198744134328777432839000776/8976705140359079524146353660645) by field.
  replace (8 / 3 - 2 * (13798400000000000000000000000000/48474207757939029430390309767483) * (12153899809/14000000000) - 8 * (24196245352161191685410478139864/242371038789695147151951548837415) * (12153899809/14461699427)) with (29937212983914588920104/19941832876573381924935) by field.
  replace (8 / 9 - 4 * (24196245352161191685410478139864/242371038789695147151951548837415) * (12153899809/14461699427) ^ 2) with (995693595416/1640776474215) by field.
  erewrite (rdiv_val _ _ (4246929176364582773486526554689358661393/46471497416397593187453828959240227952537)) by (try lra; field). cbn [bind].
  erewrite (rdiv_val _ _ (-(33196294160329142082336189317148151968358/46471497416397593187453828959240227952537))) by (try lra; field). cbn [bind].
  destruct (rsqrt_some ((-(33196294160329142082336189317148151968358/46471497416397593187453828959240227952537)) ^ 2 - 4 * (4246929176364582773486526554689358661393/46471497416397593187453828959240227952537))) as (b & E & Pb & Hb); [lra|]. rewrite E. cbn [bind].
  assert (Bb : 38/100 < b < 39/100) by (eapply sq_bounds; eauto; lra).
  rewrite rdiv_ok by lra. cbn [bind]. rewrite rdiv_ok by lra. cbn [bind].
  rewrite !rsqrt_ok by lra. cbn [bind]. eexists. reflexivity.
Qed.

(** The tactic near_prove of DecTools.v from the point where the scheme is computed. *)
Ltac near_rest HM :=
  let env := near_env in
  let l := near_gens env in
  lazymatch goal with
  | |- reaches ?c ?M ?nc ?d (Some (?s, ?tol)) =>
      let q := lazymatch s with mk_scheme _ ?q _ => q end in
      let e := nr_reify_rule env q in
      let t := near_tol c tol in
      let I := lazymatch type of HM with moments _ _ ?I => I end in
      let sg := near_sg I nc in let sg := eval vm_compute in (filter (fun i => experm e (map (on_ex (act exopp i)) e)) sg) in
      let sw := near_sw I nc in let sw := eval vm_compute in (filter (fun i => experm e (map (on_ex (swp i)) e)) sw) in
      apply (reaches_intro c M nc d I l env sg sw e s tol t);
      [exact HM|near_symm|reflexivity|lra|unfold Q2R; cbn [Qnum Qden]; lra|reflexivity|near_gens_ok|vm_compute; reflexivity]
  end.
(** cos and sin at the multiples of pi / 8. *)
Lemma trig8 k : cos (INR k * (PI / 8) + PI) = - cos (INR k * (PI / 8)) /\ sin (INR k * (PI / 8) + PI) = - sin (INR k * (PI / 8)).
Proof. rewrite neg_cos, neg_sin. auto. Qed.
Lemma trig8_table (c s q : R) : c = cos (PI / 8) -> s = sin (PI / 8) -> q = cos (PI / 4) -> forall x k, x = INR k * (PI / 8) -> (k < 16)%nat ->
  cos x = nth k [1; c; q; s; 0; - s; - q; - c; -1; - c; - q; - s; 0; s; q; c] 0 /\
  sin x = nth k [0; s; q; c; 1; c; q; s; 0; - s; - q; - c; -1; - c; - q; - s] 0.
Proof.
  intros -> -> -> x k -> Hk.
  assert (Q : sin (PI / 4) = cos (PI / 4)) by (rewrite <- cos_shift; f_equal; field).
  assert (C8 : cos (PI / 2 - PI / 8) = sin (PI / 8) /\ sin (PI / 2 - PI / 8) = cos (PI / 8)) by (split; [apply cos_shift|apply sin_shift]).
  assert (B : forall j, (j < 5)%nat -> cos (INR j * (PI / 8)) = nth j [1; cos (PI / 8); cos (PI / 4); sin (PI / 8); 0] 0 /\ sin (INR j * (PI / 8)) = nth j [0; sin (PI / 8); cos (PI / 4); cos (PI / 8); 1] 0).
  { intros j Hj. destruct j as [|[|[|[|[|j]]]]]; [..|lia]; cbn [nth INR]; split.
    - rewrite Rmult_0_l. apply cos_0.
    - rewrite Rmult_0_l. apply sin_0.
    - f_equal. ring.
    - f_equal. ring.
    - f_equal. field.
    - rewrite <- Q. f_equal. field.
    - rewrite <- (proj1 C8). f_equal. field.
    - rewrite <- (proj2 C8). f_equal. field.
    - replace ((1 + 1 + 1 + 1) * (PI / 8)) with (PI / 2) by field. apply cos_PI2.
    - replace ((1 + 1 + 1 + 1) * (PI / 8)) with (PI / 2) by field. apply sin_PI2. }
  assert (B' : forall j, (j < 9)%nat -> cos (INR j * (PI / 8)) = nth j [1; cos (PI / 8); cos (PI / 4); sin (PI / 8); 0; - sin (PI / 8); - cos (PI / 4); - cos (PI / 8); -1] 0 /\
                                   sin (INR j * (PI / 8)) = nth j [0; sin (PI / 8); cos (PI / 4); cos (PI / 8); 1; cos (PI / 8); cos (PI / 4); sin (PI / 8); 0] 0).
  { intros j Hj. destruct (le_lt_dec 5 j) as [G|G].
    - replace (INR j * (PI / 8)) with (PI - INR (8 - j) * (PI / 8)) by (rewrite minus_INR by lia; replace (INR 8) with 8 by (cbn; lra); field).
      rewrite Rtrigo_facts.cos_pi_minus, Rtrigo_facts.sin_pi_minus. destruct (B (8 - j)%nat ltac:(lia)) as [-> ->].
      do 9 (destruct j as [|j]; [try lia; cbn [nth Nat.sub]; split; ring|]). lia.
    - destruct (B j G) as [-> ->]. do 5 (destruct j as [|j]; [split; reflexivity|]). lia. }
  destruct (le_lt_dec 9 k) as [G|G].
  - replace (INR k * (PI / 8)) with (INR (k - 8) * (PI / 8) + PI) by (rewrite minus_INR by lia; replace (INR 8) with 8 by (cbn; lra); field).
    rewrite neg_cos, neg_sin. destruct (B' (k - 8)%nat ltac:(lia)) as [-> ->].
    do 16 (destruct k as [|k]; [try lia; cbn [nth Nat.sub]; split; ring|]). lia.
  - destruct (B' k G) as [-> ->]. do 9 (destruct k as [|k]; [split; reflexivity|]). lia.
Qed.
Ltac trig8_with T k :=
  lazymatch k with
  | S ?k' =>
    match goal with
    | |- context [cos ?x] => first [let H := fresh in assert (H : x = INR k' * (PI / 8)) by (cbn [INR]; field); rewrite (proj1 (T x k' H ltac:(lia))), (proj2 (T x k' H ltac:(lia))); clear H | trig8_with T k']
    end
  end.
(** s2.mysovskih_3 *)
Lemma s2_mysovskih_3_ok : reaches 1 (ball_mean 2) 2 15 s2_mysovskih_3.
Proof.
  unfold s2_mysovskih_3. cbv zeta. repeat near_step.
  eapply reaches_run; [near_lazy; reflexivity|].
  set (q := cos (PI / 4)). assert (Pq : 0 <= q) by (apply cos_ge_0; pose proof PI_RGT_0; lra).
  assert (Hq : q * q = 1 / 2). { pose proof (sin2_cos2 (PI / 4)) as E. assert (Q : sin (PI / 4) = cos (PI / 4)) by (rewrite <- cos_shift; f_equal; field). unfold Rsqr in E. rewrite Q in E. fold q in E. lra. }
  destruct (pi8 q Pq Hq) as [Hc Hs].
  assert (Pc : 0 <= cos (PI / 8)) by (apply cos_ge_0; pose proof PI_RGT_0; lra).
  assert (Ps : 0 <= sin (PI / 8)) by (apply sin_ge_0; pose proof PI_RGT_0; lra).
  pose proof (trig8_table _ _ _ eq_refl eq_refl (eq_refl : q = cos (PI / 4))) as T.
  set (c := cos (PI / 8)) in *. set (s := sin (PI / 8)) in *. clearbody c s q.
  repeat trig8_with T 16%nat. cbn [nth]. clear T. near_rest (ball_moments 2).
Qed.

(** p3.felippa_9 *)
Lemma pyra_near k d s tol e l env : s_degree s = d -> 0 < tol -> p3_ref (s_rule s) = rden env e -> ngens_ok l env -> forall t, Q2R t <= k * tol -> near_check l 3 d pyraQ t e = true ->
  reaches_pyramid k d (Some (s, tol)).
Proof.
  intros HD H0 HR G t Ht H. exists s, tol. split; [reflexivity|]. split; auto. split; auto. intros o a b c p f La Lb Lc Hp Hf.
  destruct (near_check_ok l env 3 d pyraQ t e G H) as [_ E]. rewrite <- HR in E.
  unfold pyramid_integral. rewrite (pyramid_int_ext _ (mpeval p)) by (intros; apply Hf; reflexivity). rewrite (pyramid_poly d p Hp).
  assert (A : p3_integrate (s_rule s) f (pyramid_vertices o a b c) = Rabs (det 3 [a; b; c]) * apply (p3_ref (s_rule s)) (mpeval p)).
  { unfold p3_integrate, apply, p3_ref. rewrite map_map, <- Rsum_map_scal. apply Rsum_map_ext. intros wp _. cbn [fst snd].
    rewrite p3_point, p3_factor, Hf by auto. rewrite Rabs_mult, (Rabs_right (_ ^ 2)) by (apply Rle_ge, pow2_ge_0).
    match goal with |- ?A * _ * _ = _ * (_ * ?B) => change B with A; generalize A end. intros v. match goal with |- _ * (?D * ?H) * ?w = ?D1 * (?w1 * ?H1 * _) => change D1 with D; change w1 with w; change H1 with H; generalize D H w end. intros. ring. }
  rewrite A. rewrite apply_mpeval.
  assert (B : Rabs (Rsum (map (fun ck => fst ck * apply (p3_ref (s_rule s)) (mono (snd ck))) p) - Rsum (map (fun ck => fst ck * Q2R (pyraQ (snd ck))) p)) <= k * tol * Rsum (map (fun ck => Rabs (fst ck)) p)).
  { clear A Hf. unfold mp_ok in Hp. induction Hp as [|[x m] p [Lk Dk] _ IH]; cbn [map Rsum fst snd] in *.
    - rewrite Rminus_eq_0, Rabs_R0. lra.
    - replace (_ - _) with (x * (apply (p3_ref (s_rule s)) (mono m) - Q2R (pyraQ m)) + (Rsum (map (fun ck => fst ck * apply (p3_ref (s_rule s)) (mono (snd ck))) p) - Rsum (map (fun ck => fst ck * Q2R (pyraQ (snd ck))) p))) by ring.
      eapply Rle_trans; [apply Rabs_triang|]. rewrite Rmult_plus_distr_l. apply Rplus_le_compat; [|apply IH].
      rewrite Rabs_mult, (Rmult_comm (k * tol)). apply Rmult_le_compat_l; [apply Rabs_pos|]. eapply Rle_trans; [apply E; auto|auto]. }
  rewrite <- Rmult_minus_distr_l, Rabs_mult, Rabs_Rabsolu. eapply Rle_trans; [apply Rmult_le_compat_l; [apply Rabs_pos|exact B]|]. right. rewrite (Rmult_comm (k * tol) (Rabs _)), <- !Rmult_assoc. reflexivity.
Qed.
Lemma p3_felippa_9_ok : reaches_pyramid 1 5 p3_felippa_9.
Proof.
  unfold p3_felippa_9. cbv zeta. destruct (rsqrt_some (3 / 5) ltac:(lra)) as (g & E & P & H). rewrite E. cbn [bind].
  rewrite !rdiv_ok by (intros Z; apply Rmult_integral in Z; destruct Z as [Z|Z]; [apply Rmult_integral in Z; lra|lra]). cbn [bind].
  match goal with |- reaches_pyramid _ _ (Some (?s, ?tol)) => set (sc := s) end.
  let l := eval lazy -[Rplus Rmult Rminus Ropp Rdiv Rinv IZR pow] in (p3_ref (s_rule sc)) in
  assert (R : p3_ref (s_rule sc) = l) by (lazy -[Rplus Rmult Rminus Ropp Rdiv Rinv IZR pow]; reflexivity).
  let env := constr:([g]) in let gl := near_gens env in
  lazymatch type of R with _ = ?l => let e := nr_reify_rule env l in
    apply (pyra_near 1 5 sc 1.0e-14 e gl env) with (t := 1 # 100000000000000); [reflexivity|lra|exact R|near_gens_ok| |] end.
  - unfold Q2R; cbn [Qnum Qden]; lra.
  - vm_compute. reflexivity.
Qed.
