(** Moments of the closed-form schemes of quadpy/s2. *)
From Coq Require Import Reals List Arith ZArith Lia Lra String QArith Qreals Permutation.
From Verif Require Import Spec RsumLemmas IntegralSpec SphereSpec PyBase SymmModel SymmProofs SchemeTools Tower TowerMoments FixSpec FixTools RingTools RingFix S2Model.
Import ListNotations.
Set Bullet Behavior "Strict Subproofs".
Open Scope R_scope.
Local Notation length := List.length.

Ltac s2_go := repeat fix_step; fix_finish (ballQ 2) ltac:(apply ballQ_ok; auto).
Lemma s2_albrecht_1_ok : delivers (ball_mean 2) 2 3 s2_albrecht_1.
Proof. unfold s2_albrecht_1. s2_go. Qed.
Lemma s2_albrecht_collatz_ok : delivers (ball_mean 2) 2 3 s2_albrecht_collatz.
Proof. exact s2_albrecht_1_ok. Qed.
Lemma s2_midpoint_ok : delivers (ball_mean 2) 2 1 s2_midpoint.
Proof. unfold s2_midpoint. s2_go. Qed.
Lemma s2_hammer_stroud_12_2_ok : delivers (ball_mean 2) 2 5 s2_hammer_stroud_12_2.
Proof. unfold s2_hammer_stroud_12_2. s2_go. Qed.
Lemma s2_peirce_1956_1_ok : delivers (ball_mean 2) 2 7 s2_peirce_1956_1.
Proof. unfold s2_peirce_1956_1. s2_go. Qed.

(** Schemes made of rings. *)
Lemma s2_rings_ok M h data d kd rs :
  (forall a b, (a + b <= d)%nat -> M (mono [a; b]) = h (a + b)%nat * sphere_mean 2 (mono [a; b])) ->
  resolve key_table data = Some kd ->
  List.Forall (fun kv => key_cols (fst kv) 2 (snd (snd kv)) <> None) kd ->
  List.Forall (entry_aligned (fun k => key_cols k 2)) kd ->
  flat_map plane_spec kd = flat_map ring_rule rs ->
  forallb (fun r => (1 <=? rg_K r)%nat) rs = true ->
  List.Forall (fun s => Rsum (map (fun r => rg_w r * zK r * rg_rho r ^ s) rs) = h s) (filter Nat.even (seq 0 (S d))) ->
  List.Forall (fun sm => Rsum (map (fun r => if (snd sm mod rg_K r =? 0)%nat then rg_w r * zK r * rg_rho r ^ (fst sm) * (-1) ^ ((snd sm / rg_K r) * rg_off r) else 0) rs) = 0)
    (filter (fun sm => Nat.even (fst sm + snd sm) && existsb (fun r => (snd sm mod rg_K r =? 0)%nat) (filter (fun r => negb (rg_K r =? 1)%nat) rs))%bool
       (flat_map (fun s => map (fun m => (s, m)) (seq 1 s)) (seq 0 (S d)))) ->
  List.Forall (fun r => rg_K r = 1%nat -> rg_rho r = 0) rs ->
  delivers M 2 d (s2_scheme data d).
Proof.
  intros HM R S A E HK H0 H1 HC. destruct (plane_expand data kd R S A) as [pw [Ep P]]. unfold s2_scheme. rewrite Ep. cbn [bind].
  apply delivers_intro; [reflexivity|]. cbn [s_rule]. rewrite E in P. apply (rings_exact_list d M h rs); auto.
Qed.
Ltac ring_cond := lazy -[Rplus Rmult Rminus Ropp Rdiv Rinv IZR pow]; let env := tw_env in repeat (apply List.Forall_cons; [tower_eq env|]); apply List.Forall_nil.
Ltac s2_rings rs :=
  eapply (s2_rings_ok (ball_mean 2) h_disk _ _ _ rs);
  [intros; apply disk_h | reflexivity | repeat constructor; discriminate
  | repeat constructor; intros cols Ec; injection Ec as <-; reflexivity
  | cbn [flat_map]; rewrite ?ring_centre; lazy -[Rplus Rmult Rminus Ropp Rdiv Rinv IZR pow cos sin]; reflexivity
  | reflexivity | | | repeat constructor; intros; try discriminate; reflexivity].
Lemma s2_albrecht_2_ok : delivers (ball_mean 2) 2 5 s2_albrecht_2.
Proof. unfold s2_albrecht_2. repeat fix_step. s2_rings [mk_ring (1/4) 1 0 0; mk_ring (1/8) 6 r 1]; ring_cond. Qed.
Lemma s2_albrecht_3_ok : delivers (ball_mean 2) 2 7 s2_albrecht_3.
Proof.
  unfold s2_albrecht_3. cbv zeta. repeat fix_step.
  s2_rings [mk_ring (2/27) 4 r2 1; mk_ring ((551 + 1 * 41 * r) / 6264) 4 r0 0; mk_ring ((551 + -1 * 41 * r) / 6264) 4 r1 0]; ring_cond.
Qed.
Lemma s2_albrecht_4_ok : delivers (ball_mean 2) 2 9 s2_albrecht_4.
Proof.
  unfold s2_albrecht_4. cbv zeta. repeat fix_step.
  s2_rings [mk_ring (251/2304) 1 0 0; mk_ring ((110297 + 1 * 5713 * r) / 2045952) 6 r0 0; mk_ring ((110297 + -1 * 5713 * r) / 2045952) 6 r1 0; mk_ring (125/3072) 6 r2 1]; ring_cond.
Qed.
Lemma s2_hammer_stroud_18_ok : delivers (ball_mean 2) 2 7 s2_hammer_stroud_18.
Proof. unfold s2_hammer_stroud_18. cbv zeta. repeat fix_step. s2_rings [mk_ring (1/16) 8 r0 0; mk_ring (1/16) 8 r1 0]; ring_cond. Qed.
Lemma s2_mysovskih_2_ok : delivers (ball_mean 2) 2 11 s2_mysovskih_2.
Proof. unfold s2_mysovskih_2. cbv zeta. s2_go. Qed.
Lemma s2_peirce_1956_3_ok : delivers (ball_mean 2) 2 11 s2_peirce_1956_3.
Proof. unfold s2_peirce_1956_3. cbv zeta. s2_go. Qed.
Lemma pi8 q : 0 <= q -> q * q = 1 / 2 -> cos (PI / 8) * cos (PI / 8) = (1 + q) / 2 /\ sin (PI / 8) * sin (PI / 8) = (1 - q) / 2.
Proof.
  intros Hq H. assert (E : cos (PI / 4) = q).
  { rewrite cos_PI4. apply Rsqr_inj; [apply Rlt_le, Rdiv_lt_0_compat; [lra|apply sqrt_lt_R0; lra]|auto|]. unfold Rsqr. rewrite H.
    assert (S2 : sqrt 2 * sqrt 2 = 2) by (apply sqrt_sqrt; lra). assert (sqrt 2 <> 0) by (intros Z; rewrite Z in S2; lra).
    transitivity (1 / (sqrt 2 * sqrt 2)); [field; auto|rewrite S2; auto]. }
  replace (PI / 4) with (2 * (PI / 8)) in E by field. split.
  - pose proof (cos_2a_cos (PI / 8)). lra.
  - pose proof (cos_2a_sin (PI / 8)). lra.
Qed.
Lemma s2_peirce_1956_2_ok : delivers (ball_mean 2) 2 9 s2_peirce_1956_2.
Proof.
  unfold s2_peirce_1956_2. cbv zeta. repeat fix_step. destruct (pi8 r2 P2 H2) as [Hc Hs].
  set (c := cos (PI / 8)) in *. set (s := sin (PI / 8)) in *. clearbody c s. s2_go.
Qed.
(** stroud_s2_9_3 lists the points of d10.0 from the second one on: a ring with the offset 2. *)
Lemma cons_pt (w x y x' y' : R) (l l' : rule) : x = x' -> y = y' -> l = l' -> (w, [x; y]) :: l = (w, [x'; y']) :: l'.
Proof. intros -> -> ->. auto. Qed.
Lemma s2_stroud_9_3_ok : delivers (ball_mean 2) 2 9 s2_stroud_9_3.
Proof.
  unfold s2_stroud_9_3. cbv zeta. repeat fix_step.
  eapply delivers_run; [lazy -[Rplus Rmult Rminus Ropp Rdiv Rinv IZR pow cos sin PI]; reflexivity|].
  apply delivers_intro; [reflexivity|]. cbn [s_rule].
  apply (rings_exact_list 9 (ball_mean 2) h_disk [mk_ring (1/9) 1 0 0; mk_ring ((16 + 1 * r) / 360) 10 r0 2; mk_ring ((16 + -1 * r) / 360) 10 r1 2]);
    [intros; apply disk_h| | reflexivity|ring_cond|ring_cond|repeat constructor; intros; try discriminate; reflexivity].
  match goal with |- Permutation ?a ?b => replace b with a; [apply Permutation_refl|] end.
  cbn [flat_map]. rewrite ring_centre. lazy -[Rplus Rmult Rminus Ropp Rdiv Rinv IZR pow cos sin PI].
  repeat (apply cons_pt; [first [reflexivity | rewrite Rmult_comm; f_equal; f_equal; field]..|]). reflexivity.
Qed.
