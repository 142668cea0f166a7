(** Families of rules of growing degree with weights that are not negative and points in the domain: product rules on the square
    and the cube, lether and peirce_1957 on the disk, lether on the triangle, krylov on the circle. *)
From Coq Require Import Reals List Arith ZArith Lia Lra String.
From Coquelicot Require Import Coquelicot.
From Verif Require Import Spec Spec1 RsumLemmas IntegralSpec SphereSpec IntegralProofs SphereInt RadialInt PyBase SymmModel SchemeTools FixSpec FixTools TrigPoly TrigSums C1Proofs
  RingTools RingFix S2Model LegSpec LegTools C1Model GwModel GwSpec T2Model S2Families T2Lether CubeModel ConvSpec ConvFam ConvNdSpec TnModel2 PolyFun IterInt ConvNdExt ConvNdProofs PropCube PropGw PropConv.
Import ListNotations.
Set Bullet Behavior "Strict Subproofs".
Open Scope R_scope.
Local Notation length := List.length.
Local Notation concat := List.concat.

Lemma positive_bound D nc m I q : exact nc m I q -> positive_in D q -> weights_abs q = I (repeat 0%nat nc).
Proof.
  intros [_ X] P. rewrite weights_positive by (eapply List.Forall_impl; [|exact P]; cbn; tauto). rewrite <- X by (try apply repeat_length; rewrite tdeg_zero; lia). unfold apply. f_equal. apply map_ext. intros w. rewrite mono_zero. auto.
Qed.
Lemma growing_positive D nc I q : (forall m, exists N, forall k, (N <= k)%nat -> exists r, q k = Some r /\ exact nc m I r /\ positive_in D r) -> growing_rules D nc I q.
Proof.
  intros H. exists (I (repeat 0%nat nc)). intros m. destruct (H m) as (N & HN). exists N. intros k Hk. destruct (HN k Hk) as (r & E & X & P). exists r. split; auto. split; auto. split; [eapply List.Forall_impl; [|exact P]; cbn; tauto|].
  rewrite (positive_bound D nc m I); auto. lra.
Qed.
Lemma exact_le nc d d' I q : (d <= d')%nat -> exact nc d' I q -> exact nc d I q.
Proof. intros H [P X]. split; auto. intros k Hk Hd. apply X; auto. lia. Qed.
Lemma delivers_exact M nc d r : delivers M nc d r -> exists s, r = Some s /\ exact nc d (fun k => M (mono k)) (s_rule s).
Proof. intros (s & E & _ & P & X). exists s. split; auto. split; auto. Qed.

(** *** products *)
Lemma c2_positive q r : c2_product q = Some r -> points_within q -> List.Forall (fun wx => 0 <= fst wx) q -> positive_in (in_cube 2) r.
Proof.
  unfold c2_product. destruct (0 <? length q)%nat; [|discriminate]. cbn [guard]. intros E P W. injection E as <-. apply List.Forall_forall. intros x Hx. apply in_flat_map in Hx. destruct Hx as (a & Ha & Hx). apply in_map_iff in Hx. destruct Hx as (b & <- & Hb).
  unfold points_within in P. rewrite List.Forall_forall in P, W. assert (Wa := W a Ha). assert (Wb := W b Hb). assert (Pa := P a Ha). assert (Pb := P b Hb). cbn [fst snd]. split; [assert (0 <= fst a * fst b) by (apply Rmult_le_pos; auto); lra|].
  split; auto.
Qed.
Lemma c3_positive q r : c3_product q = Some r -> points_within q -> List.Forall (fun wx => 0 <= fst wx) q -> positive_in (in_cube 3) r.
Proof.
  unfold c3_product. destruct (0 <? length q)%nat; [|discriminate]. cbn [guard]. intros E P W. injection E as <-. apply List.Forall_forall. intros x Hx. apply in_flat_map in Hx. destruct Hx as (a & Ha & Hx). apply in_flat_map in Hx. destruct Hx as (c & Hc & Hx). apply in_map_iff in Hx. destruct Hx as (b & <- & Hb).
  unfold points_within in P. rewrite List.Forall_forall in P, W. assert (Wa := W a Ha). assert (Wb := W b Hb). assert (Wc := W c Hc). assert (Pa := P a Ha). assert (Pb := P b Hb). assert (Pc := P c Hc). cbn [fst snd].
  split; [assert (0 <= fst b * fst c * fst a) by (repeat apply Rmult_le_pos; auto); lra|]. split; auto.
Qed.
(** one-dimensional families *)
Definition growing1 (fam : nat -> option c1_scheme) : Prop := forall m, exists N, forall k, (N <= k)%nat -> exists s, fam k = Some s /\ exact1 m (c1_rule s) /\ points_within (c1_rule s) /\ List.Forall (fun wx => 0 <= fst wx) (c1_rule s).
Lemma exact1_nonempty d q : exact1 d q -> q <> [].
Proof. intros X ->. assert (E := leg_pow d [] 0 X ltac:(lia)). rewrite RInt_monomial in E. unfold apply1 in E. cbn in E. lra. Qed.
Lemma c2_growing fam : growing1 fam -> growing_rules (in_cube 2) 2 (fun k => cube_mean 2 (mono k)) (fun n => bind (fam n) (fun s => c2_product (c1_rule s))).
Proof.
  intros G. apply growing_positive. intros m. destruct (G m) as (N & HN). exists N. intros k Hk. destruct (HN k Hk) as (s & E & X & P & W). destruct (C13_declared_degree m (c1_rule s) X (exact1_nonempty _ _ X)) as ((r & Er & Xr) & _).
  exists r. rewrite E. cbn [bind]. split; auto. split; auto. apply (c2_positive (c1_rule s)); auto.
Qed.
Lemma c3_growing fam : growing1 fam -> growing_rules (in_cube 3) 3 (fun k => cube_mean 3 (mono k)) (fun n => bind (fam n) (fun s => c3_product (c1_rule s))).
Proof.
  intros G. apply growing_positive. intros m. destruct (G m) as (N & HN). exists N. intros k Hk. destruct (HN k Hk) as (s & E & X & P & W). destruct (C13_declared_degree m (c1_rule s) X (exact1_nonempty _ _ X)) as (_ & r & Er & Xr).
  exists r. rewrite E. cbn [bind]. split; auto. split; auto. apply (c3_positive (c1_rule s)); auto.
Qed.
Lemma exact1_le d d' q : (d <= d')%nat -> exact1 d' q -> exact1 d q.
Proof. intros H X c Hc. apply X. lia. Qed.
Lemma growing_legendre eigh : eigen_solver eigh -> growing1 (gauss_legendre eigh).
Proof.
  intros HE m. exists (S m). intros n Hn. destruct PropS2S3.C57_leggauss_exists as (lg & HL). destruct (C80_legendre_positive eigh lg n HE HL ltac:(lia)) as (s & _ & E & _ & P & _). destruct (C33_gauss_legendre eigh n HE ltac:(lia)) as (s' & E' & _ & _ & _ & X).
  rewrite E in E'. injection E' as <-. exists s. destruct (positive_within _ P). split; auto. split; auto. apply (exact1_le m (2 * n - 1)); auto. lia.
Qed.
Lemma growing_legendre_numpy lg : leggauss_ok lg -> growing1 (ConvModel.gauss_legendre_numpy lg).
Proof.
  intros HL m. exists (S m). intros n Hn. destruct C33_solver_exists as (eigh & HE). destruct (C80_legendre_positive eigh lg n HE HL ltac:(lia)) as (_ & t & _ & E & _ & P & _ & X & _).
  exists t. destruct (positive_within _ P). split; auto. split; auto. apply (exact1_le m (2 * n - 1)); auto. lia.
Qed.
Lemma growing_cc : List.Forall growing1 [clenshaw_curtis; fejer_1; fejer_2].
Proof.
  assert (G : forall fam : nat -> option c1_scheme, (forall n, (3 <= n)%nat -> exists s, fam n = Some s /\ exact1 (n - 1) (c1_rule s) /\ points_within (c1_rule s) /\ List.Forall (fun wx => 0 <= fst wx) (c1_rule s)) -> growing1 fam).
  { intros fam F m. exists (m + 3)%nat. intros n Hn. destruct (F n ltac:(lia)) as (s & E & X & P & W). exists s. split; auto. split; auto. apply (exact1_le m (n - 1)); auto. lia. }
  repeat constructor; apply G; intros n Hn; destruct (PropC1.C30_interpolatory n ltac:(lia)) as (s1 & s2 & s3 & E1 & E2 & E3 & X1 & X2 & X3);
    destruct (C80_clenshaw_curtis_weights n Hn) as (t1 & t2 & t3 & F1 & F2 & F3 & W); rewrite E1 in F1; rewrite E2 in F2; rewrite E3 in F3; injection F1 as <-; injection F2 as <-; injection F3 as <-;
    inversion W as [|? ? W1 V1]; inversion V1 as [|? ? W2 V2]; inversion V2 as [|? ? W3 V3]; subst;
    [exists s1|exists s2|exists s3]; intuition.
Qed.
(** *** the disk *)
Lemma leggauss_pos lg n : leggauss_ok lg -> (1 <= n)%nat -> positive_inside (List.combine (snd (lg n)) (fst (lg n))).
Proof.
  intros HL Hn. destruct (HL n Hn) as (L1 & L2 & X). assert (L : length (List.combine (snd (lg n)) (fst (lg n))) = n) by (rewrite combine_length; lia). apply C80_gauss_positive; rewrite L; auto.
Qed.
Lemma s2_lether_positive lg n s : leggauss_ok lg -> (1 <= n)%nat -> s2_lether lg n = Some s -> positive_in (in_ball 2) (s_rule s).
Proof.
  intros HL Hn. assert (PI := leggauss_pos lg n HL Hn). destruct (HL n Hn) as [Lp [Lw _]]. unfold s2_lether. destruct (Nat.leb_spec 1 n) as [_|Bad]; [|lia]. cbn [guard].
  destruct (lg n) as [p w]. cbn [fst snd] in Lp, Lw, PI.
  set (q := List.combine w p) in *. destruct (split_combine p w ltac:(lia)) as [E1 E2]. fold q in E1, E2.
  assert (Lq : length q = n) by (unfold q; rewrite combine_length; lia). clearbody q. subst p w. cbv zeta.
  set (th := fun m => INR m * Rtrigo1.PI / INR (n + 1)).
  set (idx := flat_map (fun e => map (fun m => (e, m)) (seq 1 n)) q).
  assert (Ex : concat (repeat (map (fun m => cos (th m)) (seq 1 n)) n) = map (fun em => cos (th (snd em))) idx).
  { transitivity (concat (repeat (map (fun m => cos (th m)) (seq 1 n)) (length q))); [rewrite Lq; auto|]. rewrite concat_repeat_flat. unfold idx. rewrite map_flat_map.
    apply flat_map_ext. intros e. rewrite map_map. reflexivity. }
  assert (Ey : concat (map (fun pi => map (fun m => pi * sin (th m)) (seq 1 n)) (map snd q)) = map (fun em => snd (fst em) * sin (th (snd em))) idx).
  { unfold idx. rewrite map_flat_map, <- flat_map_concat_map, flat_map_concat_map, map_map, <- flat_map_concat_map. apply flat_map_ext. intros e. rewrite map_map. reflexivity. }
  assert (Ew : map (fun x => x / INR (n + 1)) (concat (map (fun wi => map (fun m => wi * sin (th m) ^ 2) (seq 1 n)) (map fst q))) = map (fun em => fst (fst em) * sin (th (snd em)) ^ 2 / INR (n + 1)) idx).
  { unfold idx. rewrite <- flat_map_concat_map, map_flat_map, map_flat_map, flat_map_concat_map, map_map, <- flat_map_concat_map. apply flat_map_ext. intros e. rewrite !map_map. reflexivity. }
  change (fun m : nat => cos (INR m * Rtrigo1.PI / INR (n + 1))) with (fun m : nat => cos (th m)).
  change (fun pi : R => map (fun m : nat => pi * sin (INR m * Rtrigo1.PI / INR (n + 1))) (seq 1 n)) with (fun pi : R => map (fun m : nat => pi * sin (th m)) (seq 1 n)).
  change (fun wi : R => map (fun m : nat => wi * sin (INR m * Rtrigo1.PI / INR (n + 1)) ^ 2) (seq 1 n)) with (fun wi : R => map (fun m : nat => wi * sin (th m) ^ 2) (seq 1 n)).
  rewrite Ew, Ex, Ey, plain_index. intros E. injection E as <-. cbn [s_rule].
  apply List.Forall_forall. intros x Hx. apply in_map_iff in Hx. destruct Hx as ([e m] & <- & Hi). cbn [fst snd]. apply in_flat_map in Hi. destruct Hi as (e' & He & Hi). apply in_map_iff in Hi. destruct Hi as (m' & Em & _). injection Em as -> ->.
  unfold positive_inside in PI. rewrite List.Forall_forall in PI. destruct (PI e He) as [We Pe]. assert (P : 0 < INR (n + 1)) by (apply lt_0_INR; lia). assert (SC := sin2_cos2 (th m)). unfold Rsqr in SC. split.
  - apply Rmult_le_pos; [apply Rmult_le_pos; [lra|apply pow2_ge_0]|left; apply Rinv_0_lt_compat; auto].
  - split; auto. cbn [map Rsum]. assert (snd e * snd e <= 1) by nra. assert (0 <= sin (th m) * sin (th m)) by nra. nra.
Qed.
Lemma s2_peirce_positive lg m s : leggauss_ok lg -> s2_peirce_1957 lg m = Some s -> positive_in (in_ball 2) (s_rule s).
Proof.
  intros HL. assert (PI := leggauss_pos lg (m + 1) HL ltac:(lia)). destruct (HL (m + 1)%nat ltac:(lia)) as [Lp [Lw X]]. unfold s2_peirce_1957. destruct (lg (m + 1)%nat) as [p0 w]. cbn [fst snd] in Lp, Lw, X, PI.
  set (q := List.combine w p0) in *. destruct (split_combine p0 w ltac:(lia)) as [E1 E2]. fold q in E1, E2.
  assert (Lq : length q = (m + 1)%nat) by (unfold q; rewrite combine_length; lia).
  assert (In1 := gauss_inside (m + 1) q ltac:(lia) Lq X). rewrite List.Forall_forall in In1. clearbody q. subst p0 w.
  set (k := (4 * m + 3)%nat). cbv zeta.
  rewrite (opt_all_map _ (fun x => sqrt ((x + 1) / 2))).
  2:{ intros x Hx. replace (0.5 * (x + 1)) with ((x + 1) / 2) by lra. apply rsqrt_ok. specialize (In1 x Hx). lra. }
  cbn [bind].
  set (th := map (fun i => 2 * Rtrigo1.PI * INR i / INR (k + 1)) (seq 1 (k + 1))).
  set (idx := flat_map (fun t => map (fun e => (e, t)) q) th).
  assert (Ei : flat_map (fun t => map (fun r => (r, t)) (map (fun x : R => sqrt ((x + 1) / 2)) (map snd q))) th = map (fun et => (sqrt ((snd (fst et) + 1) / 2), snd et)) idx).
  { unfold idx. rewrite map_flat_map. apply flat_map_ext. intros t. rewrite !map_map. reflexivity. }
  rewrite Ei.
  assert (Ew : concat (repeat (map (fun x : R => 0.5 / INR (k + 1) * x) (map fst q)) (k + 1)) = map (fun et => 0.5 / INR (k + 1) * fst (fst et)) idx).
  { assert (Lth : length th = (k + 1)%nat) by (unfold th; rewrite map_length, seq_length; auto).
    transitivity (concat (repeat (map (fun x : R => 0.5 / INR (k + 1) * x) (map fst q)) (length th))); [rewrite Lth; auto|]. rewrite concat_repeat_flat. unfold idx. rewrite map_flat_map.
    apply flat_map_ext. intros t. rewrite !map_map. reflexivity. }
  rewrite Ew, (map_map _ (fun rt => fst rt * cos (snd rt))), (map_map _ (fun rt => fst rt * sin (snd rt))), plain_index. intros E. injection E as <-. cbn [s_rule].
  apply List.Forall_forall. intros x Hx. apply in_map_iff in Hx. destruct Hx as ([e t] & <- & Hi). cbn [fst snd]. apply in_flat_map in Hi. destruct Hi as (t' & _ & Hi). apply in_map_iff in Hi. destruct Hi as (e' & Em & He). injection Em as -> ->.
  unfold positive_inside in PI. rewrite List.Forall_forall in PI. destruct (PI e He) as [We Pe]. assert (P : 0 < INR (k + 1)) by (apply lt_0_INR; lia). assert (SC := sin2_cos2 t). unfold Rsqr in SC. split.
  - apply Rmult_le_pos; [|lra]. apply Rmult_le_pos; [lra|left; apply Rinv_0_lt_compat; auto].
  - split; auto. cbn [map Rsum]. assert (Q := sqrt_sqrt ((snd e + 1) / 2) ltac:(lra)). set (r := sqrt _) in *. replace ((r * cos t) ^ 2 + ((r * sin t) ^ 2 + 0)) with (r * r * (sin t * sin t + cos t * cos t)) by ring. rewrite SC, Q. lra.
Qed.
Lemma lether_growing lg : leggauss_ok lg -> growing_rules (in_ball 2) 2 (fun k => ball_mean 2 (mono k)) (fun n => option_map s_rule (s2_lether lg n)).
Proof.
  intros HL. apply growing_positive. intros m. exists (S m). intros n Hn. destruct (delivers_exact _ _ _ _ (lether_ok lg n HL ltac:(lia))) as (s & E & X). exists (s_rule s). rewrite E. split; [reflexivity|]. split; [apply (exact_le _ m (2 * n - 1)); auto; lia|].
  apply (s2_lether_positive lg n); auto. lia.
Qed.
Lemma peirce_growing lg : leggauss_ok lg -> growing_rules (in_ball 2) 2 (fun k => ball_mean 2 (mono k)) (fun n => option_map s_rule (s2_peirce_1957 lg n)).
Proof.
  intros HL. apply growing_positive. intros m. exists m. intros n Hn. destruct (delivers_exact _ _ _ _ (peirce_1957_ok lg n HL)) as (s & E & X). exists (s_rule s). rewrite E. split; [reflexivity|]. split; [apply (exact_le _ m (4 * n + 3)); auto; lia|].
  apply (s2_peirce_positive lg n); auto.
Qed.
(** *** the triangle *)
Lemma t2_lether_positive eigh n s : eigen_solver eigh -> (1 <= n)%nat -> t2_lether eigh n = Some s -> positive_in (in_bary 2) (s_rule s).
Proof.
  intros HE Hn. destruct PropS2S3.C57_leggauss_exists as (lg & HL). destruct (C80_legendre_positive eigh lg n HE HL Hn) as (gl & _ & E & _ & P & _). destruct (C33_gauss_legendre eigh n HE Hn) as (gl' & E' & _ & Lq & _). rewrite E in E'. injection E' as <-.
  unfold t2_lether. rewrite E. cbn [bind]. set (q := c1_rule gl) in *. clearbody q. clear E gl.
  set (idx := flat_map (fun a => map (fun b => (a, b)) q) q).
  assert (Ew : flat_map (fun xw => map (fun w' => (1 + fst xw) * snd xw * w' / 4) (map fst q)) (List.combine (map snd q) (map fst q)) = map (fun ab => (1 + snd (fst ab)) * fst (fst ab) * fst (snd ab) / 4) idx).
  { unfold idx. rewrite map_flat_map, combine_map2'. rewrite !flat_map_concat_map. f_equal. rewrite map_map. apply map_ext. intros a. rewrite !map_map. reflexivity. }
  assert (Ex : flat_map (fun x => map (fun _ : R => (1 - x) * 1 / 2) (repeat 1 n)) (map snd q) = map (fun ab : (R * R) * (R * R) => (1 - snd (fst ab)) / 2) idx).
  { unfold idx. rewrite map_flat_map. rewrite !flat_map_concat_map. f_equal. rewrite map_map. apply map_ext. intros a. rewrite map_map. cbn [fst snd].
    rewrite <- Lq. clear. induction q as [|b q IH]; auto. cbn [length repeat map]. f_equal; auto. field. }
  assert (Ey : flat_map (fun x => map (fun x' => (1 + x) * (1 - x') / 4) (map snd q)) (map snd q) = map (fun ab => (1 + snd (fst ab)) * (1 - snd (snd ab)) / 4) idx).
  { unfold idx. rewrite map_flat_map. rewrite !flat_map_concat_map. f_equal. rewrite map_map. apply map_ext. intros a. rewrite !map_map. reflexivity. }
  rewrite Ew, Ex, Ey. rewrite (combine_map2' (fun ab : (R * R) * (R * R) => (1 - snd (fst ab)) / 2)), map_map. rewrite plain3_index. intros E. injection E as <-. cbn [s_rule].
  apply List.Forall_forall. intros x Hx. apply in_map_iff in Hx. destruct Hx as ([a b] & <- & Hi). cbn [fst snd]. apply in_flat_map in Hi. destruct Hi as (a' & Ha & Hi). apply in_map_iff in Hi. destruct Hi as (b' & Em & Hb). injection Em as -> ->.
  unfold positive_inside in P. rewrite List.Forall_forall in P. destruct (P a Ha) as [Wa Pa]. destruct (P b Hb) as [Wb Pb]. split.
  - assert (0 <= (1 + snd a) * fst a * fst b) by (repeat apply Rmult_le_pos; lra). lra.
  - split; [reflexivity|]. split; [|cbn [Rsum]; ring]. assert (0 <= (1 + snd a) * (1 - snd b)) by (apply Rmult_le_pos; lra). assert (0 <= (1 + snd a) * (1 + snd b)) by (apply Rmult_le_pos; lra). constructor; [lra|constructor; [lra|constructor; [lra|constructor]]].
Qed.
Lemma t2_lether_growing eigh : eigen_solver eigh -> growing_rules (in_bary 2) 3 (fun k => simplex_mean 2 (mono k)) (fun n => option_map s_rule (t2_lether eigh n)).
Proof.
  intros HE. apply growing_positive. intros m. exists (S m). intros n Hn. destruct (delivers_exact _ _ _ _ (t2_lether_ok eigh n HE ltac:(lia))) as (s & E & X). exists (s_rule s). rewrite E. split; [reflexivity|]. split; [apply (exact_le _ m (2 * (n - 1))); auto; lia|].
  apply (t2_lether_positive eigh n); auto. lia.
Qed.
(** *** the circle *)
Lemma krylov_growing : growing_rules (on_sphere 2) 2 (fun k => sphere_mean 2 (mono k)) (fun n => option_map u2_rule (krylov n)).
Proof.
  apply growing_positive. intros m. exists (S m). intros n Hn. exists (krylov_rule n). rewrite krylov_run by lia. split; [reflexivity|]. split.
  - split; [|intros k Hk Hd; apply krylov_exact; auto; lia]. unfold points_in_dim, krylov_rule. apply List.Forall_map, List.Forall_forall. intros; reflexivity.
  - unfold krylov_rule. apply List.Forall_map, List.Forall_forall. intros k _. cbn [fst snd]. split; [left; apply Rdiv_lt_0_compat; [lra|apply lt_0_INR; lia]|]. split; auto. cbn [map Rsum].
    assert (SC := sin2_cos2 (2 * INR k * PI / INR n)). unfold Rsqr in SC. lra.
Qed.
