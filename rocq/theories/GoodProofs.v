(** The functions get_good_scheme and the readers of the data files. *)
From Coq Require Import Reals List Arith ZArith Lia Lra String QArith Qreals Permutation.
From Verif Require Import Spec RsumLemmas IntegralSpec SphereSpec PowerBallSpec PowerBall PyBase SymmModel SymmProofs OrbitModel OrbitProofs SchemeTools Tower TowerMoments TowerSym FixSpec FixTools RootSpec TnProofs4
  TnBase SymExact SimplexInt IntegralProofs IntegralProofs2 C2Model C2Proofs C3Model C3Proofs C3Param S2Model S2Proofs S23Param S3Model S3Proofs T2Model T2Proofs T3Model T3Proofs T3Cubic U3Model U3Proofs E23Model E23Proofs GoodModel GoodSpec.
Import ListNotations.
Set Bullet Behavior "Strict Subproofs".
Local Notation length := List.length.
Open Scope R_scope.

(* ------------------------------------------------------------------ the selection *)
Lemma mapM_all {A B} (f : A -> option B) l : (forall a, In a l -> exists b, f a = Some b) -> exists l', mapM f l = Some l' /\ Forall2 (fun a b => f a = Some b) l l'.
Proof.
  induction l as [|a l IH]; intros H; [exists []; split; [reflexivity|constructor]|].
  destruct (H a (or_introl eq_refl)) as [b E]. destruct IH as [l' [E' F]]; [intros; apply H; right; auto|].
  exists (b :: l'). cbn [mapM]. rewrite E. cbn [bind]. rewrite E'. split; [reflexivity|constructor; auto].
Qed.
Lemma good_lazy_ok bound table schemes degree (P : scheme -> Prop) :
  (degree <= bound)%Z -> existsb (fun e => (fst e =? degree)%Z) table = true ->
  (forall e, In e table -> exists c, schemes (snd e) = Some c) ->
  (forall e, In e table -> fst e = degree -> exists s, schemes (snd e) = Some (Some s) /\ P s) ->
  exists s, good_lazy bound table schemes degree = Scheme s /\ P s.
Proof.
  intros Hb Hin Hc HP. unfold good_lazy. apply Z.leb_le in Hb. rewrite Hb.
  destruct (mapM_all (fun e : Z * string => let! c := schemes (snd e) in Some (fst e, c)) table) as [t [-> F]].
  { intros e He. destruct (Hc e He) as [c ->]. cbn. eauto. }
  clear Hb Hc. induction F as [|e y table t E F IH]; [discriminate|]. cbn [existsb find] in *.
  destruct (schemes (snd e)) as [c|] eqn:Es; [|discriminate]. injection E as <-. cbn [fst].
  destruct (fst e =? degree)%Z eqn:Ed.
  - apply Z.eqb_eq in Ed. destruct (HP e (or_introl eq_refl) Ed) as [s [E Ps]]. rewrite Es in E. injection E as ->. eauto.
  - apply IH; auto. intros e' He'. apply HP. right. auto.
Qed.
Lemma good_eager_ok bound table schemes degree (P : scheme -> Prop) :
  (degree <= bound)%Z -> existsb (fun e => (fst e =? degree)%Z) table = true ->
  (forall e, In e table -> exists s, schemes (snd e) = Some (Some s)) ->
  (forall e, In e table -> fst e = degree -> exists s, schemes (snd e) = Some (Some s) /\ P s) ->
  exists s, good_eager bound table schemes degree = Scheme s /\ P s.
Proof.
  intros Hb Hin Hc HP. unfold good_eager. apply Z.leb_le in Hb. rewrite Hb.
  destruct (mapM_all (fun e : Z * string => let! c := schemes (snd e) in let! s := c in Some (fst e, s)) table) as [t [-> F]].
  { intros e He. destruct (Hc e He) as [c ->]. cbn. eauto. }
  clear Hb Hc. induction F as [|e y table t E F IH]; [discriminate|]. cbn [existsb find] in *.
  destruct (schemes (snd e)) as [[s|]|] eqn:Es; try discriminate. injection E as <-. cbn [fst].
  destruct (fst e =? degree)%Z eqn:Ed.
  - apply Z.eqb_eq in Ed. destruct (HP e (or_introl eq_refl) Ed) as [s' [E Ps]]. rewrite Es in E. injection E as ->. eauto.
  - apply IH; auto. intros e' He'. apply HP. right. auto.
Qed.
Lemma good_lazy_none bound table schemes degree : (bound < degree)%Z -> good_lazy bound table schemes degree = NoScheme.
Proof. intros H. unfold good_lazy. destruct (Z.leb_spec degree bound); [lia|reflexivity]. Qed.
Lemma good_eager_none bound table schemes degree : (bound < degree)%Z -> good_eager bound table schemes degree = NoScheme.
Proof. intros H. unfold good_eager. destruct (Z.leb_spec degree bound); [lia|reflexivity]. Qed.
Lemma good_lazy_absent bound table schemes degree : (degree <= bound)%Z -> (forall e, In e table -> fst e <> degree) ->
  good_lazy bound table schemes degree = Error.
Proof.
  intros Hb Hn. unfold good_lazy. apply Z.leb_le in Hb. rewrite Hb.
  destruct (mapM _ table) as [t|] eqn:E; [|reflexivity].
  enough (find (fun e : Z * option scheme => (fst e =? degree)%Z) t = None) as -> by reflexivity.
  revert t E. clear Hb. induction table as [|e table IH]; intros t E; [injection E as <-; reflexivity|].
  cbn [mapM] in E. destruct (schemes (snd e)) as [c|]; [|discriminate]. cbn [bind] in E.
  destruct (mapM _ table) as [t'|]; [|discriminate]. injection E as <-. cbn [find fst].
  destruct (Z.eqb_spec (fst e) degree) as [X|X]; [destruct (Hn e (or_introl eq_refl) X)|]. apply IH; auto. intros; apply Hn; right; auto.
Qed.
Lemma good_eager_absent bound table schemes degree : (degree <= bound)%Z -> (forall e, In e table -> fst e <> degree) ->
  good_eager bound table schemes degree = Error.
Proof.
  intros Hb Hn. unfold good_eager. apply Z.leb_le in Hb. rewrite Hb.
  destruct (mapM _ table) as [t|] eqn:E; [|reflexivity].
  enough (find (fun e : Z * scheme => (fst e =? degree)%Z) t = None) as -> by reflexivity.
  revert t E. clear Hb. induction table as [|e table IH]; intros t E; [injection E as <-; reflexivity|].
  cbn [mapM] in E. destruct (schemes (snd e)) as [[c|]|]; try discriminate. cbn [bind] in E.
  destruct (mapM _ table) as [t'|]; [|discriminate]. injection E as <-. cbn [find fst].
  destruct (Z.eqb_spec (fst e) degree) as [X|X]; [destruct (Hn e (or_introl eq_refl) X)|]. apply IH; auto. intros; apply Hn; right; auto.
Qed.

(* ------------------------------------------------------------------ the readers *)
Lemma scale_scheme_apply w s f : apply (s_rule (scale_scheme w s)) f = match w with Some w => w | None => 1 end * apply (s_rule s) f.
Proof.
  destruct w as [w|]; cbn; [|ring]. unfold apply, scale_rule. rewrite map_map. rewrite <- Rsum_map_scal. apply Rsum_map_ext.
  intros wp _. cbn. ring.
Qed.
Lemma scale_scheme_degree w s : s_degree (scale_scheme w s) = s_degree s.
Proof. destruct w; reflexivity. Qed.
Definition scaled {K} (w : R) (data : list (K * (list R * list (list R)))) := map (fun kv => (fst kv, (map (fun v => v * w) (fst (snd kv)), snd (snd kv)))) data.
Lemma resolve_scaled {B} (tbl : list (string * B)) w data : resolve tbl (scaled w data) = let! d := resolve tbl data in Some (scaled w d).
Proof.
  induction data as [|[k v] data IH]; [reflexivity|]. cbn [scaled map fst snd resolve]. destruct (SymmModel.lookup tbl k) as [b|]; [|reflexivity].
  cbn [bind]. unfold scaled in IH. rewrite IH. destruct (resolve tbl data); reflexivity.
Qed.
Lemma tile_scaled w values count : tile (map (fun v => v * w) values) count = map (fun v => v * w) (tile values count).
Proof. unfold tile. rewrite concat_map. f_equal. induction count as [|c IH]; [reflexivity|]. cbn. rewrite IH. reflexivity. Qed.
Lemma gen_expand_scaled {K} (cols : K -> list (list R) -> option (list (list R))) orb w data :
  gen_expand cols orb (scaled w data) = let! pw := gen_expand cols orb data in Some (fst pw, map (fun v => v * w) (snd pw)).
Proof.
  unfold gen_expand. replace (map _ (scaled w data)) with (map (fun kv : K * (list R * list (list R)) => (fst kv, snd (snd kv))) data).
  2:{ unfold scaled. rewrite map_map. reflexivity. }
  destruct (gen_points_only cols orb _) as [pc|]; [|reflexivity]. cbn [bind fst snd]. f_equal. f_equal.
  rewrite concat_map, map_map. f_equal. unfold scaled. rewrite map_map. cbn [fst snd]. generalize (snd pc). clear.
  induction data as [|kv data IH]; intros [|c cs]; try reflexivity. cbn [map List.combine fst snd]. rewrite tile_scaled, IH. reflexivity.
Qed.
Lemma mk_rule_scaled w (pw : list point * list R) : mk_rule (fst pw, map (fun v => v * w) (snd pw)) = scale_rule w (mk_rule pw).
Proof.
  destruct pw as [p v]. unfold mk_rule, scale_rule. cbn [fst snd]. revert p. induction v as [|a v IH]; intros [|b p]; try reflexivity.
  cbn. rewrite IH. reflexivity.
Qed.
Lemma read_c2_scaled c : read_c2 c = let! s := c2_scheme (c_data c) (c_degree c) in Some (scale_scheme (c_factor c) s).
Proof.
  unfold read_c2, c2_scheme, expand_symmetries_str, expand_symmetries. destruct (c_factor c) as [w|]; cbn [scale_data].
  - change (map _ (c_data c)) with (scaled w (c_data c)). rewrite resolve_scaled. destruct (resolve _ _) as [d|]; [|reflexivity]. cbn [bind].
    rewrite gen_expand_scaled. destruct (gen_expand _ _ _) as [pw|]; [|reflexivity]. cbn [bind]. rewrite mk_rule_scaled. reflexivity.
  - destruct (resolve _ _) as [d|]; [|reflexivity]. cbn [bind]. destruct (gen_expand _ _ _); reflexivity.
Qed.
Lemma read_u3_scaled c : read_u3 c = let! s := u3_scheme (c_data c) (c_degree c) in Some (scale_scheme (c_factor c) s).
Proof.
  unfold read_u3, u3_scheme, u3_expand_str, u3_expand. destruct (c_factor c) as [w|]; cbn [scale_data].
  - change (map _ (c_data c)) with (scaled w (c_data c)). rewrite resolve_scaled. destruct (resolve _ _) as [d|]; [|reflexivity]. cbn [bind].
    rewrite gen_expand_scaled. destruct (gen_expand _ _ _) as [pw|]; [|reflexivity]. cbn [bind]. rewrite mk_rule_scaled. reflexivity.
  - destruct (resolve _ _) as [d|]; [|reflexivity]. cbn [bind]. destruct (gen_expand _ _ _); reflexivity.
Qed.
(** Every reader: the degree is that of the file, and the rule is the one of the data times the weight factor. *)
Definition reads (build : list (string * (list R * list (list R))) -> nat -> option scheme) (read : content -> option scheme) : Prop :=
  forall c s, read c = Some s -> exists s0, build (c_data c) (c_degree c) = Some s0 /\ s_degree s = c_degree c /\
    map snd (s_rule s) = map snd (s_rule s0) /\ forall f, apply (s_rule s) f = factor c * apply (s_rule s0) f.
Lemma reads_intro build read : (forall c, read c = let! s := build (c_data c) (c_degree c) in Some (scale_scheme (c_factor c) s)) ->
  (forall data d s, build data d = Some s -> s_degree s = d) -> reads build read.
Proof.
  intros H Hd c s E. rewrite H in E. destruct (build (c_data c) (c_degree c)) as [s0|] eqn:E0; [|discriminate]. injection E as <-.
  exists s0. split; auto. split; [rewrite scale_scheme_degree; eapply Hd; eauto|]. split; [|intros; apply scale_scheme_apply].
  destruct (c_factor c) as [w|]; [|reflexivity]. cbn. unfold scale_rule. rewrite map_map. reflexivity.
Qed.
Ltac build_degree := intros data d s E; match type of E with ?b _ _ = _ => unfold b in E end;
  match type of E with bind ?x _ = _ => destruct x; [|discriminate] end; injection E as <-; reflexivity.
Lemma reads_c2 : reads c2_scheme read_c2. Proof. apply reads_intro; [apply read_c2_scaled|build_degree]. Qed.
Lemma reads_u3 : reads u3_scheme read_u3. Proof. apply reads_intro; [apply read_u3_scaled|build_degree]. Qed.
Lemma reads_t2 : reads t2_scheme read_t2. Proof. apply reads_intro; [reflexivity|build_degree]. Qed.
Lemma reads_t3 : reads t3_scheme read_t3. Proof. apply reads_intro; [reflexivity|build_degree]. Qed.
Lemma reads_s2 : reads s2_scheme read_s2. Proof. apply reads_intro; [reflexivity|build_degree]. Qed.
Lemma reads_e2 : reads e2_scheme read_e2. Proof. apply reads_intro; [reflexivity|build_degree]. Qed.

(* ------------------------------------------------------------------ the remaining closed-form constructors *)
Lemma t3_keast_0_ok : delivers (simplex_mean 3) 4 1 t3_keast_0.
Proof. unfold t3_keast_0. fix_finish_h 1%nat (simplexQ 3) ltac:(apply simplexQ_ok; auto). Qed.
Lemma t2_strang_fix_cowper_04_ok roots : root_finder roots -> delivers (simplex_mean 2) 3 3 (t2_strang_fix_cowper_04 roots).
Proof.
  intros Hf. unfold t2_strang_fix_cowper_04.
  destruct (cubic_roots 60 (-60) 15 (-1) 0 (1/6) (1/2) 1) as [l Hl]; rewrite ?poly_val4; try lra.
  apply Hf in Hl. destruct (all_real_roots_3 _ _ _ _ _ Hl) as (r & s & t & E & _ & _ & E1 & E2 & E3). cbv zeta.
  rewrite E. clear E Hl. cbn [nth].
  assert (F1 : r = 1 - t - s) by lra. assert (F2 : r * s + r * t + s * t = 1/4) by lra. assert (F3 : r * s * t = 1/60) by lra.
  clear E1 E2 E3. eapply delivers_run; [lazy -[Rplus Rmult Rminus Ropp Rdiv Rinv IZR pow sqrt PI cos sin]; reflexivity|].
  apply delivers_intro; [reflexivity|]. cbn [s_rule]. rewrite <- F1. apply (simplex_top 2 3).
  { repeat (apply List.Forall_cons; [split; [reflexivity|cbn [snd Rsum]; lra]|]). apply List.Forall_nil. }
  assert (F0 : r + s + t = 1) by lra.
  assert (P3 : r ^ 3 + s ^ 3 + t ^ 3 = 3/10).
  { transitivity ((r + s + t) ^ 3 - 3 * (r + s + t) * (r * s + r * t + s * t) + 3 * (r * s * t)); [ring|]. rewrite F0, F2, F3. lra. }
  assert (P21 : r ^ 2 * s + r ^ 2 * t + s ^ 2 * r + s ^ 2 * t + t ^ 2 * r + t ^ 2 * s = 1/5).
  { transitivity ((r + s + t) * (r * s + r * t + s * t) - 3 * (r * s * t)); [ring|]. rewrite F0, F2, F3. lra. }
  clear F0 F1 F2. intros k L T.
  destruct k as [|a [|b [|c [|]]]]; try discriminate L. unfold tdeg in T. cbn in T.
  assert (C : c = (3 - a - b)%nat) by lia. assert (A : (a <= 3)%nat) by lia. assert (B : (b <= 3 - a)%nat) by lia. clear T L.
  destruct a as [|[|[|[|a]]]]; [| | | |lia]; cbn in B; (destruct b as [|[|[|[|b]]]]; try lia); cbn in C; subst c; clear A B;
  rewrite <- simplex_mean_mono, simplexQ_ok by reflexivity;
  (match goal with |- context [Q2R ?q] => let v := eval vm_compute in q in change q with v end); unfold Q2R; cbn [Qnum Qden];
  unfold apply; cbn [map Rsum fst snd mono]; lra.
Qed.
(** The schemes given by decimals: that they are built, and their declared degree. *)
Definition builds (d : nat) (r : option scheme) : Prop := exists s, r = Some s /\ s_degree s = d.
Ltac build := eexists; split; [lazy -[Rplus Rmult Rminus Ropp Rdiv Rinv IZR Q2R]; reflexivity|reflexivity].
Lemma t2_lyness_jespersen_15_builds : builds 8 t2_lyness_jespersen_15. Proof. build. Qed.
Lemma t2_lyness_jespersen_18_builds : builds 9 t2_lyness_jespersen_18. Proof. build. Qed.
Lemma c3_witherden_vincent_09_builds : builds 9 c3_witherden_vincent_09. Proof. build. Qed.
Lemma c3_witherden_vincent_11_builds : builds 11 c3_witherden_vincent_11. Proof. build. Qed.
Lemma s2_mysovskih_1_0_ok : delivers (ball_mean 2) 2 4 (s2_mysovskih_1 0).
Proof.
  destruct (s2_mysovskih_1_ok 0%Z ltac:(lia)) as [s [E [D [L H]]]]. exists s. repeat split; auto. intros k Lk T. rewrite H by auto. apply power_ball_0; auto.
Qed.
Lemma s2_radon_0_ok : delivers (ball_mean 2) 2 5 (s2_radon 0).
Proof.
  destruct (s2_radon_ok 0%Z ltac:(lia)) as [s [E [D [L H]]]]. exists s. repeat split; auto. intros k Lk T. rewrite H by auto. apply power_ball_0; auto.
Qed.

(* ------------------------------------------------------------------ tables *)
Lemma in_range table bound degree : forallb (fun i => existsb (fun e : Z * string => (fst e =? Z.of_nat i)%Z) table) (seq 0 (S bound)) = true ->
  (0 <= degree <= Z.of_nat bound)%Z -> existsb (fun e : Z * string => (fst e =? degree)%Z) table = true.
Proof.
  intros H Hd. rewrite forallb_forall in H. specialize (H (Z.to_nat degree)). rewrite Z2Nat.id in H by lia. apply H. apply in_seq. lia.
Qed.
Lemma registered_all closed files read (table : list (Z * string)) :
  forallb (fun e => existsb (String.eqb (snd e)) (map fst closed ++ files)) table = true ->
  forall e, In e table -> exists c, registered closed files read (snd e) = Some c.
Proof.
  intros H e He. rewrite forallb_forall in H. specialize (H e He). rewrite existsb_app in H. unfold registered.
  destruct (SymmModel.lookup closed (snd e)) as [r|] eqn:E; [eauto|]. destruct (existsb (String.eqb (snd e)) files); [eauto|].
  exfalso. rewrite Bool.orb_false_r in H. apply existsb_exists in H. destruct H as [nm [H1 H2]]. apply in_map_iff in H1. destruct H1 as [p [<- Hp]].
  unfold SymmModel.lookup in E. destruct (find _ closed) eqn:F; [discriminate|]. apply (find_none _ _ F) in Hp. rewrite String.eqb_sym, H2 in Hp. discriminate.
Qed.
Lemma registered_closed closed files read name r : SymmModel.lookup closed name = Some r -> registered closed files read name = Some r.
Proof. intros E. unfold registered. rewrite E. reflexivity. Qed.
Lemma registered_file closed files read name : SymmModel.lookup closed name = None -> existsb (String.eqb name) files = true ->
  registered closed files read name = Some (read name).
Proof. intros E H. unfold registered. rewrite E, H. reflexivity. Qed.
