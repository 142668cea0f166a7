(** The families peirce_1957(m) and lether(n) of quadpy/s2. *)
From Coq Require Import Reals List Arith ZArith Lia Lra String.
From Coquelicot Require Import Coquelicot.
From Verif Require Import Spec Spec1 RsumLemmas IntegralSpec SphereSpec IntegralProofs SphereInt RadialInt PyBase SymmModel SchemeTools FixSpec FixTools TrigPoly TrigSums C1Proofs
  RingTools RingFix S2Model LegSpec LegTools.
Import ListNotations.
Set Bullet Behavior "Strict Subproofs".
Open Scope R_scope.
Local Notation length := List.length.
Local Notation concat := List.concat.

(** The key "plain" keeps points and weights as they are. *)
Lemma columns2 (px py : list R) : length px = length py -> columns (length px) [px; py] = map (fun xy => [fst xy; snd xy]) (List.combine px py).
Proof.
  intros L. unfold columns. revert py L. induction px as [|x px IH]; intros [|y py] L; try discriminate; auto.
  cbn [length seq map List.combine fst snd nth]. f_equal. rewrite <- (IH py) by (cbn in L; lia). rewrite <- seq_shift, map_map. reflexivity.
Qed.
Lemma plain2 w px py : length px = length py -> expand_symmetries_str [("plain"%string, (w, [px; py]))] 2 = Some (map (fun xy => [fst xy; snd xy]) (List.combine px py), w).
Proof.
  intros L. unfold expand_symmetries_str. cbn [resolve lookup]. unfold lookup. cbn [key_table find fst String.eqb Ascii.eqb Bool.eqb option_map snd bind].
  unfold expand_symmetries, gen_expand. cbn [map fst snd gen_points_only]. unfold gen_key_points, key_cols. cbn [arity length Nat.eqb forallb].
  rewrite Nat.eqb_refl, <- L, Nat.eqb_refl. cbn [andb bind length orbit seq map fst snd List.combine tile concat repeat]. rewrite (columns2 px py L).
  unfold tile. cbn [repeat List.concat]. rewrite !app_nil_r. do 2 f_equal. rewrite map_map. apply map_ext. intros [a b]. reflexivity.
Qed.
Lemma combine_map2' {A B C} (f : A -> B) (g : A -> C) l : List.combine (map f l) (map g l) = map (fun a => (f a, g a)) l.
Proof. induction l; cbn; auto. rewrite IHl. auto. Qed.
(** A plain scheme given as lists over a common index. *)
Lemma plain_index {A} (w x y : A -> R) (l : list A) d :
  s2_scheme [("plain"%string, (map w l, [map x l; map y l]))] d = Some (mk_scheme 2 (map (fun a => (w a, [x a; y a])) l) d).
Proof.
  unfold s2_scheme. rewrite plain2 by (rewrite !map_length; auto). cbn [bind]. do 2 f_equal. unfold mk_rule. cbn [fst snd].
  rewrite combine_map2', map_map. cbn [fst snd]. rewrite combine_map2'. reflexivity.
Qed.
Lemma opt_all_map {A B} (f : A -> option B) (g : A -> B) l : (forall a, In a l -> f a = Some (g a)) -> opt_all (map f l) = Some (map g l).
Proof. induction l as [|a l IH]; intros H; cbn [map opt_all]; auto. rewrite (H a) by (left; auto). cbn [bind]. rewrite IH by (intros; apply H; right; auto). auto. Qed.
Lemma split_combine {A B} (p : list A) (w : list B) : length p = length w -> p = map snd (List.combine w p) /\ w = map fst (List.combine w p).
Proof.
  revert w. induction p as [|a p IH]; intros [|b w] L; try discriminate; auto. cbn [List.combine map fst snd].
  destruct (IH w ltac:(cbn in L; lia)) as [E1 E2]. split; f_equal; auto.
Qed.
Lemma map_flat_map {A B C} (g : B -> C) (f : A -> list B) l : map g (flat_map f l) = flat_map (fun a => map g (f a)) l.
Proof. induction l as [|a l IH]; cbn [flat_map map]; auto. rewrite map_app, IH. auto. Qed.
Lemma concat_repeat_flat {A B} (c : list B) (l : list A) : concat (repeat c (length l)) = flat_map (fun _ => c) l.
Proof. induction l as [|a l IH]; cbn; auto. rewrite IH. auto. Qed.

Theorem peirce_1957_ok lg m : leggauss_ok lg -> delivers (ball_mean 2) 2 (4 * m + 3) (s2_peirce_1957 lg m).
Proof.
  intros HL. destruct (HL (m + 1)%nat ltac:(lia)) as [Lp [Lw X]]. unfold s2_peirce_1957. destruct (lg (m + 1)%nat) as [p0 w]. cbn [fst snd] in Lp, Lw, X.
  set (q := List.combine w p0) in *. destruct (split_combine p0 w ltac:(lia)) as [E1 E2]. fold q in E1, E2.
  assert (Lq : length q = (m + 1)%nat) by (unfold q; rewrite combine_length; lia).
  assert (In1 := gauss_inside (m + 1) q ltac:(lia) Lq X). rewrite List.Forall_forall in In1. clearbody q. subst p0 w.
  set (k := (4 * m + 3)%nat). cbv zeta.
  rewrite (opt_all_map _ (fun x => sqrt ((x + 1) / 2))).
  2:{ intros x Hx. replace (0.5 * (x + 1)) with ((x + 1) / 2) by lra. apply rsqrt_ok. specialize (In1 x Hx). lra. }
  cbn [bind].
  set (th := map (fun i => 2 * PI * INR i / INR (k + 1)) (seq 1 (k + 1))).
  set (idx := flat_map (fun t => map (fun e => (e, t)) q) th).
  assert (Ei : flat_map (fun t => map (fun r => (r, t)) (map (fun x : R => sqrt ((x + 1) / 2)) (map snd q))) th = map (fun et => (sqrt ((snd (fst et) + 1) / 2), snd et)) idx).
  { unfold idx. rewrite map_flat_map. apply flat_map_ext. intros t. rewrite !map_map. reflexivity. }
  rewrite Ei.
  assert (Ew : concat (repeat (map (fun x : R => 0.5 / INR (k + 1) * x) (map fst q)) (k + 1)) = map (fun et => 0.5 / INR (k + 1) * fst (fst et)) idx).
  { assert (Lth : length th = (k + 1)%nat) by (unfold th; rewrite map_length, seq_length; auto).
    transitivity (concat (repeat (map (fun x : R => 0.5 / INR (k + 1) * x) (map fst q)) (length th))); [rewrite Lth; auto|]. rewrite concat_repeat_flat. unfold idx. rewrite map_flat_map.
    apply flat_map_ext. intros t. rewrite !map_map. reflexivity. }
  rewrite Ew, (map_map _ (fun rt => fst rt * cos (snd rt))), (map_map _ (fun rt => fst rt * sin (snd rt))), plain_index. apply delivers_intro; [reflexivity|]. cbn [s_rule].
  assert (PK : INR (k + 1) <> 0) by (apply not_0_INR; lia).
  apply (rings_exact (4 * m + 3) (ball_mean 2) h_disk (map (fun e => mk_ring (0.5 / INR (k + 1) * fst e) (k + 1) (sqrt ((snd e + 1) / 2)) 2) q)).
  - intros a b _. apply disk_h.
  - intros f. unfold apply. rewrite !map_map. cbn [fst snd]. unfold idx. rewrite map_flat_map, Rsum_flat_map.
    transitivity (Rsum (map (fun t => Rsum (map (fun e => 0.5 / INR (k + 1) * fst e * f [sqrt ((snd e + 1) / 2) * cos t; sqrt ((snd e + 1) / 2) * sin t]) q)) th)).
    { apply Rsum_map_ext. intros t _. rewrite map_map. reflexivity. }
    rewrite (Rsum_swap (fun t e => 0.5 / INR (k + 1) * fst e * f [sqrt ((snd e + 1) / 2) * cos t; sqrt ((snd e + 1) / 2) * sin t])).
    apply Rsum_map_ext. intros e _. unfold ring_rule, th. rewrite !map_map. cbn [rg_K rg_w rg_rho]. rewrite Nat.add_1_r, <- seq_shift, map_map. f_equal. apply map_ext. intros i.
    cbn [fst snd]. unfold ring_angle. cbn [rg_off rg_K].
    replace (2 * PI * INR (S i) / INR (S k)) with ((2 * INR i + INR 2) * PI / INR (S k)) by (rewrite (S_INR i); replace (INR 2) with 2 by (cbn; ring); field; rewrite <- Nat.add_1_r; auto).
    rewrite (Rmult_comm (sqrt _) (cos _)), (Rmult_comm (sqrt _) (sin _)). reflexivity.
  - apply List.Forall_forall. intros x Hx. apply in_map_iff in Hx. destruct Hx as [y [<- _]]. reflexivity.
  - apply List.Forall_forall. intros x Hx. apply in_map_iff in Hx. destruct Hx as [y [<- _]]. cbn [rg_K]. lia.
  - intros s Hs Es. apply Nat.even_spec in Es. destruct Es as [t ->]. rewrite map_map. cbn [rg_w rg_K rg_rho].
    transitivity (1 / 2 * apply1 q (fun x => ((x + 1) / 2) ^ t)).
    + unfold apply1. rewrite <- Rsum_map_scal. apply Rsum_map_ext. intros e He. rewrite pow_mult.
      replace (sqrt ((snd e + 1) / 2) ^ 2) with ((snd e + 1) / 2).
      * set (y := ((snd e + 1) / 2) ^ t). replace 0.5 with (1 / 2) by lra. field. auto.
      * cbn [pow]. rewrite Rmult_1_r, sqrt_sqrt; auto. specialize (In1 (snd e) (in_map snd _ _ He)). lra.
    + rewrite (leg_half _ q t X) by lia. unfold h_disk. rewrite S_INR, INR_IZR_INZ. rewrite Nat2Z.inj_mul, plus_IZR, mult_IZR. cbn [Z.of_nat Pos.of_succ_nat Pos.succ].
      rewrite <- INR_IZR_INZ. pose proof (pos_INR t). field. lra.
  - intros s j Hj Hs _. rewrite map_map. cbn [rg_w rg_K rg_rho]. rewrite (Rsum_map_ext _ (fun _ => 0)); [rewrite Rsum_map_const; ring|].
    intros e _. unfold ring_sign. cbn [rg_K]. rewrite Nat.mod_small by lia. destruct (Nat.eqb_spec j 0); [lia|ring].
Qed.
(** The trapezoidal rule on [0, pi] for cos^a sin^(b+2), b even. *)
Lemma cospoly_cs a c : cospoly (a + 2 * c) (fun t => cos t ^ a * sin t ^ (2 * c)).
Proof.
  induction c as [|c IH].
  - apply (cospoly_ext _ (fun t => cos t ^ a)); [intros; cbn; ring|]. replace (a + 2 * 0)%nat with a by lia. apply cospoly_pow.
  - apply (cospoly_ext _ (fun t => cos t ^ a * sin t ^ (2 * c) * sin t ^ 2)); [intros; replace (2 * S c)%nat with (2 * c + 2)%nat by lia; rewrite pow_add; ring|].
    replace (a + 2 * S c)%nat with (S (S (a + 2 * c))) by lia. apply cospoly_mul_sin2. auto.
Qed.
Lemma half_circle n a c : (a + 2 * c <= 2 * n - 1)%nat -> (1 <= n)%nat ->
  Rsum (map (fun m => cos (INR m * PI / INR (n + 1)) ^ a * sin (INR m * PI / INR (n + 1)) ^ (2 * c + 2)) (seq 1 n)) = INR (n + 1) * sphere_mean 2 (mono [a; (2 * c + 2)%nat]).
Proof.
  intros H Hn. destruct (cospoly_cs a (S c)) as [l [Hl E]]. replace (2 * S c)%nat with (2 * c + 2)%nat in E by lia.
  assert (P : INR (n + 1) <> 0) by (apply not_0_INR; lia).
  assert (T := trapez_cosval (n + 1) l ltac:(lia)). replace (n + 1 - 1)%nat with n in T by lia.
  rewrite (Rsum_map_ext _ (fun m => cosval l (PI * INR m / INR (n + 1)))) by (intros m _; rewrite <- E; replace (PI * INR m / INR (n + 1)) with (INR m * PI / INR (n + 1)) by (field; auto); reflexivity).
  rewrite T by (eapply List.Forall_impl; [|exact Hl]; cbn beta; intros; lia).
  rewrite <- !E, sin_0, sin_PI, pow_i, !Rmult_0_r by lia.
  assert (SM : sphere_mean 2 (mono [a; (2 * c + 2)%nat]) = cos_mean l).
  { assert (E1 : forall t, (fun _ : point => 1) [cos t; sin t] = trigval [(0%nat, (1, 0))] t).
    { intros t. unfold trigval. cbn [map Rsum fst snd INR]. rewrite (Rmult_0_l t), cos_0. ring. }
    unfold sphere_mean. rewrite (sphere_2_trig (map (fun jc => (fst jc, (snd jc, 0))) l) (mono [a; (2 * c + 2)%nat])).
    - rewrite (sphere_2_trig _ _ E1). unfold trig_mean. rewrite map_map. cbn [fst snd map Rsum Nat.eqb].
      unfold cos_mean. field. apply PI_neq0.
    - intros t. unfold trigval. rewrite map_map. cbn [fst snd]. rewrite (Rsum_map_ext _ (fun jc => snd jc * cos (INR (fst jc) * t))) by (intros; ring).
      fold (cosval l t). rewrite <- E. cbn [mono]. ring. }
  rewrite SM. field.
Qed.
Lemma disk_slice a c : ball_mean 2 (mono [a; (2 * c)%nat]) = 2 / INR (S (2 * c)) * sphere_mean 2 (mono [a; (2 * c + 2)%nat]).
Proof.
  change (ball_mean 2 (mono [a; (2 * c)%nat])) with (ballI 2 [a; (2 * c)%nat]). change (sphere_mean 2 (mono [a; (2 * c + 2)%nat])) with (sphereI 2 [a; (2 * c + 2)%nat]).
  rewrite ballI_val, sphereI_val by (auto; lia). unfold rmoment. cbn [existsb].
  assert (O1 : Nat.odd (2 * c) = false) by (rewrite <- Nat.negb_even, Nat.even_mul; auto).
  assert (O2 : Nat.odd (2 * c + 2) = false) by (rewrite <- Nat.negb_even, Nat.even_add, Nat.even_mul; auto).
  rewrite O1, O2. destruct (Nat.odd a) eqn:Oa; cbn [orb]; [ring|].
  assert (Ea : exists j, a = (2 * j)%nat) by (apply Nat.even_spec; rewrite <- Nat.negb_odd, Oa; auto). destruct Ea as [j ->].
  replace (tdeg [(2 * j)%nat; (2 * c)%nat] / 2)%nat with (j + c)%nat by (unfold tdeg; cbn [list_sum fold_right]; replace (2 * j + (2 * c + 0))%nat with ((j + c) * 2)%nat by lia; rewrite Nat.div_mul; lia).
  replace (tdeg [(2 * j)%nat; (2 * c + 2)%nat] / 2)%nat with (S (j + c)) by (unfold tdeg; cbn [list_sum fold_right]; replace (2 * j + (2 * c + 2 + 0))%nat with (S (j + c) * 2)%nat by lia; rewrite Nat.div_mul; lia).
  cbn [map Rprod]. unfold h_ball, h_sphere. replace (INR 2) with 2 by (cbn; ring). rewrite rise_2_S. replace (2 + 2) with 4 by ring.
  replace (2 * c + 2)%nat with (S (S (2 * c))) by lia. cbn [df]. replace (2 * c + 1)%nat with (S (2 * c)) by lia.
  assert (INR (S (2 * c)) <> 0) by (apply not_0_INR; lia). assert (0 < rise 4 (j + c)) by (apply rise_pos; lra). field. split; [lra|auto].
Qed.
Lemma disk_odd a b : Nat.even b = false -> ball_mean 2 (mono [a; b]) = 0.
Proof.
  intros H. change (ball_mean 2 (mono [a; b])) with (ballI 2 [a; b]). rewrite ballI_val by auto. unfold rmoment. cbn [existsb]. rewrite <- (Nat.negb_even b), H. cbn. rewrite Bool.orb_true_r. auto.
Qed.
Theorem lether_ok lg n : leggauss_ok lg -> (1 <= n)%nat -> delivers (ball_mean 2) 2 (2 * n - 1) (s2_lether lg n).
Proof.
  intros HL Hn. destruct (HL n Hn) as [Lp [Lw X]]. unfold s2_lether. destruct (Nat.leb_spec 1 n) as [_|Bad]; [|lia]. cbn [guard].
  destruct (lg n) as [p w]. cbn [fst snd] in Lp, Lw, X.
  set (q := List.combine w p) in *. destruct (split_combine p w ltac:(lia)) as [E1 E2]. fold q in E1, E2.
  assert (Lq : length q = n) by (unfold q; rewrite combine_length; lia). clearbody q. subst p w. cbv zeta.
  set (th := fun m => INR m * PI / INR (n + 1)).
  set (idx := flat_map (fun e => map (fun m => (e, m)) (seq 1 n)) q).
  assert (Ex : concat (repeat (map (fun m => cos (th m)) (seq 1 n)) n) = map (fun em => cos (th (snd em))) idx).
  { transitivity (concat (repeat (map (fun m => cos (th m)) (seq 1 n)) (length q))); [rewrite Lq; auto|]. rewrite concat_repeat_flat. unfold idx. rewrite map_flat_map.
    apply flat_map_ext. intros e. rewrite map_map. reflexivity. }
  assert (Ey : concat (map (fun pi => map (fun m => pi * sin (th m)) (seq 1 n)) (map snd q)) = map (fun em => snd (fst em) * sin (th (snd em))) idx).
  { unfold idx. rewrite map_flat_map, <- flat_map_concat_map, flat_map_concat_map, map_map, <- flat_map_concat_map. apply flat_map_ext. intros e. rewrite map_map. reflexivity. }
  assert (Ew : map (fun x => x / INR (n + 1)) (concat (map (fun wi => map (fun m => wi * sin (th m) ^ 2) (seq 1 n)) (map fst q))) = map (fun em => fst (fst em) * sin (th (snd em)) ^ 2 / INR (n + 1)) idx).
  { unfold idx. rewrite <- flat_map_concat_map, map_flat_map, map_flat_map, flat_map_concat_map, map_map, <- flat_map_concat_map. apply flat_map_ext. intros e. rewrite !map_map. reflexivity. }
  change (fun m : nat => cos (INR m * PI / INR (n + 1))) with (fun m : nat => cos (th m)).
  change (fun pi : R => map (fun m : nat => pi * sin (INR m * PI / INR (n + 1))) (seq 1 n)) with (fun pi : R => map (fun m : nat => pi * sin (th m)) (seq 1 n)).
  change (fun wi : R => map (fun m : nat => wi * sin (INR m * PI / INR (n + 1)) ^ 2) (seq 1 n)) with (fun wi : R => map (fun m : nat => wi * sin (th m) ^ 2) (seq 1 n)).
  rewrite Ew, Ex, Ey, plain_index. apply delivers_intro; [reflexivity|]. cbn [s_rule]. split.
  { apply List.Forall_forall. intros x Hx. apply in_map_iff in Hx. destruct Hx as [y [<- _]]. reflexivity. }
  intros k Hk Hd. destruct k as [|a [|b [|? ?]]]; try discriminate.
  replace (tdeg [a; b]) with (a + b)%nat in Hd by (unfold tdeg; cbn [list_sum fold_right]; lia).
  assert (P : INR (n + 1) <> 0) by (apply not_0_INR; lia).
  assert (E : apply (map (fun em => (fst (fst em) * sin (th (snd em)) ^ 2 / INR (n + 1), [cos (th (snd em)); snd (fst em) * sin (th (snd em))])) idx) (mono [a; b]) =
     apply1 q (fun x => x ^ b) * (Rsum (map (fun m => cos (th m) ^ a * sin (th m) ^ (b + 2)) (seq 1 n)) / INR (n + 1))).
  { unfold apply, idx. rewrite map_map, map_flat_map, Rsum_flat_map. cbn [fst snd]. unfold apply1. rewrite <- Rsum_map_scal_r. apply Rsum_map_ext. intros e _. rewrite map_map. cbn [fst snd].
    unfold Rdiv. rewrite <- Rsum_map_scal_r, <- Rsum_map_scal. apply Rsum_map_ext. intros m _. cbn [mono]. rewrite Rpow_mult_distr, pow_add. ring. }
  rewrite E, (leg_pow _ q b X), RInt_monomial by lia. destruct (Nat.even b) eqn:Eb.
  - apply Nat.even_spec in Eb. destruct Eb as [c ->]. rewrite disk_slice. unfold th. rewrite half_circle by lia. rewrite pow_1_even.
    assert (INR (S (2 * c)) <> 0) by (apply not_0_INR; lia). field. auto.
  - rewrite (disk_odd a b Eb). assert (Ob : Nat.odd b = true) by (rewrite <- Nat.negb_even, Eb; auto). apply Nat.odd_spec in Ob. destruct Ob as [c ->].
    replace (2 * c + 1)%nat with (S (2 * c)) by lia. rewrite pow_1_odd. unfold Rdiv. ring.
Qed.
Theorem lether_0 lg : s2_lether lg 0 = None.
Proof. reflexivity. Qed.
