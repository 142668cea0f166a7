(** The family lether(n) of quadpy/t2. *)
From Coq Require Import Reals List Arith ZArith Lia Lra String.
From Verif Require Import Spec Spec1 RsumLemmas IntegralSpec IntegralProofs PyBase SymmModel SchemeTools FixSpec FixTools C1Model GwModel GwSpec T2Model LegTools S2Families PropGw.
Import ListNotations.
Set Bullet Behavior "Strict Subproofs".
Open Scope R_scope.
Local Notation length := List.length.
Local Notation concat := List.concat.

Lemma columns3 (px py pz : list R) : length px = length py -> length px = length pz ->
  columns (length px) [px; py; pz] = map (fun xyz => [fst (fst xyz); snd (fst xyz); snd xyz]) (List.combine (List.combine px py) pz).
Proof.
  intros L L'. unfold columns. revert py pz L L'. induction px as [|x px IH]; intros [|y py] [|z pz] L L'; try discriminate; auto.
  cbn [length seq map List.combine fst snd nth]. f_equal. rewrite <- (IH py pz) by (cbn in L, L'; lia). rewrite <- seq_shift, map_map. reflexivity.
Qed.
Lemma plain3 w px py pz : length px = length py -> length px = length pz ->
  expand_symmetries_str [("plain"%string, (w, [px; py; pz]))] 3 = Some (map (fun xyz => [fst (fst xyz); snd (fst xyz); snd xyz]) (List.combine (List.combine px py) pz), w).
Proof.
  intros L L'. unfold expand_symmetries_str. cbn [resolve lookup]. unfold lookup. cbn [key_table find fst String.eqb Ascii.eqb Bool.eqb option_map snd bind].
  unfold expand_symmetries, gen_expand. cbn [map fst snd gen_points_only]. unfold gen_key_points, key_cols. cbn [arity length Nat.eqb forallb].
  rewrite Nat.eqb_refl, <- L, <- L', Nat.eqb_refl. cbn [andb bind length orbit seq map fst snd List.combine tile concat repeat]. rewrite (columns3 px py pz L L').
  unfold tile. cbn [repeat List.concat]. rewrite !app_nil_r. do 2 f_equal. rewrite map_map. apply map_ext. intros [[a b] c]. reflexivity.
Qed.
Lemma plain3_index {A} (w x y z : A -> R) (l : list A) d :
  t2_scheme [("plain"%string, (map w l, [map x l; map y l; map z l]))] d = Some (mk_scheme 2 (map (fun a => (w a, [x a; y a; z a])) l) d).
Proof.
  unfold t2_scheme. rewrite plain3 by (rewrite !map_length; auto). cbn [bind]. do 2 f_equal. unfold mk_rule. cbn [fst snd].
  rewrite !combine_map2', map_map. cbn [fst snd]. rewrite combine_map2'. reflexivity.
Qed.
(** Beta integrals by a Gauss rule. *)
Lemma leg_beta d q s : forall p, exact1 d q -> (p + s <= d)%nat ->
  apply1 q (fun x => ((x + 1) / 2) ^ p * (1 - (x + 1) / 2) ^ s) = 2 * INR (fact p) * INR (fact s) / INR (fact (p + s + 1)).
Proof.
  induction s as [|s IH]; intros p X H.
  - transitivity (apply1 q (fun x => ((x + 1) / 2) ^ p)); [unfold apply1; apply Rsum_map_ext; intros; cbn [pow]; ring|]. rewrite (leg_half d q p X) by lia.
    replace (p + 0 + 1)%nat with (S p) by lia. rewrite fact_simpl, mult_INR. change (INR (fact 0)) with 1. field. split; [apply INR_fact_neq_0|apply not_0_INR; lia].
  - transitivity (apply1 q (fun x => ((x + 1) / 2) ^ p * (1 - (x + 1) / 2) ^ s) - apply1 q (fun x => ((x + 1) / 2) ^ S p * (1 - (x + 1) / 2) ^ s)).
    + unfold apply1. rewrite <- Rsum_map_minus. apply Rsum_map_ext. intros. cbn [pow]. ring.
    + rewrite (IH p X), (IH (S p) X) by lia. replace (S p + s + 1)%nat with (S (p + s + 1)) by lia. replace (p + S s + 1)%nat with (S (p + s + 1)) by lia.
      rewrite !fact_simpl, !mult_INR. assert (F := INR_fact_neq_0 (p + s + 1)). rewrite !S_INR, !plus_INR. change (INR 1) with 1. field. split; auto.
      rewrite <- plus_INR. pose proof (pos_INR (p + s)). lra.
Qed.
Theorem t2_lether_ok eigh n : eigen_solver eigh -> (1 <= n)%nat -> delivers (simplex_mean 2) 3 (2 * (n - 1)) (t2_lether eigh n).
Proof.
  intros HE Hn. destruct (C33_gauss_legendre eigh n HE Hn) as [gl [E [_ [Lq [_ X]]]]]. unfold t2_lether. rewrite E. cbn [bind]. set (q := c1_rule gl) in *. clearbody q. clear E gl.
  set (idx := flat_map (fun a => map (fun b => (a, b)) q) q).
  assert (Ew : flat_map (fun xw => map (fun w' => (1 + fst xw) * snd xw * w' / 4) (map fst q)) (List.combine (map snd q) (map fst q)) = map (fun ab => (1 + snd (fst ab)) * fst (fst ab) * fst (snd ab) / 4) idx).
  { unfold idx. rewrite map_flat_map, combine_map2'. rewrite !flat_map_concat_map. f_equal. rewrite map_map. apply map_ext. intros a. rewrite !map_map. reflexivity. }
  assert (Ex : flat_map (fun x => map (fun _ : R => (1 - x) * 1 / 2) (repeat 1 n)) (map snd q) = map (fun ab : (R * R) * (R * R) => (1 - snd (fst ab)) / 2) idx).
  { unfold idx. rewrite map_flat_map. rewrite !flat_map_concat_map. f_equal. rewrite map_map. apply map_ext. intros a. rewrite map_map. cbn [fst snd].
    rewrite <- Lq. clear. induction q as [|b q IH]; auto. cbn [length repeat map]. f_equal; auto. field. }
  assert (Ey : flat_map (fun x => map (fun x' => (1 + x) * (1 - x') / 4) (map snd q)) (map snd q) = map (fun ab => (1 + snd (fst ab)) * (1 - snd (snd ab)) / 4) idx).
  { unfold idx. rewrite map_flat_map. rewrite !flat_map_concat_map. f_equal. rewrite map_map. apply map_ext. intros a. rewrite !map_map. reflexivity. }
  rewrite Ew, Ex, Ey. rewrite (combine_map2' (fun ab : (R * R) * (R * R) => (1 - snd (fst ab)) / 2)), map_map. rewrite plain3_index. apply delivers_intro; [reflexivity|]. cbn [s_rule fst snd]. split.
  - unfold points_in_dim. rewrite List.Forall_map. apply List.Forall_forall. intros. reflexivity.
  - intros k Hk Hd. destruct k as [|a [|b [|c [|? ?]]]]; try discriminate. assert (Hd' : (a + b + c <= 2 * (n - 1))%nat) by (unfold tdeg in Hd; cbn in Hd; lia).
    rewrite (simplex_mean_mono 2) by reflexivity. unfold simplex_moment.
    transitivity (2 * apply1 q (fun x => 1/2 * (((x + 1) / 2) ^ (1 + b + c) * (1 - (x + 1) / 2) ^ a)) * apply1 q (fun x => 1/2 * (((x + 1) / 2) ^ c * (1 - (x + 1) / 2) ^ b))).
    + set (B := apply1 q (fun x => 1/2 * (((x + 1) / 2) ^ c * (1 - (x + 1) / 2) ^ b))). rewrite Rmult_assoc, (Rmult_comm _ B), <- Rmult_assoc.
      unfold apply, apply1 at 1, idx. rewrite map_map, map_flat_map. rewrite Rsum_flat_map. rewrite <- Rsum_map_scal. apply Rsum_map_ext. intros [w x] _.
      rewrite map_map. cbn [fst snd]. match goal with |- _ = 2 * B * ?X => replace (2 * B * X) with (2 * X * B) by ring end. unfold B, apply1. rewrite <- Rsum_map_scal. apply Rsum_map_ext. intros [w' x'] _. cbn [fst snd mono].
      replace ((1 - x) / 2) with (1 - (x + 1) / 2) by field. replace ((1 + x) * (1 - x') / 4) with ((x + 1) / 2 * (1 - (x' + 1) / 2)) by field.
      replace (1 - (1 - (x + 1) / 2) - (x + 1) / 2 * (1 - (x' + 1) / 2)) with ((x + 1) / 2 * ((x' + 1) / 2)) by field.
      rewrite !Rpow_mult_distr, !pow_add. field.
    + assert (Z : forall f, apply1 q (fun x => 1/2 * f x) = 1/2 * apply1 q f) by (intros f; unfold apply1; rewrite <- Rsum_map_scal; apply Rsum_map_ext; intros; ring).
      rewrite !Z. rewrite (leg_beta (2 * n - 1) q a (1 + b + c) X) by lia. rewrite (leg_beta (2 * n - 1) q b c X) by lia.
      replace (1 + b + c + a + 1)%nat with (2 + tdeg [a; b; c])%nat by (unfold tdeg; cbn [list_sum fold_right]; lia). replace (1 + b + c)%nat with (c + b + 1)%nat by lia.
      unfold prodfactR. cbn [map Rprod]. change (INR (fact 2)) with (1 + 1). field. split; apply INR_fact_neq_0.
Qed.
