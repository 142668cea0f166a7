(** Grundmann-Moeller rules are exact to degree 2s+1 in every dimension. *)
From Coq Require Import Reals List Arith Lia Lra Permutation Bool FunctionalExtensionality.
From Verif Require Import Spec RsumLemmas CombSpec CombModel CombProofs CombProofs2 Moments SymExact
  IntegralSpec IntegralProofs PyBase MiscModel CnModel SchemeTools CnTools TnBase IntegralProofs2 TnModel TnTools TnProofs TnProofs3 TnModel2 Series.
Local Lemma tdeg_cons a k : tdeg (a :: k) = (a + tdeg k)%nat.
Proof. reflexivity. Qed.
Import ListNotations.
Open Scope R_scope.

(** Powers of the odd numbers, and the numerators of their generating functions. *)
Definition oddpow (a b : nat) : R := (2 * INR b + 1) ^ a.
Fixpoint num (a : nat) : nat -> R :=
  match a with
  | O => one
  | S c => fun b => (2 * INR b + 1) * num c b + (2 * INR c + 3 - 2 * INR b) * prev (num c) b
  end.
Lemma dif_mul f : dif (fun b => (2 * INR b + 1) * f b) = fun b => (2 * INR b + 1) * dif f b + 2 * prev f b.
Proof. apply functional_extensionality. intros [|b]; unfold dif, prev; [simpl; ring|rewrite S_INR; ring]. Qed.
Lemma difn_mul k f : difn (S k) (fun b => (2 * INR b + 1) * f b) = fun b => (2 * INR b + 1) * difn (S k) f b + 2 * (INR k + 1) * prev (difn k f) b.
Proof.
  induction k as [|k IH].
  - cbn [difn]. rewrite dif_mul. apply functional_extensionality. intros b. simpl INR. ring.
  - change (difn (S (S k)) (fun b => (2 * INR b + 1) * f b)) with (dif (difn (S k) (fun b => (2 * INR b + 1) * f b))). rewrite IH.
    apply functional_extensionality. intros [|b].
    + cbn [difn]. unfold dif, prev. simpl INR. ring.
    + change (difn (S (S k)) f) with (dif (difn (S k) f)). unfold dif at 1 2. cbn [prev]. rewrite !S_INR.
      change (prev (difn k f) b) with (prev (difn k f) b).
      assert (E : difn (S k) f b = difn k f b - prev (difn k f) b) by reflexivity.
      replace (prev (difn k f) b) with (difn k f b - difn (S k) f b) by (rewrite E; ring). ring.
Qed.
Lemma num_difn a : difn (S a) (oddpow a) = num a.
Proof.
  induction a as [|a IH].
  - cbn [difn num]. apply functional_extensionality. intros [|b]; unfold dif, oddpow, one; simpl; ring.
  - replace (oddpow (S a)) with (fun b => (2 * INR b + 1) * oddpow a b) by (apply functional_extensionality; intros; unfold oddpow; simpl; ring).
    rewrite difn_mul. rewrite IH. cbn [num]. change (difn (S (S a)) (oddpow a)) with (dif (difn (S a) (oddpow a))). rewrite IH.
    apply functional_extensionality. intros b. unfold dif. rewrite S_INR. ring.
Qed.
Lemma num_pal a : pal a (num a).
Proof.
  induction a as [|a [P Z]].
  - split; intros b Hb; cbn [num].
    + replace b with 0%nat by lia. reflexivity.
    + unfold one. destruct b; [lia|reflexivity].
  - split; intros b Hb; cbn [num].
    + destruct b as [|b].
      * rewrite Nat.sub_0_r. cbn [prev]. rewrite (Z (S a)) by lia. rewrite (P a) by lia. rewrite Nat.sub_diag, S_INR. simpl INR. ring.
      * cbn [Nat.sub prev]. destruct (Nat.eq_dec b a) as [->|Hne].
        -- rewrite Nat.sub_diag. cbn [prev]. rewrite (Z (S a)) by lia. rewrite (P a) by lia. rewrite Nat.sub_diag, S_INR. simpl INR. ring.
        -- replace (a - b)%nat with (S (a - S b)) by lia. cbn [prev]. rewrite (P (S b)) by lia. rewrite (P b) by lia.
           replace (S (a - S b)) with (a - b)%nat by lia. rewrite !S_INR, !minus_INR by lia. ring.
    + rewrite Z by lia. destruct b; [lia|]. cbn [prev]. rewrite Z by lia. ring.
Qed.
Lemma num_total a : psum (num a) (S a) = 2 ^ a * INR (fact a).
Proof.
  induction a as [|a IH]; [cbn; unfold one; simpl; ring|].
  cbn [num]. rewrite psum_plus. destruct (num_pal a) as [_ Z].
  rewrite (psum_trunc (fun b => (2 * INR b + 1) * num a b) (S a)) by (try lia; intros i H1 H2; rewrite Z by lia; ring).
  rewrite (psum_first (fun b => _ * prev (num a) b)). cbn [prev].
  rewrite (psum_ext (fun i => (2 * INR a + 3 - 2 * INR (S i)) * num a i) (fun i => 2 * (INR a + 1) * num a i - (2 * INR i + 1) * num a i))
    by (intros; rewrite S_INR; ring).
  rewrite psum_minus, psum_scal, IH.
  change (fact (S a)) with (S a * fact a)%nat. rewrite mult_INR, S_INR. simpl pow. ring.
Qed.

Lemma difn_one_convl al : convl (map num al) = difn (length al + tdeg al) (convl (map oddpow al)).
Proof.
  induction al as [|a al IH]; [reflexivity|].
  cbn [map convl fold_right length]. fold (convl (map num al)). fold (convl (map oddpow al)). rewrite IH, <- num_difn, conv_difn.
  rewrite tdeg_cons. f_equal. lia.
Qed.
Lemma pal_convl al : pal (tdeg al) (convl (map num al)) /\ psum (convl (map num al)) (S (tdeg al)) = 2 ^ tdeg al * prodfactR al.
Proof.
  induction al as [|a al [P T]].
  - split; [split; intros b Hb; cbn in *; unfold one|].
    + replace b with 0%nat by lia. reflexivity.
    + destruct b; [lia|reflexivity].
    + unfold prodfactR. cbn. unfold one. simpl. ring.
  - cbn [map convl fold_right]. fold (convl (map num al)). rewrite tdeg_cons. split.
    + apply pal_conv; [apply num_pal|auto].
    + rewrite total_conv by (auto using num_pal). rewrite T, num_total, pow_add. unfold prodfactR. cbn [map Rprod]. ring.
Qed.

(** The combinatorial identity behind the rule. *)
Lemma gm_identity al n s : length al = (n + 1)%nat -> tdeg al = (2 * s + 1)%nat ->
  psum (fun i => (-1) ^ i * bn (2 * s + 1 + n) i * convl (map oddpow al) (s - i)%nat) (S s) = 2 ^ (2 * s) * prodfactR al.
Proof.
  intros L T. rewrite <- difn_bn. destruct (pal_convl al) as [P E]. rewrite T in P, E.
  rewrite (pal_half s) in E by auto. rewrite difn_one_convl, L, T in E.
  replace (n + 1 + (2 * s + 1))%nat with (S (2 * s + 1 + n)) in E by lia. cbn [difn] in E. rewrite psum_dif in E.
  rewrite (pow_add 2 (2 * s) 1), pow_1 in E. lra.
Qed.

Lemma level_sum dim m d (f : list nat -> R) : (d <= m)%nat ->
  Rsum (map f (nth d (get_all_exponents dim m) [])) = Rsum (map f (comps dim d)).
Proof.
  intros H. apply Rsum_map_perm. apply NoDup_Permutation.
  - apply get_all_exponents_level. auto.
  - apply NoDup_comps.
  - intros b. rewrite in_comps. apply (proj2 (get_all_exponents_level dim m d H)).
Qed.
Lemma mono_oddpow c al : forall b, length b = length al -> c <> 0 ->
  mono al (map (fun p => INR (2 * p + 1) / c) b) = zipapp (map oddpow al) b / c ^ tdeg al.
Proof.
  induction al as [|a al IH]; intros [|x b] H Hc; try discriminate H.
  - cbn. field.
  - cbn [map mono zipapp]. rewrite IH by (simpl in H; auto). rewrite tdeg_cons, pow_add.
    assert (E : INR (2 * x + 1) = 2 * INR x + 1) by (rewrite plus_INR, mult_INR; simpl; ring).
    rewrite E. unfold oddpow at 2. unfold Rdiv. rewrite Rpow_mult_distr, pow_inv.
    field. split; apply pow_nonzero; auto.
Qed.

Theorem grundmann_moeller_exact n s : simplex_scheme n (2 * s + 1) (grundmann_moeller n s).
Proof.
  unfold grundmann_moeller. set (d := (2 * s + 1)%nat).
  set (w := fun i => (-1) ^ i * / 2 ^ (2 * s) * INR (d + n - 2 * i) ^ d / (INR (fact i) * INR (fact (d + n - i)))).
  set (P := fun i => map (fun part => map (fun p => INR (2 * p + 1) / INR (d + n - 2 * i)) part) (nth (s - i) (get_all_exponents (n + 1) s) [])).
  assert (Hn := INR_fact_neq_0 n).
  replace (map (fun i => (_, _)) (seq 0 (s + 1))) with
    (map (fun g : R * list point => (1 / INR (fact n) * fst g, snd g)) (map (fun i => (INR (fact n) * w i, P i)) (seq 0 (s + 1)))).
  2: { rewrite map_map. apply map_ext. intros i. cbn [fst snd]. unfold P. f_equal. unfold w.
       field. repeat split; try apply INR_fact_neq_0; auto. apply pow_nonzero. lra. }
  apply normalize_exact; [apply invfact_nz|].
  rewrite mk_rule_untangle, flat_map_concat_map, map_map, <- flat_map_concat_map. cbn [fst snd].
  assert (HP : forall i p, In i (seq 0 (s + 1)) -> In p (P i) -> exists b, length b = (n + 1)%nat /\ list_sum b = (s - i)%nat /\
     p = map (fun q => INR (2 * q + 1) / INR (d + n - 2 * i)) b).
  { intros i p Hi Hp. apply in_map_iff in Hp. destruct Hp as [b [<- Hb]]. exists b.
    assert (E := proj2 (get_all_exponents_level (n + 1) s (s - i) ltac:(lia)) b). apply E in Hb. tauto. }
  assert (HN : forall i, In i (seq 0 (s + 1)) -> INR (d + n - 2 * i) <> 0).
  { intros i Hi. apply in_seq in Hi. apply not_0_INR. unfold d. lia. }
  apply simplex_exact_top.
  - apply Forall_forall. intros wp Hw. apply in_flat_map in Hw. destruct Hw as [i [Hi Hw]].
    apply in_map_iff in Hw. destruct Hw as [p [<- Hp]]. cbn [snd]. destruct (HP i p Hi Hp) as (b & L & _ & ->).
    rewrite map_length. auto.
  - intros w' p Hw. apply in_flat_map in Hw. destruct Hw as [i [Hi Hw]].
    apply in_map_iff in Hw. destruct Hw as [p' [E Hp]]. injection E as _ ->. destruct (HP i p Hi Hp) as (b & L & Sb & ->).
    rewrite (map_ext _ (fun q => INR (2 * q + 1) * / INR (d + n - 2 * i))) by reflexivity. rewrite Rsum_map_scal_r.
    assert (X : Rsum (map (fun q => INR (2 * q + 1)) b) = INR (2 * list_sum b + length b)).
    { clear. induction b as [|x b IH]; [reflexivity|]. cbn [map Rsum length list_sum fold_right]. fold (list_sum b).
      rewrite IH, <- plus_INR. f_equal. lia. }
    rewrite X, Sb, L. apply in_seq in Hi. replace (2 * (s - i) + (n + 1))%nat with (d + n - 2 * i)%nat by (unfold d; lia).
    apply Rinv_r. apply HN. apply in_seq. lia.
  - intros k Hk Hd. unfold apply. rewrite Rsum_map_flat_map.
    rewrite (Rsum_map_ext _ (fun i => (INR (fact n) / (2 ^ (2 * s) * INR (fact (d + n)))) *
        ((-1) ^ i * bn (2 * s + 1 + n) i * convl (map oddpow k) (s - i)%nat))).
    + rewrite Rsum_map_scal, psum_Rsum, (Nat.add_1_r s), (gm_identity k n s Hk Hd).
      unfold simplexI. rewrite simplex_mean_mono by lia. unfold simplex_moment. rewrite Hd. fold d.
      rewrite (Nat.add_comm d n). field. split; [apply INR_fact_neq_0|apply pow_nonzero; lra].
    + intros i Hi. assert (Ni := HN i Hi). rewrite map_map. cbn [fst snd]. rewrite Rsum_map_scal. unfold P. rewrite map_map.
      rewrite (level_sum _ _ _ (fun x => mono k (map (fun p => INR (2 * p + 1) / INR (d + n - 2 * i)) x))) by lia.
      rewrite (Rsum_map_ext _ (fun b => zipapp (map oddpow k) b * / INR (d + n - 2 * i) ^ d)).
      * rewrite Rsum_map_scal_r. rewrite <- (map_length oddpow k) in Hk. rewrite <- Hk, comps_convl.
        apply in_seq in Hi. rewrite bn_fact by lia. unfold w. replace (2 * s + 1 + n)%nat with (d + n)%nat by reflexivity.
        field. repeat split; try apply INR_fact_neq_0; apply pow_nonzero; auto; lra.
      * intros b Hb. apply in_comps in Hb. rewrite mono_oddpow by (auto; lia). rewrite Hd. reflexivity.
Qed.
