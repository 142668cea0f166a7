(** Stroud's formula of degree 11 for the sphere: the weights solve a linear system. *)
From Coq Require Import Reals List Arith Lia Lra Permutation Bool.
From Verif Require Import Spec RsumLemmas CombSpec CombModel CombProofs CombProofs2 Moments SymExact TnTools TnProofs5
  IntegralSpec IntegralProofs PyBase SymmModel SymmProofs MiscModel CnModel SchemeTools CnTools CnProofs IntegralProofs2 CnProofs4
  SphereSpec SphereInt RadialInt RadialTools RadialDob UnModel UnProofs RootSpec UnModel2 UnProofs2.
Import ListNotations.
Set Bullet Behavior "Strict Subproofs".
Open Scope R_scope.

(* ------------------------------------------------ a system with known dual functionals has one solution *)
Lemma Rsum_combine_nth a : forall b, length b = length a ->
  Rsum (map (fun e => fst e * snd e) (List.combine a b)) = Rsum (map (fun i => nth i a 0 * nth i b 0) (seq 0 (length a))).
Proof.
  induction a as [|x a IH]; intros [|y b] H; try discriminate; [reflexivity|]. injection H as H.
  cbn [List.combine map Rsum length seq fst snd nth]. rewrite IH by auto. rewrite <- seq_shift, map_map. reflexivity.
Qed.
Definition gdef : R * (nat -> R) := (0, fun _ => 0).
Definition sysrow (G : list (R * (nat -> R))) (k : nat) : list R := map (fun g => fst g * snd g k) G.
Lemma sysrow_dot G k w : length w = length G -> Rsum (map (fun e => fst e * snd e) (List.combine (sysrow G k) w)) =
  Rsum (map (fun i => (fst (nth i G gdef) * nth i w 0) * snd (nth i G gdef) k) (seq 0 (length G))).
Proof.
  intros H. rewrite Rsum_combine_nth by (unfold sysrow; rewrite map_length; auto). unfold sysrow at 2. rewrite map_length.
  apply Rsum_map_ext. intros i Hi. apply in_seq in Hi. unfold sysrow.
  rewrite (nth_indep _ 0 ((fun g : R * (nat -> R) => fst g * snd g k) gdef)) by (rewrite map_length; lia). rewrite (map_nth (fun g : R * (nat -> R) => fst g * snd g k)). ring.
Qed.
Lemma Rsum_pick (d : nat -> R) j m : (j < m)%nat -> Rsum (map (fun i => d i * (if Nat.eqb i j then 1 else 0)) (seq 0 m)) = d j.
Proof.
  intros H. assert (G : forall m s, (s <= j < s + m)%nat -> Rsum (map (fun i => d i * (if Nat.eqb i j then 1 else 0)) (seq s m)) = d j).
  { clear. assert (Z : forall m s, (j < s)%nat -> Rsum (map (fun i => d i * (if Nat.eqb i j then 1 else 0)) (seq s m)) = 0).
    { intros m s Hs. apply Rsum_map_zero. intros i Hi. apply in_seq in Hi. destruct (Nat.eqb_spec i j); [lia|ring]. }
    induction m as [|m IH]; intros s Hs; [lia|]. cbn [seq map Rsum]. destruct (Nat.eqb_spec s j) as [->|Hn].
    - rewrite Z by lia. ring.
    - rewrite IH by lia. ring. }
  apply G. lia.
Qed.
Theorem system_unique solve G ks b w : linear_solver solve ->
  (forall g, In g G -> fst g <> 0) -> In 0%nat ks -> snd (nth 0 G gdef) 0%nat <> 0 ->
  (forall j, (0 < j < length G)%nat -> exists u : nat -> R, forall i, (i < length G)%nat ->
     Rsum (map (fun k => u k * snd (nth i G gdef) k) ks) = if Nat.eqb i j then 1 else 0) ->
  length w = length ks -> length G = length ks -> length b = length ks ->
  map (fun k => Rsum (map (fun e => fst e * snd e) (List.combine (sysrow G k) w))) ks = b ->
  solve (map (sysrow G) ks) b = w.
Proof.
  intros HS Hf H0 Hc Hd Lw LG Lb E. apply HS.
  { split; [congruence|]. rewrite map_map. exact E. }
  intros w' [L' E']. rewrite map_map in E'. assert (E2 := eq_trans E' (eq_sym E)). assert (E3 := @ext_in_map _ _ _ _ _ E2). cbn beta in E3. clear E2.
  set (d := fun i => fst (nth i G gdef) * (nth i w' 0 - nth i w 0)).
  assert (D : forall k, In k ks -> Rsum (map (fun i => d i * snd (nth i G gdef) k) (seq 0 (length G))) = 0).
  { intros k Hk. specialize (E3 k Hk). rewrite !sysrow_dot in E3 by congruence. apply Rminus_diag_eq in E3. rewrite <- Rsum_map_minus in E3.
    rewrite <- E3. apply Rsum_map_ext. intros i _. unfold d. ring. }
  assert (Dj : forall j, (0 < j < length G)%nat -> d j = 0).
  { intros j Hj. destruct (Hd j Hj) as [u Hu]. rewrite <- (Rsum_pick d j (length G)) by lia.
    rewrite (Rsum_map_ext _ (fun i => Rsum (map (fun k => u k * (d i * snd (nth i G gdef) k)) ks))).
    - rewrite Rsum_swap. apply Rsum_map_zero. intros k Hk. rewrite Rsum_map_scal, D by auto. ring.
    - intros i Hi. apply in_seq in Hi. rewrite <- Hu by lia. rewrite <- Rsum_map_scal. apply Rsum_map_ext. intros. ring. }
  assert (LG0 : (0 < length G)%nat) by (rewrite LG; destruct ks; [destruct H0|simpl; lia]).
  assert (D0 : d 0%nat = 0).
  { specialize (D 0%nat H0). destruct (length G) as [|m] eqn:Em; [lia|]. cbn [seq map Rsum] in D.
    rewrite Rsum_map_zero in D; [apply Rmult_eq_reg_r with (snd (nth 0 G gdef) 0%nat); auto; lra|].
    intros i Hi. apply in_seq in Hi. rewrite Dj by lia. ring. }
  apply nth_ext with 0 0; [congruence|]. intros i Hi. assert (Di : d i = 0) by (destruct i; auto; apply Dj; lia).
  unfold d in Di. apply Rmult_integral in Di. destruct Di as [Di|Di]; [|lra]. exfalso. apply (Hf (nth i G gdef)); auto. apply nth_In. lia.
Qed.

(* ------------------------------------------------ the columns *)
(** m coordinates with squares kappa, the others 1, scaled by the fifth power of the squared norm. *)
Definition colU (M m ka : R) : list R :=
  [M * (M + m * (ka - 1)) ^ 5; (M - m + m * ka ^ 2) * (M + m * (ka - 1)) ^ 3;
   (M - m + m * ka ^ 3) * (M + m * (ka - 1)) ^ 2; (M - m + m * ka ^ 4) * (M + m * (ka - 1)); M - m + m * ka ^ 5].
Definition udual1 (M q : R) : list R :=
  [(((-209/288)) + ((181/432)) * q) / ((M - 1) * (M - 2) * (M - 3) * M);
   (((181/288) + (3/2) * M ^ 1) + ((-209/576) + (-2993/3456) * M ^ 1) * q) / ((M - 1) * (M - 2) * (M - 3));
   (((209/90) + (-10627/4320) * M ^ 1 + (-1889/2160) * M ^ 2) + ((-181/135) + (12271/8640) * M ^ 1 + (1745/3456) * M ^ 2) * q) / ((M - 1) * (M - 2) * (M - 3));
   (((-181/84) + (-3557/2520) * M ^ 1 + (118523/60480) * M ^ 2 + (14/135) * M ^ 3) + ((209/168) + (6161/7560) * M ^ 1 + (-136859/120960) * M ^ 2 + (-2897/48384) * M ^ 3) * q) / ((M - 1) * (M - 2) * (M - 3));
   (((181/84) * M ^ 1 + (-51/56) * M ^ 2 + (-517/4032) * M ^ 3 + (-1/288) * M ^ 4) + ((-209/168) * M ^ 1 + (265/504) * M ^ 2 + (199/2688) * M ^ 3 + (97/48384) * M ^ 4) * q) / ((M - 1) * (M - 2) * (M - 3))].
Definition udual2 (M q : R) : list R :=
  [(((209/576)) + ((-181/864)) * q) / ((M - 2) * (M - 3) * (M - 4) * M);
   (((-181/288) + (-3/4) * M ^ 1) + ((209/576) + (2993/6912) * M ^ 1) * q) / ((M - 2) * (M - 3) * (M - 4));
   (((-209/720) + (1373/864) * M ^ 1 + (1889/4320) * M ^ 2) + ((181/1080) + (-7927/8640) * M ^ 1 + (-1745/6912) * M ^ 2) * q) / ((M - 2) * (M - 3) * (M - 4));
   (((181/336) + (-1147/5040) * M ^ 1 + (-12415/12096) * M ^ 2 + (-7/135) * M ^ 3) + ((-209/672) + (15893/120960) * M ^ 1 + (35839/60480) * M ^ 2 + (2897/96768) * M ^ 3) * q) / ((M - 2) * (M - 3) * (M - 4));
   (((-181/336) * M ^ 1 + (29/56) * M ^ 2 + (265/4032) * M ^ 3 + (1/576) * M ^ 4) + ((209/672) * M ^ 1 + (-2411/8064) * M ^ 2 + (-17/448) * M ^ 3 + (-97/96768) * M ^ 4) * q) / ((M - 2) * (M - 3) * (M - 4))].
Lemma q3_even q m : q * q = 3 -> q ^ (2 * m) = 3 ^ m.
Proof. intros H. rewrite pow_mult. f_equal. rewrite <- H. ring. Qed.
Lemma q3_odd q m : q * q = 3 -> q ^ (S (2 * m)) = 3 ^ m * q.
Proof. intros H. rewrite <- (q3_even q m H). simpl. ring. Qed.
Ltac q3_red q Hq :=
  rewrite ?(q3_odd q 6 Hq : q ^ 13 = _), ?(q3_even q 6 Hq : q ^ 12 = _), ?(q3_odd q 5 Hq : q ^ 11 = _), ?(q3_even q 5 Hq : q ^ 10 = _),
    ?(q3_odd q 4 Hq : q ^ 9 = _), ?(q3_even q 4 Hq : q ^ 8 = _), ?(q3_odd q 3 Hq : q ^ 7 = _), ?(q3_even q 3 Hq : q ^ 6 = _),
    ?(q3_odd q 2 Hq : q ^ 5 = _), ?(q3_even q 2 Hq : q ^ 4 = _), ?(q3_odd q 1 Hq : q ^ 3 = _), ?(q3_even q 1 Hq : q ^ 2 = _).
Ltac q3_field Hq := field_simplify_eq; [match type of Hq with ?q * _ = _ => q3_red q Hq; ring end|].
Ltac q3_field0 Hq := field_simplify_eq; match type of Hq with ?q * _ = _ => q3_red q Hq; ring end.

Lemma udual1_dot M q : q * q = 3 -> M <> 0 -> M - 1 <> 0 -> M - 2 <> 0 -> M - 3 <> 0 ->
  dot (udual1 M q) (colU M 0 1) = 0 /\ dot (udual1 M q) (colU M 1 (7 + 4 * q)) = 1 /\ dot (udual1 M q) (colU M 1 (7 - 4 * q)) = 0 /\
  dot (udual1 M q) (colU M 2 (7 - 4 * q)) = 0 /\ dot (udual1 M q) (colU M 2 (7 + 4 * q)) = 0.
Proof.
  intros Hq H0 H1 H2 H3. unfold udual1, colU, dot. cbn [List.combine map fst snd Rsum].
  repeat split; q3_field Hq; repeat split; auto.
Qed.
Lemma udual2_dot M q : q * q = 3 -> M <> 0 -> M - 2 <> 0 -> M - 3 <> 0 -> M - 4 <> 0 ->
  dot (udual2 M q) (colU M 0 1) = 0 /\ dot (udual2 M q) (colU M 1 (7 + 4 * q)) = 0 /\ dot (udual2 M q) (colU M 1 (7 - 4 * q)) = 0 /\
  dot (udual2 M q) (colU M 2 (7 - 4 * q)) = 0 /\ dot (udual2 M q) (colU M 2 (7 + 4 * q)) = 1.
Proof.
  intros Hq H0 H1 H2 H3. unfold udual2, colU, dot. cbn [List.combine map fst snd Rsum].
  repeat split; q3_field Hq; repeat split; auto.
Qed.
Definition udual4_1 (q : R) : list R := [-821/89856+79/14976*q; 5857/22464-6763/44928*q; -46043/84240+10633/33696*q; 1862/5265-215/1053*q].
Definition udual4_2 (q : R) : list R := [181/9216+209/18432*q; -181/288-209/576*q; 13213/8640+15257/17280*q; -2353/2160-2717/4320*q].
Lemma udual4_1_dot q : q * q = 3 ->
  dot (udual4_1 q) (colU 4 0 1) = 0 /\ dot (udual4_1 q) (colU 4 1 (7 + 4 * q)) = 1 /\ dot (udual4_1 q) (colU 4 1 (7 - 4 * q)) = 0 /\
  dot (udual4_1 q) (colU 4 2 (7 - 4 * q)) = 0 /\ dot (udual4_1 q) (colU 4 2 (7 + 4 * q)) = 0.
Proof. intros Hq. unfold udual4_1, colU, dot. cbn [List.combine map fst snd Rsum]. repeat split; q3_field0 Hq. Qed.
Lemma udual4_2_dot q : q * q = 3 ->
  dot (udual4_2 q) (colU 4 0 1) = 0 /\ dot (udual4_2 q) (colU 4 1 (7 + 4 * q)) = 0 /\ dot (udual4_2 q) (colU 4 1 (7 - 4 * q)) = 0 /\
  dot (udual4_2 q) (colU 4 2 (7 - 4 * q)) = 1.
Proof. intros Hq. unfold udual4_2, colU, dot. cbn [List.combine map fst snd Rsum]. repeat split; q3_field0 Hq. Qed.
Definition udual3_1 (q : R) : list R := [-47/1936+1099/78408*q; 5161/17424-3973/23232*q; -677/2904+3127/23232*q].
Lemma udual3_1_dot q : q * q = 3 ->
  dot (udual3_1 q) (colU 3 0 1) = 0 /\ dot (udual3_1 q) (colU 3 1 (7 + 4 * q)) = 1 /\ dot (udual3_1 q) (colU 3 1 (7 - 4 * q)) = 0.
Proof. intros Hq. unfold udual3_1, colU, dot. cbn [List.combine map fst snd Rsum]. repeat split; q3_field0 Hq. Qed.
