(** Real roots found by sign changes, and Vandermonde systems of size 3 and 4. *)
From Coq Require Import Reals List Arith ZArith Lia Lra String Sorted Permutation.
From Verif Require Import Spec RsumLemmas RootSpec RootSat TnModel TnProofs4 PyBase S2Model.
Import ListNotations.
Set Bullet Behavior "Strict Subproofs".
Open Scope R_scope.
Local Notation length := List.length.

Lemma distinct_roots : forall l c, length c = S (length l) -> NoDup l -> (forall r, In r l -> poly_val c r = 0) ->
  exists a, forall x, poly_val c x = a * fold_right Rmult 1 (map (fun r => x - r) l).
Proof.
  induction l as [|r l IH]; intros c Hc Hn Hr.
  - destruct c as [|a [|? ?]]; try discriminate. exists a. intros x. cbn. ring.
  - destruct (poly_divide r c) as [c' [Lc Ec]]. inversion Hn as [|? ? Hnr Hnl]; subst.
    destruct (IH c') as [a Ha]; auto.
    + rewrite Lc, Hc. reflexivity.
    + intros r' Hr'. assert (E := Ec r'). rewrite (Hr r'), (Hr r) in E by (cbn; auto). assert (r' - r <> 0).
      { intros Z. apply Hnr. replace r with r' by lra. auto. }
      apply Rmult_eq_reg_l with (r' - r); auto. lra.
    + exists a. intros x. rewrite Ec, (Hr r) by (cbn; auto). rewrite Ha. cbn [map fold_right]. ring.
Qed.
Lemma fold_mult_zero l : fold_right Rmult 1 l = 0 -> In 0 l.
Proof. induction l as [|x l IH]; cbn [fold_right]; intros H; [lra|]. apply Rmult_integral in H. destruct H as [->|H]; [left|right]; auto. Qed.
(** A root finder finds the roots that sign changes promise. *)
Theorem roots_found roots c l y : root_finder roots -> StronglySorted Rlt l -> length c = S (length l) -> (forall r, In r l -> poly_val c r = 0) ->
  poly_val c y <> 0 -> length (roots c) = length l /\ NoDup (roots c) /\ forall x, In x (roots c) -> In x l /\ poly_val c x = 0.
Proof.
  intros HR Hs Hc Hr Hy. assert (Hn : NoDup l).
  { clear - Hs. induction Hs as [|a l Hs IH Hf]; constructor; auto. intros H. rewrite Forall_forall in Hf. specialize (Hf a H). lra. }
  destruct (distinct_roots l c Hc Hn Hr) as [a Ha]. assert (Na : a <> 0) by (intros ->; apply Hy; rewrite Ha; ring).
  assert (A : all_real_roots c l).
  { split; [|split; [auto|exists a; auto]]. clear - Hs. apply StronglySorted_Sorted. induction Hs as [|b l Hs IH Hf]; constructor; auto.
    eapply Forall_impl; [|exact Hf]. intros; cbn beta in *; lra. }
  destruct (HR c l A) as [_ [Lr [a' [Na' Ea']]]].
  assert (I : incl l (roots c)).
  { intros r Hin. assert (E := Ea' r). rewrite (Hr r Hin) in E. symmetry in E. apply Rmult_integral in E. destruct E as [E|E]; [contradiction|].
    apply fold_mult_zero in E. apply in_map_iff in E. destruct E as [z [Ez Hz]]. replace r with z by lra. auto. }
  assert (L : length (roots c) = length l) by lia. split; auto. split.
  - apply (NoDup_incl_NoDup Hn); auto. lia.
  - intros x Hx. assert (Hl : In x l) by (apply (NoDup_length_incl Hn (l' := roots c)); auto; lia). auto.
Qed.
Lemma poly_cont c : continuity (poly_val c).
Proof.
  unfold poly_val. assert (G : forall c (f : R -> R), continuity f -> continuity (fun x => fold_left (fun a k => a * x + k) c (f x))).
  { clear. induction c as [|k c IH]; intros f Hf; [exact Hf|]. cbn [fold_left]. apply (IH (fun x => f x * x + k)).
    apply (continuity_plus (fun x => f x * x) (fun _ => k)); [apply (continuity_mult f (fun x => x)); [exact Hf|apply derivable_continuous, derivable_id]|apply continuity_const; intros ? ?; auto]. }
  apply (G c (fun _ => 0)). apply continuity_const. intros ? ?; auto.
Qed.
Lemma root_between c x y : x < y -> poly_val c x * poly_val c y < 0 -> exists z, x < z < y /\ poly_val c z = 0.
Proof.
  intros H Hs. destruct (Rlt_le_dec (poly_val c x) 0) as [L|L].
  - apply IVT'; auto; [apply poly_cont|]. nra.
  - destruct (Req_dec (poly_val c x) 0) as [E|E]; [rewrite E in Hs; lra|]. apply IVT_dec; auto; [apply poly_cont|lra|]. nra.
Qed.

Lemma vander3 solve a b c b0 b1 b2 : linear_solver solve -> NoDup [a; b; c] -> exists w1 w2 w3,
  solve (vander_t [a; b; c]) [b0; b1; b2] = [w1; w2; w3] /\
  w1 + w2 + w3 = b0 /\ w1 * a + w2 * b + w3 * c = b1 /\ w1 * a ^ 2 + w2 * b ^ 2 + w3 * c ^ 2 = b2.
Proof.
  intros HS Hn. inversion Hn as [|? ? H1 Hn1]; subst. inversion Hn1 as [|? ? H2 Hn2]; subst. cbn [In] in H1, H2.
  assert (ab : a - b <> 0) by (intros E; apply H1; left; lra). assert (ac : a - c <> 0) by (intros E; apply H1; right; left; lra).
  assert (bc : b - c <> 0) by (intros E; apply H2; left; lra). clear - HS ab ac bc.
  set (w1 := (b2 - (b + c) * b1 + b * c * b0) / ((a - b) * (a - c))). set (w2 := (b2 - (a + c) * b1 + a * c * b0) / ((b - a) * (b - c))).
  set (w3 := (b2 - (a + b) * b1 + a * b * b0) / ((c - a) * (c - b))).
  assert (E0 : w1 + w2 + w3 = b0) by (unfold w1, w2, w3; field; repeat split; lra).
  assert (E1 : w1 * a + w2 * b + w3 * c = b1) by (unfold w1, w2, w3; field; repeat split; lra).
  assert (E2 : w1 * a ^ 2 + w2 * b ^ 2 + w3 * c ^ 2 = b2) by (unfold w1, w2, w3; field; repeat split; lra).
  exists w1, w2, w3. split; [|auto]. clearbody w1 w2 w3. apply HS.
  - split; [reflexivity|]. unfold vander_t. cbn [length seq map List.combine Rsum fst snd]. f_equal; [lra|f_equal; [lra|f_equal; lra]].
  - intros w' [L E]. destruct w' as [|v1 [|v2 [|v3 [|? ?]]]]; try discriminate L. unfold vander_t in E. cbn [length seq map List.combine Rsum fst snd] in E.
    injection E as F0 F1 F2.
    assert (D1 : (v1 - w1) * ((a - b) * (a - c)) = 0).
    { transitivity ((v1 * a ^ 2 + v2 * b ^ 2 + v3 * c ^ 2 - b2) - (b + c) * (v1 * a + v2 * b + v3 * c - b1) + b * c * (v1 + v2 + v3 - b0)).
      - rewrite <- E0, <- E1, <- E2. ring.
      - replace (v1 * a ^ 2 + v2 * b ^ 2 + v3 * c ^ 2) with b2 by lra. replace (v1 * a + v2 * b + v3 * c) with b1 by lra. replace (v1 + v2 + v3) with b0 by lra. ring. }
    assert (D2 : (v2 - w2) * ((b - a) * (b - c)) = 0).
    { transitivity ((v1 * a ^ 2 + v2 * b ^ 2 + v3 * c ^ 2 - b2) - (a + c) * (v1 * a + v2 * b + v3 * c - b1) + a * c * (v1 + v2 + v3 - b0)).
      - rewrite <- E0, <- E1, <- E2. ring.
      - replace (v1 * a ^ 2 + v2 * b ^ 2 + v3 * c ^ 2) with b2 by lra. replace (v1 * a + v2 * b + v3 * c) with b1 by lra. replace (v1 + v2 + v3) with b0 by lra. ring. }
    assert (Z1 : v1 = w1). { apply Rmult_integral in D1. destruct D1 as [D1|D1]; [lra|]. exfalso. revert D1. apply Rmult_integral_contrapositive_currified; auto. }
    assert (Z2 : v2 = w2). { apply Rmult_integral in D2. destruct D2 as [D2|D2]; [lra|]. exfalso. revert D2. apply Rmult_integral_contrapositive_currified; auto. lra. }
    subst. f_equal. f_equal. f_equal. lra.
Qed.

Lemma vander4 solve a b c d b0 b1 b2 b3 : linear_solver solve -> NoDup [a; b; c; d] -> exists w1 w2 w3 w4,
  solve (vander_t [a; b; c; d]) [b0; b1; b2; b3] = [w1; w2; w3; w4] /\
  w1 + w2 + w3 + w4 = b0 /\ w1 * a + w2 * b + w3 * c + w4 * d = b1 /\ w1 * a ^ 2 + w2 * b ^ 2 + w3 * c ^ 2 + w4 * d ^ 2 = b2 /\
  w1 * a ^ 3 + w2 * b ^ 3 + w3 * c ^ 3 + w4 * d ^ 3 = b3.
Proof.
  intros HS Hn. inversion Hn as [|? ? H1 Hn1]; subst. inversion Hn1 as [|? ? H2 Hn2]; subst. inversion Hn2 as [|? ? H3 Hn3]; subst. cbn [In] in H1, H2, H3.
  assert (ab : a - b <> 0) by (intros E; apply H1; left; lra). assert (ac : a - c <> 0) by (intros E; apply H1; right; left; lra).
  assert (ad : a - d <> 0) by (intros E; apply H1; right; right; left; lra).
  assert (bc : b - c <> 0) by (intros E; apply H2; left; lra). assert (bd : b - d <> 0) by (intros E; apply H2; right; left; lra).
  assert (cd : c - d <> 0) by (intros E; apply H3; left; lra). clear - HS ab ac ad bc bd cd.
  pose (l3 := fun x y z => b3 - (x + y + z) * b2 + (x * y + x * z + y * z) * b1 - x * y * z * b0).
  set (w1 := l3 b c d / ((a - b) * (a - c) * (a - d))). set (w2 := l3 a c d / ((b - a) * (b - c) * (b - d))).
  set (w3 := l3 a b d / ((c - a) * (c - b) * (c - d))). set (w4 := l3 a b c / ((d - a) * (d - b) * (d - c))).
  assert (E0 : w1 + w2 + w3 + w4 = b0) by (unfold w1, w2, w3, w4, l3; field; repeat split; lra).
  assert (E1 : w1 * a + w2 * b + w3 * c + w4 * d = b1) by (unfold w1, w2, w3, w4, l3; field; repeat split; lra).
  assert (E2 : w1 * a ^ 2 + w2 * b ^ 2 + w3 * c ^ 2 + w4 * d ^ 2 = b2) by (unfold w1, w2, w3, w4, l3; field; repeat split; lra).
  assert (E3 : w1 * a ^ 3 + w2 * b ^ 3 + w3 * c ^ 3 + w4 * d ^ 3 = b3) by (unfold w1, w2, w3, w4, l3; field; repeat split; lra).
  exists w1, w2, w3, w4. split; [|auto]. clearbody w1 w2 w3 w4. clear l3. apply HS.
  - split; [reflexivity|]. unfold vander_t. cbn [length seq map List.combine Rsum fst snd]. f_equal; [lra|f_equal; [lra|f_equal; [lra|f_equal; lra]]].
  - intros w' [L E]. destruct w' as [|v1 [|v2 [|v3 [|v4 [|? ?]]]]]; try discriminate L. unfold vander_t in E. cbn [length seq map List.combine Rsum fst snd] in E.
    injection E as F0 F1 F2 F3.
    assert (G0 : v1 + v2 + v3 + v4 = w1 + w2 + w3 + w4) by lra. assert (G1 : v1 * a + v2 * b + v3 * c + v4 * d = w1 * a + w2 * b + w3 * c + w4 * d) by lra.
    assert (G2 : v1 * a ^ 2 + v2 * b ^ 2 + v3 * c ^ 2 + v4 * d ^ 2 = w1 * a ^ 2 + w2 * b ^ 2 + w3 * c ^ 2 + w4 * d ^ 2) by lra.
    assert (G3 : v1 * a ^ 3 + v2 * b ^ 3 + v3 * c ^ 3 + v4 * d ^ 3 = w1 * a ^ 3 + w2 * b ^ 3 + w3 * c ^ 3 + w4 * d ^ 3) by lra.
    clear F0 F1 F2 F3 E0 E1 E2 E3 L.
    assert (D : forall x y z : R, (v1 - w1) * ((a - x) * (a - y) * (a - z)) + (v2 - w2) * ((b - x) * (b - y) * (b - z)) + (v3 - w3) * ((c - x) * (c - y) * (c - z)) + (v4 - w4) * ((d - x) * (d - y) * (d - z)) = 0).
    { intros x y z. transitivity (((v1 * a ^ 3 + v2 * b ^ 3 + v3 * c ^ 3 + v4 * d ^ 3) - (w1 * a ^ 3 + w2 * b ^ 3 + w3 * c ^ 3 + w4 * d ^ 3))
        - (x + y + z) * ((v1 * a ^ 2 + v2 * b ^ 2 + v3 * c ^ 2 + v4 * d ^ 2) - (w1 * a ^ 2 + w2 * b ^ 2 + w3 * c ^ 2 + w4 * d ^ 2))
        + (x * y + x * z + y * z) * ((v1 * a + v2 * b + v3 * c + v4 * d) - (w1 * a + w2 * b + w3 * c + w4 * d)) - x * y * z * ((v1 + v2 + v3 + v4) - (w1 + w2 + w3 + w4))); [ring|].
      rewrite G0, G1, G2, G3. ring. }
    assert (Z : forall u v p q r : R, p <> 0 -> q <> 0 -> r <> 0 -> (u - v) * (p * q * r) = 0 -> u = v).
    { intros u v p q r Hp Hq Hr H. apply Rmult_integral in H. destruct H as [H|H]; [lra|]. exfalso. revert H. repeat apply Rmult_integral_contrapositive_currified; auto. }
    assert (Z1 : v1 = w1) by (apply (Z v1 w1 (a - b) (a - c) (a - d)); auto; rewrite <- (D b c d); ring).
    assert (Z2 : v2 = w2) by (apply (Z v2 w2 (b - a) (b - c) (b - d)); try lra; rewrite <- (D a c d); ring).
    assert (Z3 : v3 = w3) by (apply (Z v3 w3 (c - a) (c - b) (c - d)); try lra; rewrite <- (D a b d); ring).
    subst. f_equal. f_equal. f_equal. f_equal. lra.
Qed.
