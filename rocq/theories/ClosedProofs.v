(** Moments of the closed-form schemes of ClosedModel.v. *)
From Coq Require Import Reals List Arith ZArith Lia Lra String QArith Qreals.
From Verif Require Import Spec RsumLemmas IntegralSpec PyBase SymmModel OrbitModel SchemeTools Tower TowerSym TowerMoments FixSpec FixTools
  C2Model T2Model T3Model C2Proofs T2Proofs T3Proofs ClosedModel.
Import ListNotations.
Set Bullet Behavior "Strict Subproofs".
Open Scope R_scope.

Lemma c2_schmid_2_ok : delivers (cube_mean 2) 2 2 c2_schmid_2.
Proof. unfold c2_schmid_2. c2_go. Qed.
Lemma t2_dunavant_01_ok : delivers (simplex_mean 2) 3 1 t2_dunavant_01.
Proof. unfold t2_dunavant_01. t2_go. Qed.
Lemma t2_dunavant_02_ok : delivers (simplex_mean 2) 3 2 t2_dunavant_02.
Proof. unfold t2_dunavant_02. t2_go. Qed.
Lemma t2_dunavant_03_ok : delivers (simplex_mean 2) 3 3 t2_dunavant_03.
Proof. unfold t2_dunavant_03. t2_go. Qed.
Lemma t2_laursen_gellert_02b_ok : delivers (simplex_mean 2) 3 2 t2_laursen_gellert_02b.
Proof. unfold t2_laursen_gellert_02b. t2_go. Qed.
Lemma t3_keast_1_ok : delivers (simplex_mean 3) 4 2 t3_keast_1.
Proof. unfold t3_keast_1. t3_go. Qed.
Lemma t3_keast_2_ok : delivers (simplex_mean 3) 4 3 t3_keast_2.
Proof. unfold t3_keast_2. t3_go. Qed.
Lemma t3_keast_4_ok : delivers (simplex_mean 3) 4 4 t3_keast_4.
Proof. unfold t3_keast_4. t3_go. Qed.
Lemma t3_keast_6_ok : delivers (simplex_mean 3) 4 5 t3_keast_6.
Proof. unfold t3_keast_6. t3_go. Qed.
Lemma t3_s4_ok : delivers (simplex_mean 3) 4 1 t3_shunn_ham_1.
Proof. unfold t3_shunn_ham_1. t3_go. Qed.
Lemma t3_yu_2_ok : delivers (simplex_mean 3) 4 2 t3_yu_2.
Proof. unfold t3_yu_2. t3_go. Qed.
Lemma prod_sqrt a b c x y : 0 <= a -> 0 <= b -> 0 <= c -> a * a = x -> b * b = y -> c * c = x * y -> c = a * b.
Proof.
  intros Ha Hb Hc EA EB EC. apply Rsqr_inj; auto; [apply Rmult_le_pos; auto|]. unfold Rsqr. rewrite EC, <- EA, <- EB. ring.
Qed.
Lemma c2_schmid_4_ok : delivers (cube_mean 2) 2 4 c2_schmid_4.
Proof.
  unfold c2_schmid_4. do 5 fix_step.
  assert (E15 : r1 = r * r2) by (apply (prod_sqrt r r2 r1 5 3); auto; lra).
  assert (E87 : r3 = r0 * r2) by (apply (prod_sqrt r0 r2 r3 29 3); auto; lra).
  subst r1 r3. clear P1 P3 H1 H3. c2_go.
Qed.

(** The numbers of cohen_gismalla_2. *)
Definition cgY : R := 702611114/575654765.
Definition cgB : R := 4960000000000000000000/33336426651689483509527.
Definition cgC : R := 1090054627727217337166555/12164689444083088992132708.
Definition cg2 : R := 11384625058543/2480000000000000.
Definition ch2 : R := 2862821655409801/9467954527634435.
Lemma rdiv_is a b c : b <> 0 -> c * b = a -> rdiv a b = Some c.
Proof. intros Hb E. rewrite (rdiv_ok a b Hb). f_equal. rewrite <- E. field. auto. Qed.
Ltac rdiv_to c := match goal with |- context [rdiv ?a ?b] => rewrite (rdiv_is a b c); [cbn [bind]|lra|lra] end.
Lemma c2_cohen_gismalla_2_run : exists q u v p r s,
  (0 <= q /\ q * q = (3850907/5000000) ^ 2 - cg2) /\ u * u = 3850907/5000000 + q /\ v * v = 3850907/5000000 - q /\
  (0 <= p /\ p * p = (2 * cgY) ^ 2 - ch2) /\ r * r = 2 * cgY - p /\ s * s = 2 * cgY + p /\
  c2_cohen_gismalla_2 =
    c2_scheme [("zero2", ([1 - 4 * cgB - 4 * cgC], [])); ("c2", ([cgB; cgB; cgC; cgC], [[u; v; r; r]; [- v; u; - s; s]]))]%string 1.
Proof.
  unfold c2_cohen_gismalla_2. cbv zeta. unfold cgB, cgC, cg2, ch2, cgY.
  rdiv_to (702611114/575654765). rdiv_to (1984000000000000/8656772716580661). rdiv_to (3787181811053774/8656772716580661).
  rdiv_to (4 * (4960000000000000000000/33336426651689483509527)). rdiv_to (4 * (1090054627727217337166555/12164689444083088992132708)).
  replace (4 * (4960000000000000000000 / 33336426651689483509527) / 4) with (4960000000000000000000 / 33336426651689483509527) by lra.
  replace (4 * (1090054627727217337166555 / 12164689444083088992132708) / 4) with (1090054627727217337166555 / 12164689444083088992132708) by lra.
  rdiv_to (2 * (3850907/5000000)).
  rdiv_to (1984000000000000/8656772716580661 * (11384625058543/2480000000000000)). rdiv_to (11384625058543/2480000000000000).
  replace (2 * (3850907 / 5000000) / 2) with (3850907 / 5000000) by lra.
  destruct (rsqrt_some ((3850907/5000000) ^ 2 - 11384625058543/2480000000000000)) as (q & Eq & Pq & Hq); [lra|]. rewrite Eq. cbn [bind].
  assert (Bq : q < 76820/100000) by nra.
  destruct (rsqrt_some (3850907/5000000 + q)) as (u & Eu & Pu & Hu); [lra|]. rewrite Eu. cbn [bind].
  destruct (rsqrt_some (3850907/5000000 - q)) as (v & Ev & Pv & Hv); [lra|]. rewrite Ev. cbn [bind].
  rdiv_to (2 * (1405222228/575654765)). rdiv_to (3787181811053774/8656772716580661 * (2862821655409801/9467954527634435)).
  rdiv_to (2862821655409801/9467954527634435).
  replace (2 * (1405222228 / 575654765) / 2) with (2 * (702611114/575654765)) by lra.
  destruct (rsqrt_some ((2 * (702611114/575654765)) ^ 2 - 2862821655409801/9467954527634435)) as (p & Ep & Pp & Hp); [lra|]. rewrite Ep. cbn [bind].
  assert (Bp : p < 2379/1000) by nra.
  destruct (rsqrt_some (2 * (702611114/575654765) - p)) as (r & Er & Pr & Hr); [lra|]. rewrite Er. cbn [bind].
  destruct (rsqrt_some (2 * (702611114/575654765) + p)) as (s & Es & Ps & Hs); [lra|]. rewrite Es. cbn [bind].
  exists q, u, v, p, r, s. repeat split; auto.
Qed.
(** A rule on the square made of the centre and of pairs of opposite points. *)
Lemma c2_pairs A B C a b c d e f g h deg :
  c2_scheme [("zero2", ([A], [])); ("c2", ([B; B; C; C], [[a; c; e; g]; [b; d; f; h]]))]%string deg =
  Some (mk_scheme 2 [(A, [0; 0]); (B, [a; b]); (B, [c; d]); (C, [e; f]); (C, [g; h]); (B, [- a; - b]); (B, [- c; - d]); (C, [- e; - f]); (C, [- g; - h])] deg).
Proof. lazy -[Rplus Rmult Rminus Ropp Rdiv Rinv IZR pow sqrt PI cos sin]. reflexivity. Qed.
Lemma c2_cohen_gismalla_2_ok : delivers (cube_mean 2) 2 1 c2_cohen_gismalla_2.
Proof.
  destruct c2_cohen_gismalla_2_run as (q & u & v & p & r & s & _ & _ & _ & _ & _ & _ & E). rewrite E. clear E.
  generalize cgB, cgC. intros B C. rewrite c2_pairs. apply delivers_intro; [reflexivity|]. cbn [s_rule].
  split; [repeat constructor|].
  intros k Hk Hd. rewrite (cubeQ_ok 2 k Hk).
  destruct k as [|i [|j [|? ?]]]; try discriminate.
  assert (Cs : (i = 0 /\ j = 0 \/ i = 1 /\ j = 0 \/ i = 0 /\ j = 1)%nat) by (unfold tdeg in Hd; cbn in Hd; lia).
  destruct Cs as [[-> ->]|[[-> ->]|[-> ->]]]; unfold cubeQ, Q2R; cbn -[IZR]; lra.
Qed.
