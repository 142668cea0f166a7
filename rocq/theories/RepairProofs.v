(** Which degree the under-declared schemes really have, and that the repaired ones reach the degree of their source. *)
From Coq Require Import Reals List Arith ZArith Lia Lra String QArith Qreals Permutation.
From Verif Require Import Spec CombModel RsumLemmas IntegralSpec IntegralProofs SphereSpec PyBase SymmModel OrbitModel SchemeTools Tower TowerSym TowerMoments FixSpec FixTools
  C2Model S2Model E23Model DecModel TnModel TnTools TnProofs TnProofs2 TnProofs3 C2Proofs E23Proofs ClosedModel ClosedProofs RepairSpec RepairModel.
Import ListNotations.
Set Bullet Behavior "Strict Subproofs".
Open Scope R_scope.

(** *** The repaired rules *)
Lemma repaired_c2_stroud_7_4_ok : delivers (cube_mean 2) 2 7 repaired_c2_stroud_7_4.
Proof. unfold repaired_c2_stroud_7_4. cbv zeta. fix_step. bounds r (54/10) (55/10). c2_go. Qed.
Lemma repaired_e2r2_stroud_7_2_ok : delivers (enr2_mean 2) 2 7 repaired_e2r2_stroud_7_2.
Proof. unfold repaired_e2r2_stroud_7_2. cbv zeta. fix_step. bounds r (24/10) (25/10). e2r2_go. Qed.

(** *** The rules as they are *)
Lemma c2_stroud_7_4_short : falls_short (cube_mean 2) 2 2 c2_stroud_7_4.
Proof.
  unfold c2_stroud_7_4.
  destruct (rsqrt_some 30) as (q & Eq & Pq & Hq); [lra|]. rewrite Eq. cbn [bind]. assert (Bq : 54/10 < q < 55/10) by nra.
  destruct (rsqrt_some ((15 - 1 * 2 * q) / 35)) as (r0 & Er0 & _ & _); [lra|]. rewrite Er0. cbn [bind].
  destruct (rsqrt_some ((15 - -1 * 2 * q) / 35)) as (s & Es & Ps & Hs); [lra|]. rewrite Es. cbn [bind].
  destruct (rsqrt_some (3/5)) as (r & Er & Pr & Hr); [lra|]. rewrite Er. cbn [bind].
  eexists. exists [2; 0]%nat. split; [lazy -[Rplus Rmult Rminus Ropp Rdiv Rinv IZR pow sqrt PI cos sin]; reflexivity|].
  split; [reflexivity|]. split; [reflexivity|]. rewrite (cubeQ_ok 2) by reflexivity. unfold cubeQ, Q2R. cbn -[IZR]. nra.
Qed.
Lemma e2r2_stroud_7_2_short : falls_short (enr2_mean 2) 2 2 e2r2_stroud_7_2.
Proof.
  unfold e2r2_stroud_7_2.
  destruct (rsqrt_some 6) as (q & Eq & Pq & Hq); [lra|]. rewrite Eq. cbn [bind]. assert (Bq : 24/10 < q < 25/10) by nra.
  destruct (rsqrt_some ((3 + 1 * q) / 2)) as (r & Er & Pr & Hr); [lra|]. rewrite Er. cbn [bind].
  destruct (rsqrt_some ((3 + -1 * q) / 2)) as (s & Es & Ps & Hs); [lra|]. rewrite Es. cbn [bind].
  eexists. exists [2; 0]%nat. split; [lazy -[Rplus Rmult Rminus Ropp Rdiv Rinv IZR pow sqrt PI cos sin]; reflexivity|].
  split; [reflexivity|]. split; [reflexivity|]. rewrite (enr2Q_ok 2) by (reflexivity || lia). unfold enr2Q, Q2R. cbn -[IZR]. nra.
Qed.
Lemma c2_franke_8_short : falls_short (cube_mean 2) 2 2 (option_map fst c2_franke_8).
Proof.
  unfold c2_franke_8.
  eexists. exists [2; 0]%nat. split; [lazy -[Rplus Rmult Rminus Ropp Rdiv Rinv IZR pow sqrt PI cos sin]; reflexivity|].
  split; [reflexivity|]. split; [reflexivity|]. rewrite (cubeQ_ok 2) by reflexivity. unfold cubeQ, Q2R. cbn -[IZR]. lra.
Qed.
Lemma c2_cohen_gismalla_1_short : falls_short (cube_mean 2) 2 4 c2_cohen_gismalla_1.
Proof.
  unfold c2_cohen_gismalla_1.
  destruct (rsqrt_some (2/63)) as (q & Eq & Pq & Hq); [lra|]. rewrite Eq. cbn [bind]. assert (Bq : 17/100 < q < 18/100) by nra.
  destruct (rsqrt_some ((1/3 + 1 * q) / (5/7))) as (u & Eu & Pu & Hu); [lra|]. rewrite Eu. cbn [bind].
  destruct (rsqrt_some ((1/3 + -1 * q) / (5/7))) as (v & Ev & Pv & Hv); [lra|]. rewrite Ev. cbn [bind].
  eexists. exists [3; 1]%nat. split; [lazy -[Rplus Rmult Rminus Ropp Rdiv Rinv IZR pow sqrt PI cos sin]; reflexivity|].
  split; [reflexivity|]. split; [reflexivity|]. rewrite (cubeQ_ok 2) by reflexivity. unfold cubeQ, Q2R. cbn -[IZR].
  assert (0 < u) by nra. assert (0 < v) by nra. assert (D : u * u - v * v > 0) by lra. assert (0 < u * v) by nra. nra.
Qed.
Lemma c2_cohen_gismalla_2_short : falls_short (cube_mean 2) 2 2 c2_cohen_gismalla_2.
Proof.
  destruct c2_cohen_gismalla_2_run as (q & u & v & p & r & s & _ & Hu & Hv & [Pp Hp] & Hr & _ & E). rewrite E. clear E. rewrite c2_pairs.
  eexists. exists [2; 0]%nat. split; [reflexivity|]. split; [reflexivity|]. split; [reflexivity|].
  rewrite (cubeQ_ok 2) by reflexivity. unfold cubeQ, Q2R. cbn -[IZR cgB cgC]. intros E.
  assert (E' : 2 * cgB * (u * u + v * v) + 4 * cgC * (r * r) = 1 / 3) by (revert E; generalize cgB, cgC; intros; lra).
  rewrite Hu, Hv, Hr in E'. revert E' Hp. unfold cgB, cgC, cgY, ch2. intros. nra.
Qed.
(** *** Symmetric integrands *)
Lemma even_somewhere_cases (P : list nat -> Prop) d :
  (forall k, In k (flat_map (fun i => map (fun j => [i; j]) (filter (fun j => (i + j <=? d)%nat && (Nat.even i || Nat.even j)) (seq 0 (S d)))) (seq 0 (S d))) -> P k) ->
  forall k, even_somewhere k -> (tdeg k <= d)%nat -> P k.
Proof.
  intros H k (i & j & -> & E) Hd. cbn in Hd. apply H. apply in_flat_map. exists i. split; [apply in_seq; lia|].
  apply in_map_iff. exists j. split; auto. apply filter_In. split; [apply in_seq; lia|].
  apply andb_true_intro. split; [apply Nat.leb_le; lia|]. apply orb_true_iff. rewrite !Nat.even_spec. auto.
Qed.
Ltac sym_cases := apply even_somewhere_cases; let k := fresh "k" in let H := fresh "H" in intros k H; cbn [flat_map map filter seq Nat.leb Nat.even Nat.add andb orb app] in H;
  repeat (destruct H as [<-|H]); [..|contradiction].
Ltac sym_eq := repeat match goal with |- context [?a * / ?b] => change (a * / b) with (a / b) end; let env := tw_env in tower_eq env.
Lemma c2_cohen_gismalla_1_sym : symmetric_degree (cube_mean 2) 5 c2_cohen_gismalla_1.
Proof.
  unfold c2_cohen_gismalla_1.
  destruct (rsqrt_some (2/63)) as (q & Eq & Pq & Hq); [lra|]. rewrite Eq. cbn [bind]. assert (Bq : 17/100 < q < 18/100) by nra.
  destruct (rsqrt_some ((1/3 + 1 * q) / (5/7))) as (u & Eu & Pu & Hu); [lra|]. rewrite Eu. cbn [bind].
  destruct (rsqrt_some ((1/3 + -1 * q) / (5/7))) as (v & Ev & Pv & Hv); [lra|]. rewrite Ev. cbn [bind].
  eexists. split; [lazy -[Rplus Rmult Rminus Ropp Rdiv Rinv IZR pow sqrt PI cos sin]; reflexivity|].
  clear Eq Eu Ev Pu Pv Bq.
  sym_cases; rewrite (cubeQ_ok 2) by reflexivity; unfold cubeQ, Q2R; cbn -[IZR]; sym_eq.
Qed.
Lemma repaired_c2_cohen_gismalla_2_run : exists q u v p r s,
  (0 <= q /\ q * q = (3850907/20000000) ^ 2 - cg2) /\ u * u = 3850907/20000000 + q /\ v * v = 3850907/20000000 - q /\
  (0 <= p /\ p * p = (cgY / 2) ^ 2 - ch2) /\ r * r = cgY / 2 - p /\ s * s = cgY / 2 + p /\
  repaired_c2_cohen_gismalla_2 =
    c2_scheme [("zero2", ([1 - 4 * cgB - 4 * cgC], [])); ("c2", ([cgB; cgB; cgC; cgC], [[u; v; r; s]; [- v; u; - s; r]]))]%string 1.
Proof.
  unfold repaired_c2_cohen_gismalla_2. cbv zeta. unfold cgB, cgC, cg2, ch2, cgY.
  rdiv_to (702611114/575654765). rdiv_to (1984000000000000/8656772716580661). rdiv_to (3787181811053774/8656772716580661).
  rdiv_to (4 * (4960000000000000000000/33336426651689483509527)). rdiv_to (4 * (1090054627727217337166555/12164689444083088992132708)).
  replace (4 * (4960000000000000000000 / 33336426651689483509527) / 4) with (4960000000000000000000 / 33336426651689483509527) by lra.
  replace (4 * (1090054627727217337166555 / 12164689444083088992132708) / 4) with (1090054627727217337166555 / 12164689444083088992132708) by lra.
  rdiv_to (2 * (3850907/20000000)).
  rdiv_to (1984000000000000/8656772716580661 * (11384625058543/2480000000000000)). rdiv_to (11384625058543/2480000000000000).
  replace (2 * (3850907 / 20000000) / 2) with (3850907 / 20000000) by lra.
  destruct (rsqrt_some ((3850907/20000000) ^ 2 - 11384625058543/2480000000000000)) as (q & Eq & Pq & Hq); [lra|]. rewrite Eq. cbn [bind].
  assert (Bq : q < 192/1000) by nra.
  destruct (rsqrt_some (3850907/20000000 + q)) as (u & Eu & Pu & Hu); [lra|]. rewrite Eu. cbn [bind].
  destruct (rsqrt_some (3850907/20000000 - q)) as (v & Ev & Pv & Hv); [lra|]. rewrite Ev. cbn [bind].
  rdiv_to (702611114/575654765). rdiv_to (3787181811053774/8656772716580661 * (2862821655409801/9467954527634435)).
  rdiv_to (2862821655409801/9467954527634435).
  destruct (rsqrt_some ((702611114/575654765 / 2) ^ 2 - 2862821655409801/9467954527634435)) as (p & Ep & Pp & Hp); [lra|]. rewrite Ep. cbn [bind].
  assert (Bp : p < 3/10) by nra.
  destruct (rsqrt_some (702611114/575654765 / 2 - p)) as (r & Er & Pr & Hr); [lra|]. rewrite Er. cbn [bind].
  destruct (rsqrt_some (702611114/575654765 / 2 + p)) as (s & Es & Ps & Hs); [lra|]. rewrite Es. cbn [bind].
  exists q, u, v, p, r, s. repeat split; auto.
Qed.
Lemma repaired_c2_cohen_gismalla_2_sym : symmetric_degree (cube_mean 2) 7 repaired_c2_cohen_gismalla_2.
Proof.
  destruct repaired_c2_cohen_gismalla_2_run as (q & u & v & p & r & s & [_ Hq] & Hu & Hv & [_ Hp] & Hr & Hs & E). rewrite E. clear E. rewrite c2_pairs.
  eexists. split; [reflexivity|]. unfold cgB, cgC, cgY, cg2, ch2 in *.
  sym_cases; rewrite (cubeQ_ok 2) by reflexivity; unfold cubeQ, Q2R; cbn -[IZR]; sym_eq.
Qed.
(** *** walkington_2 *)
Local Notation length := List.length.
Lemma combine_repeat {A B} (f : A -> A) (w : A) (ps : list B) :
  List.combine (map f (repeat w (length ps))) ps = map (fun p => (f w, p)) ps.
Proof. induction ps; cbn; congruence. Qed.
Lemma normalize_one n w ps deg : w <> 0 -> ps <> [] ->
  exists s, normalize n [(w, ps)] deg = Some s /\ s_dim s = n /\ s_degree s = deg /\ s_rule s = map (fun p => (1 / INR (length ps), p)) ps.
Proof.
  intros Hw Hp. unfold normalize, untangle. cbn [map List.concat fst snd np_repeat]. rewrite !app_nil_r.
  assert (Lp : 0 < INR (length ps)) by (apply lt_0_INR; destruct ps; [congruence|cbn [length]; lia]).
  assert (N : INR (length ps) * w <> 0) by (apply Rmult_integral_contrapositive; split; lra).
  rewrite Rsum_repeat, (rdiv_ok _ _ N). cbn [bind].
  eexists. split; [reflexivity|]. cbn [s_dim s_rule s_degree]. split; [reflexivity|]. split; [reflexivity|].
  unfold mk_rule. cbn [fst snd]. rewrite combine_repeat. apply map_ext. intros p. f_equal. field. split; lra.
Qed.
Lemma xi1_length d a : length (_xi1 d a) = (d + 1)%nat.
Proof. unfold _xi1. rewrite map_length, seq_length. reflexivity. Qed.
Lemma xi1_square d a :
  Rsum (map (mono (2%nat :: repeat 0%nat d)) (_xi1 d a)) = (1 - INR d * a) ^ 2 + INR d * a ^ 2.
Proof.
  unfold _xi1. replace (d + 1)%nat with (S d) by lia. cbn [seq map]. cbn [Rsum].
  assert (M : forall x l, mono (2%nat :: repeat 0%nat d) (x :: l) = x ^ 2).
  { intros x l. cbn [mono]. replace (mono (repeat 0%nat d) l) with 1; [ring|]. clear. revert l. induction d; intros [|y l]; cbn; auto.
    rewrite <- IHd. ring. }
  rewrite M, Nat.eqb_refl. rewrite map_map. rewrite (Rsum_map_ext _ (fun _ => a ^ 2)).
  - rewrite Rsum_map_const, seq_length. ring.
  - intros i Hi. apply in_seq in Hi. rewrite M. replace (0 =? i)%nat with false; auto. symmetry. apply Nat.eqb_neq. lia.
Qed.
Lemma zeros_length d : length (2%nat :: repeat 0%nat d) = (d + 1)%nat.
Proof. cbn [List.length]. rewrite repeat_length. lia. Qed.
Lemma zeros_sum d : list_sum (repeat 0%nat d) = 0%nat.
Proof. induction d; cbn; auto. Qed.
Lemma zeros_tdeg d : tdeg (2%nat :: repeat 0%nat d) = 2%nat.
Proof. unfold tdeg. change (2 + list_sum (repeat 0 d) = 2)%nat. rewrite zeros_sum. reflexivity. Qed.
Lemma map_repeat_one d : map (fun a => INR (fact a)) (repeat 0%nat d) = repeat 1 d.
Proof. induction d; cbn; congruence. Qed.
Lemma Rprod_ones d : Rprod (repeat 1 d) = 1.
Proof. induction d; cbn; [auto|]. rewrite IHd. ring. Qed.
Lemma simplex_square d : (1 <= d)%nat -> simplex_mean d (mono (2%nat :: repeat 0%nat d)) = 2 / ((INR d + 1) * (INR d + 2)).
Proof.
  intros Hd. rewrite simplex_mean_mono by (cbn [length]; rewrite repeat_length; auto). unfold simplex_moment.
  rewrite zeros_tdeg.
  replace (prodfactR (2%nat :: repeat 0%nat d)) with 2.
  - replace (d + 2)%nat with (S (S d)) by lia. rewrite !fact_simpl, !mult_INR, !S_INR.
    assert (N := INR_fact_lt_0 d). n_bound d. field. repeat split; lra.
  - unfold prodfactR. cbn [map Rprod fact Nat.mul Nat.add]. rewrite map_repeat_one, Rprod_ones. cbn [INR]. lra.
Qed.
Lemma xi1_apply d a deg : exists s, normalize d [(1 / INR (fact (d + 1)), _xi1 d a)] deg = Some s /\ s_dim s = d /\ s_degree s = deg /\
  apply (s_rule s) (mono (2%nat :: repeat 0%nat d)) = ((1 - INR d * a) ^ 2 + INR d * a ^ 2) / (INR d + 1).
Proof.
  destruct (normalize_one d (1 / INR (fact (d + 1))) (_xi1 d a) deg) as (s & E & D & G & Q).
  - apply invfact_nz.
  - intros E. apply (f_equal (@List.length point)) in E. rewrite xi1_length in E. cbn in E. lia.
  - exists s. repeat split; auto. rewrite Q. unfold apply. rewrite map_map. cbn [fst snd]. rewrite Rsum_map_scal, xi1_square, xi1_length, plus_INR.
    cbn [INR]. assert (0 <= INR d) by apply pos_INR. field. lra.
Qed.
Lemma walkington_2_short d : (1 <= d)%nat -> falls_short (simplex_mean d) (d + 1) 2 (walkington_2 d).
Proof.
  intros Hd. n_bound d. unfold walkington_2.
  destruct (rsqrt_some (INR d + 1)) as (q & Eq & Pq & Hq); [lra|]. rewrite Eq. cbn [bind]. assert (0 < q) by nra.
  rewrite rdiv_ok by lra. cbn [bind]. destruct (xi1_apply d (1 / q) 1) as (s & E & _ & _ & A).
  exists s, (2%nat :: repeat 0%nat d). split; [exact E|]. split; [apply zeros_length|]. split; [apply zeros_tdeg|].
  rewrite A, simplex_square by auto. assert (ED : INR d = q * q - 1) by lra. rewrite ED. intros E2.
  assert (E3 : (q - 1) * (q ^ 3 * (q - 1) - 2) = 0).
  { apply (f_equal (fun x => x * (q * q * q * (q * q + 1)))) in E2. assert (q * q + 1 <> 0) by nra. assert (q <> 0) by lra.
    replace (((1 - (q * q - 1) * (1 / q)) ^ 2 + (q * q - 1) * (1 / q) ^ 2) / (q * q - 1 + 1) * (q * q * q * (q * q + 1)))
      with ((q ^ 3 - 2 * q ^ 2 + 2) * (q * q + 1)) in E2 by (field; split; auto; replace (q * q - 1 + 1) with (q * q) by ring; nra).
    replace (2 / ((q * q - 1 + 1) * (q * q - 1 + 2)) * (q * q * q * (q * q + 1))) with (2 * q) in E2
      by (field; repeat split; try (replace (q * q - 1 + 2) with (q * q + 1) by ring; auto); replace (q * q - 1 + 1) with (q * q) by ring; nra).
    replace ((q - 1) * (q ^ 3 * (q - 1) - 2)) with ((q ^ 3 - 2 * q ^ 2 + 2) * (q * q + 1) - 2 * q) by ring. lra. }
  destruct (Nat.eq_dec d 1) as [->|N].
  - cbn [INR] in *. assert (141/100 < q < 142/100) by nra. apply Rmult_integral in E3. destruct E3 as [E3|E3]; [lra|].
    replace (q ^ 3 * (q - 1)) with ((q * q) * (q * q) - (q * q) * q) in E3 by ring. rewrite Hq in E3. lra.
  - assert (2 <= INR d) by (change 2 with (INR 2); apply le_INR; lia). assert (17/10 < q) by nra.
    apply Rmult_integral in E3. destruct E3 as [E3|E3]; [lra|]. assert (289/100 * (17/10) <= q ^ 3) by nra. nra.
Qed.
(** The rule on the orbit of (b, a, ..., a) has degree 2 for exactly two values of a. *)
Lemma walkington_2_at_iff d a : (1 <= d)%nat -> (simplex_scheme d 2 (walkington_2_at a d) <-> (INR d + 2) * (1 - (INR d + 1) * a) ^ 2 = 1).
Proof.
  intros Hd. n_bound d. unfold walkington_2_at. split.
  - intros (s & E & _ & _ & _ & X). destruct (xi1_apply d a 2) as (s' & E' & _ & _ & A). rewrite E in E'. injection E' as <-.
    specialize (X (2%nat :: repeat 0%nat d) (zeros_length d) (Nat.eq_le_incl _ _ (zeros_tdeg d))). unfold simplexI in X.
    rewrite A, simplex_square in X by auto. apply (f_equal (fun x => x * ((INR d + 1) * (INR d + 2)))) in X.
    replace (2 / ((INR d + 1) * (INR d + 2)) * ((INR d + 1) * (INR d + 2))) with 2 in X by (field; lra).
    replace (((1 - INR d * a) ^ 2 + INR d * a ^ 2) / (INR d + 1) * ((INR d + 1) * (INR d + 2)))
      with (((1 - INR d * a) ^ 2 + INR d * a ^ 2) * (INR d + 2)) in X by (field; lra).
    assert (Z : INR d * ((INR d + 2) * (1 - (INR d + 1) * a) ^ 2 - 1) = 0).
    { replace (INR d * ((INR d + 2) * (1 - (INR d + 1) * a) ^ 2 - 1)) with ((INR d + 1) * (((1 - INR d * a) ^ 2 + INR d * a ^ 2) * (INR d + 2) - 2)) by ring.
      rewrite X. ring. }
    apply Rmult_integral in Z. destruct Z; lra.
  - intros E. assert (Ha : 1 - INR d * a <> a) by (intros Z; replace (1 - (INR d + 1) * a) with 0 in E by lra; nra).
    apply (normalize_groups _ (1 / INR (fact d)) _ [(1 / (INR d + 1), [(1 - INR d * a, 1%nat); (a, d)])]).
    + apply invfact_nz.
    + clear B. tn_split d.
      * lra.
      * apply Rminus_diag_uniq. match goal with |- ?L = 0 =>
          replace L with (- / ((INR d + 1) ^ 2 * (INR d + 2)) * ((INR d + 2) * (1 - (INR d + 1) * a) ^ 2 - 1)) by (field; tside) end. rewrite E. ring.
      * apply Rminus_diag_uniq. match goal with |- ?L = 0 =>
          replace L with (INR d / ((INR d + 1) ^ 2 * (INR d + 2)) * ((INR d + 2) * (1 - (INR d + 1) * a) ^ 2 - 1)) by (field; tside) end. rewrite E. ring.
    + constructor; [|constructor]. cbn [fst snd]. split; [|apply xi1_perm; auto].
      replace (d + 1)%nat with (S d) by lia. rewrite factS. field. repeat split; try lra; apply INR_fact_neq_0.
Qed.
Lemma repaired_walkington_2_ok d : (1 <= d)%nat -> simplex_scheme d 2 (repaired_walkington_2 d).
Proof.
  intros Hd. n_bound d. unfold repaired_walkington_2.
  destruct (rsqrt_some (INR d + 2)) as (q & Eq & Pq & Hq); [lra|]. rewrite Eq. cbn [bind]. assert (0 < q) by nra.
  rewrite rdiv_ok by lra. cbn [bind]. apply walkington_2_at_iff; auto.
  replace (1 - (INR d + 1) * ((1 - 1 / q) / (INR d + 1))) with (1 / q) by (field; lra). rewrite <- Hq. field. lra.
Qed.
