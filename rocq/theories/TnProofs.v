(** Exactness of the n-simplex schemes of degrees 1 to 5. *)
From Coq Require Import Reals List Arith Lia Lra Permutation Bool.
From Verif Require Import Spec RsumLemmas CombSpec CombModel CombProofs CombProofs2 Moments SymExact
  IntegralSpec IntegralProofs PyBase MiscModel CnModel SchemeTools CnTools TnBase TnModel TnTools.
Import ListNotations.
Open Scope R_scope.

Definition simplex_scheme (n d : nat) (r : option scheme) : Prop :=
  exists s, r = Some s /\ s_dim s = n /\ s_degree s = d /\ exact (n + 1) d (simplexI n) (s_rule s).

Definition sdata (M : nat) (gs : list sgroup) : list (R * list point) :=
  map (fun g => (fst g, combine (sg_elems M g))) gs.
Lemma mk_rule_sdata M gs : mk_rule (untangle (sdata M gs)) = srule M gs.
Proof. unfold srule. rewrite <- mk_rule_gdata. unfold gdata, sdata. rewrite map_map. reflexivity. Qed.

Lemma from_data_simplex n gs d :
  exact (n + 1) d (simplexI n) (srule (n + 1) gs) -> simplex_scheme n d (Some (from_data n (sdata (n + 1) gs) d)).
Proof.
  intros H. eexists. split; [reflexivity|]. cbn [s_dim s_degree s_rule from_data].
  rewrite mk_rule_sdata. auto.
Qed.

Lemma bind_rd {B} (P : option B -> Prop) w M items f :
  forallb (fun it => (0 <? snd it)%nat) items = true -> (list_sum (map snd items) <= M)%nat ->
  P (f (combine (sg_elems M (w, items)))) -> P (bind (Rrd M items) f).
Proof.
  intros H1 H2 H. unfold Rrd, rd. rewrite H1. apply Nat.leb_le in H2. rewrite H2. exact H.
Qed.

Lemma forall_repeat_perm {A} (p : list A) v m : Permutation p (repeat v m) -> p = repeat v m.
Proof.
  intros H. assert (L := Permutation_length H). rewrite repeat_length in L.
  rewrite <- L. apply Forall_eq_repeat. apply Forall_forall. intros x Hx.
  eapply Permutation_in in Hx; eauto. apply repeat_spec in Hx. auto.
Qed.
Lemma combine_all n w v : combine (sg_elems (n + 1) (w, [(v, (n + 1)%nat)])) = [repeat v (n + 1)].
Proof.
  assert (L := num_all n w v). unfold gnum, sg_group in L. cbn [fst snd] in L.
  change 1 with (INR 1) in L. apply INR_eq in L.
  destruct (combine _) as [|p [|? ?]] eqn:E; try discriminate L.
  assert (Hp : In p (combine (sg_elems (n + 1) (w, [(v, (n + 1)%nat)])))) by (rewrite E; left; auto).
  apply combine_sg_perm in Hp; [|cbn; lia].
  unfold base_vector in Hp. cbn [map snd fst list_sum fold_right concat] in Hp.
  rewrite Nat.add_0_r, Nat.sub_diag, app_nil_r in Hp. cbn [repeat] in Hp. rewrite app_nil_r in Hp.
  f_equal. apply forall_repeat_perm. auto.
Qed.

(* ---------------------------------------------------------------- tactics *)
Ltac sg_nums := rewrite ?num_all, ?num_1, ?num_n, ?num_n_1, ?num_1_n;
  rewrite ?num_2, ?num_1_1, ?num_3, ?num_2_1, ?num_1_2, ?num_111, ?num_4, ?num_3_1, ?num_5, ?num_n1_2, ?num_n1_1_1,
    ?num_n2 by lia.
Lemma INR_bound n m : (m <= n)%nat -> IZR (Z.of_nat m) <= INR n.
Proof. intros H. rewrite <- INR_IZR_INZ. apply le_INR. auto. Qed.
Ltac n_bound n := let B := fresh "B" in
  match goal with
  | _ => assert (B : 4 <= INR n) by (apply (INR_bound n 4); lia)
  | _ => assert (B : 3 <= INR n) by (apply (INR_bound n 3); lia)
  | _ => assert (B : 2 <= INR n) by (apply (INR_bound n 2); lia)
  | _ => assert (B : 1 <= INR n) by (apply (INR_bound n 1); lia)
  | _ => assert (B : 0 <= INR n) by (apply (INR_bound n 0); lia)
  end.
Ltac tn_goal n :=
  match goal with H : (length _ <= n + 1)%nat |- _ => cbn [length] in H end;
  cbn [map fst snd Rsum]; sg_nums;
  cbn [svals scounts map fst snd pavg length seq decR nth Rsum prodfactR Rprod rise fact Nat.add Nat.mul];
  unfold prodfactR; cbn [map fact Nat.add Nat.mul Rprod];
  rewrite ?minus_INR by lia; rewrite ?plus_INR; inr_lits; n_bound n.
Ltac tn_split n :=
  apply simplex_exact_groups;
  [ let g := fresh in let Hg := fresh in intros g Hg; cbn [In] in Hg;
    decompose [or] Hg; subst; try contradiction; cbn [map fst snd list_sum fold_right]; lia
  | let g := fresh in let Hg := fresh in intros g Hg; cbn [In] in Hg; n_bound n;
    decompose [or] Hg; subst; try contradiction; cbn [map fst snd Rsum];
    rewrite ?minus_INR by lia; rewrite ?plus_INR; inr_lits
  | let l := fresh in let Hl := fresh in let Hs := fresh in let Hn := fresh in
    intros l Hl Hs Hn; cbv in Hl;
    decompose [or] Hl; clear Hl; subst; try contradiction;
    cbn [list_sum fold_right Nat.add] in Hs; try discriminate Hs; clear Hs; tn_goal n ].
Ltac tside := repeat split; try lra; try (apply Rgt_not_eq; nra).

Theorem stroud_tn_1_1_exact n : simplex_scheme n 1 (Some (stroud_tn_1_1 n)).
Proof.
  unfold stroud_tn_1_1. rewrite <- (combine_all n 1).
  apply (from_data_simplex n [(1, [(1 / INR (n + 1), (n + 1)%nat)])]).
  tn_split n; field; tside.
Qed.

Ltac rd_step w := apply (bind_rd _ w); [cbn [forallb snd]; rewrite ?andb_true_iff, ?Nat.ltb_lt; repeat split; lia
                                         |cbn [map snd list_sum fold_right]; lia|].

Theorem lauffer_2_exact n : (1 <= n)%nat -> simplex_scheme n 2 (lauffer_2 n).
Proof.
  intros H. unfold lauffer_2. set (N := INR n).
  rd_step ((2 - N) / ((N + 1) * (N + 2))). rd_step (4 / ((N + 1) * (N + 2))).
  apply (from_data_simplex n [((2 - N) / ((N + 1) * (N + 2)), [(1, 1%nat)]); (4 / ((N + 1) * (N + 2)), [(1/2, 2%nat)])]).
  subst N. tn_split n; field; tside.
Qed.

Theorem lauffer_3_exact n : (2 <= n)%nat -> simplex_scheme n 3 (lauffer_3 n).
Proof.
  intros H. unfold lauffer_3. set (N := INR n).
  match goal with |- context [from_data n [(?B, _); (?C, _); (?D, _)]] =>
    rd_step B; rd_step C; rd_step D;
    apply (from_data_simplex n [(B, [(1, 1%nat)]); (C, [(1/3, 1%nat); (2/3, 1%nat)]); (D, [(1/3, 3%nat)])]) end.
  subst N. tn_split n; field; tside.
Qed.

Ltac rds := repeat rd_step 0.
Ltac div_step := apply bind_div; [|let c := fresh "q" in let E := fresh "Eq" in intros c E; subst c].

Theorem lauffer_4_exact n : (3 <= n)%nat -> simplex_scheme n 4 (lauffer_4 n).
Proof.
  intros H. unfold lauffer_4. apply bind_guard; [apply Nat.leb_le; auto|]. rds.
  match goal with |- context [from_data n [(?B1, _); (?B2, _); (?B3, _); (?B4, _); (?B5, _)]] =>
    apply (from_data_simplex n [(B1, [(1, 1%nat)]); (B2, [(1/4, 1%nat); (3/4, 1%nat)]); (B3, [(1/2, 2%nat)]);
      (B4, [(1/4, 2%nat); (1/2, 1%nat)]); (B5, [(1/4, 4%nat)])]) end.
  tn_split n; field; tside.
Qed.

Theorem lauffer_5_exact n : (4 <= n)%nat -> simplex_scheme n 5 (lauffer_5 n).
Proof.
  intros H. unfold lauffer_5. apply bind_guard; [apply Nat.leb_le; auto|]. rds.
  match goal with |- context [from_data n [(?B1, _); (?B2, _); (?B3, _); (?B4, _); (?B5, _); (?B6, _); (?B7, _)]] =>
    apply (from_data_simplex n [(B1, [(1, 1%nat)]); (B2, [(1/5, 1%nat); (4/5, 1%nat)]);
      (B3, [(2/5, 1%nat); (3/5, 1%nat)]); (B4, [(1/5, 2%nat); (3/5, 1%nat)]);
      (B5, [(1/5, 1%nat); (2/5, 2%nat)]); (B6, [(1/5, 3%nat); (2/5, 1%nat)]); (B7, [(1/5, 5%nat)])]) end.
  tn_split n; field; tside.
Qed.

Theorem hammer_stroud_2_exact n : (1 <= n)%nat -> simplex_scheme n 3 (hammer_stroud_2 n).
Proof.
  intros H. unfold hammer_stroud_2. rds.
  match goal with |- context [from_data n [(?B, _); (?C, _)]] =>
    rewrite <- (combine_all n B);
    apply (from_data_simplex n [(B, [(1 / (INR n + 1), (n + 1)%nat)]); (C, [(3 / (INR n + 3), 1%nat); (1 / (INR n + 3), n)])]) end.
  tn_split n; field; tside.
Qed.

Theorem stroud_1961_exact n : (1 <= n)%nat -> simplex_scheme n 3 (stroud_1961 n).
Proof.
  intros H. unfold stroud_1961. n_bound n. div_step; [lra|]. rds.
  match goal with |- context [from_data n [(?A, _); (?B, _); (?C, _)]] =>
    rewrite <- (combine_all n A);
    apply (from_data_simplex n [(A, [(1 / (INR n + 1), (n + 1)%nat)]); (B, [(1, 1%nat)]); (C, [(1 / INR n, n)])]) end.
  clear B. tn_split n; field; tside.
Qed.

Ltac inr_rel n q Qq c := (* INR n = (q q - c)/.. *)
  replace (INR n) with c in * by lra.

Theorem stroud_1966_1_exact n : (1 <= n)%nat -> simplex_scheme n 3 (stroud_1966_1 n).
Proof.
  intros H. unfold stroud_1966_1. n_bound n. apply bind_sqrt; [lra|]. intros q Pq Qq. rds.
  match goal with |- context [from_data n [(?B, _); (?C, _)]] =>
    apply (from_data_simplex n [(B, [(1, 1%nat)]);
       (C, [((2 * INR n + 5 - q) / 2 / (INR n + 1) / (INR n + 3), n);
            (1 - INR n * ((2 * INR n + 5 - q) / 2 / (INR n + 1) / (INR n + 3)), 1%nat)])]) end.
  clear B. tn_split n; [field; tside|field; tside| | |];
    replace (INR n) with ((q * q - 13) / 4) in * by lra; field; repeat split; nra.
Qed.

Theorem stroud_1966_3_exact n : (3 <= n)%nat -> simplex_scheme n 3 (stroud_1966_3 n).
Proof.
  intros H. unfold stroud_1966_3. n_bound n. apply bind_guard; [apply Nat.ltb_lt; lia|].
  div_step; [lra|]. div_step; [nra|]. div_step; [nra|]. rds.
  match goal with |- context [from_data n [(?B, _); (?C, _); (?D, _)]] =>
    apply (from_data_simplex n [(B, [(1, 1%nat)]); (C, [(1/2, 2%nat)]); (D, [(1 / INR n, n)])]) end.
  clear B. tn_split n; field; tside.
Qed.

Theorem stroud_1966_4_exact n : (3 <= n)%nat -> simplex_scheme n 3 (stroud_1966_4 n).
Proof.
  intros H. unfold stroud_1966_4. n_bound n. apply bind_guard; [apply Nat.leb_le; lia|].
  div_step; [nra|]. div_step; [nra|]. rds.
  match goal with |- context [from_data n [(?A, _); (?B, _); (?C, _)]] =>
    rewrite <- (combine_all n A);
    apply (from_data_simplex n [(A, [(1 / (INR n + 1), (n + 1)%nat)]); (B, [(1, 1%nat)]); (C, [(1/3, 3%nat)])]) end.
  clear B. tn_split n; field; tside.
Qed.

Theorem stroud_1966_5_exact n : (2 <= n)%nat -> simplex_scheme n 3 (stroud_1966_5 n).
Proof.
  intros H. unfold stroud_1966_5. n_bound n.
  div_step; [lra|]. div_step; [nra|]. div_step; [nra|]. div_step; [nra|]. rds.
  match goal with |- context [from_data n [(?A, _); (?B, _); (?C, _)]] =>
    apply (from_data_simplex n [(A, [(1, 1%nat)]); (B, [(1 / INR n, n)]); (C, [(1/3, 3%nat)])]) end.
  clear B. tn_split n; field; tside.
Qed.

Lemma not5 n : n <> 5%nat -> INR n - 5 <> 0.
Proof. intros H E. apply H. apply INR_eq. simpl. lra. Qed.
Theorem stroud_1966_6_exact n : (3 <= n)%nat -> n <> 5%nat -> simplex_scheme n 3 (stroud_1966_6 n).
Proof.
  intros H H5. unfold stroud_1966_6. n_bound n. assert (N5 := not5 n H5).
  apply bind_guard; [apply Nat.leb_le; lia|].
  apply bind_guard; [apply negb_true_iff, Nat.eqb_neq; auto|].
  div_step; [nra|]. div_step; [nra|]. 
  div_step; [repeat apply Rmult_integral_contrapositive_currified; lra|].
  div_step; [repeat apply Rmult_integral_contrapositive_currified; lra|]. rds.
  match goal with |- context [from_data n [(?A, _); (?B, _); (?C, _)]] =>
    rewrite <- (combine_all n A);
    apply (from_data_simplex n [(A, [(1 / (INR n + 1), (n + 1)%nat)]); (B, [(1/3, 3%nat)]); (C, [(1 / (INR n - 2), (n - 2)%nat)])]) end.
  clear B. tn_split n; field; tside.
Qed.

Theorem stroud_1966_7_exact n : (3 <= n)%nat -> n <> 5%nat -> simplex_scheme n 3 (stroud_1966_7 n).
Proof.
  intros H H5. unfold stroud_1966_7. n_bound n. assert (N5 := not5 n H5).
  apply bind_guard; [apply Nat.leb_le; lia|].
  apply bind_guard; [apply negb_true_iff, Nat.eqb_neq; auto|].
  div_step; [nra|].
  div_step; [repeat apply Rmult_integral_contrapositive_currified; lra|].
  div_step; [repeat apply Rmult_integral_contrapositive_currified; lra|]. rds.
  match goal with |- context [from_data n [(?A, _); (?B, _); (?C, _)]] =>
    apply (from_data_simplex n [(A, [(1, 1%nat)]); (B, [(1/3, 3%nat)]); (C, [(1 / (INR n - 2), (n - 2)%nat)])]) end.
  clear B. tn_split n; field; tside.
Qed.
