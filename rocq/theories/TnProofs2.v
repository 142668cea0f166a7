(** More n-simplex schemes: untransposed points, Walkington, and schemes that use polynomial roots. *)
From Coq Require Import Reals List Arith Lia Lra Permutation Bool.
From Verif Require Import Spec RsumLemmas CombSpec CombModel CombProofs CombProofs2 Moments SymExact
  IntegralSpec IntegralProofs PyBase MiscModel CnModel SchemeTools CnTools TnBase TnModel TnTools TnProofs.
Import ListNotations.
Open Scope R_scope.

(* ------------------------------------------------ the n+1 permutations of (s, r, ..., r) *)
Definition xrow (m : nat) (s r : R) (i : nat) : point := map (fun j => if (j =? i)%nat then s else r) (seq 0 m).
Lemma xrow_perm m s r i : (i < m)%nat -> Permutation (xrow m s r i) (s :: repeat r (m - 1)).
Proof.
  intros H. unfold xrow. rewrite map_seq_pick by auto. cbn [app]. rewrite <- Permutation_middle. constructor.
  rewrite <- repeat_app. replace (i + (m - i - 1))%nat with (m - 1)%nat by lia. auto.
Qed.
Lemma nth_xrow m s r i j : (j < m)%nat -> nth j (xrow m s r i) 0 = if (j =? i)%nat then s else r.
Proof.
  intros H. unfold xrow. set (f := fun j => if (j =? i)%nat then s else r). change (nth j (map f (seq 0 m)) 0 = f j).
  rewrite (nth_indep _ 0 (f 0%nat)) by (rewrite map_length, seq_length; auto).
  rewrite map_nth, seq_nth by auto. auto.
Qed.
Lemma xrow_inj m s r i i' : s <> r -> (i < m)%nat -> (i' < m)%nat -> xrow m s r i = xrow m s r i' -> i = i'.
Proof.
  intros Hsr Hi Hi' E. apply (f_equal (fun l => nth i l 0)) in E. rewrite !nth_xrow in E by auto.
  rewrite Nat.eqb_refl in E. destruct (i =? i')%nat eqn:X; [apply Nat.eqb_eq; auto|contradiction].
Qed.
Lemma in_xrows m s r p : (0 < m)%nat -> Permutation p (s :: repeat r (m - 1)) -> In p (map (xrow m s r) (seq 0 m)).
Proof.
  intros Hm Hp. assert (Hin : In s p) by (eapply Permutation_in; [apply Permutation_sym; exact Hp|left; auto]).
  apply in_split in Hin. destruct Hin as [l1 [l2 ->]].
  assert (Hp2 : Permutation (l1 ++ l2) (repeat r (m - 1))).
  { eapply Permutation_cons_inv. rewrite Permutation_middle. exact Hp. }
  apply forall_repeat_perm in Hp2. assert (L := f_equal (@length R) Hp2). rewrite app_length, repeat_length in L.
  assert (F : Forall (fun x => x = r) (l1 ++ l2)).
  { rewrite Hp2. apply Forall_forall. intros x Hx. apply repeat_spec in Hx. auto. }
  apply Forall_app in F. destruct F as [F1 F2].
  apply in_map_iff. exists (length l1). split; [|apply in_seq; lia].
  unfold xrow. rewrite map_seq_pick by lia. cbn [app]. f_equal.
  - symmetry. apply Forall_eq_repeat. eapply Forall_impl; [|exact F1]. auto.
  - f_equal. replace (m - length l1 - 1)%nat with (length l2) by lia. symmetry. apply Forall_eq_repeat.
    eapply Forall_impl; [|exact F2]. auto.
Qed.
Lemma rows_are_xrows m s r (rows : list point) : (0 < m)%nat -> s <> r -> NoDup rows -> length rows = m ->
  (forall p, In p rows -> Permutation p (s :: repeat r (m - 1))) -> Permutation rows (map (xrow m s r) (seq 0 m)).
Proof.
  intros Hm Hsr Hnd Hl Hp. apply NoDup_Permutation_bis; auto.
  - rewrite map_length, seq_length. lia.
  - intros p H. apply in_xrows; auto.
Qed.

(** Transposing the matrix whose rows are the xrows in any order gives the xrows in some order. *)
Lemma columns_xrows m s r rows : Permutation rows (map (xrow m s r) (seq 0 m)) ->
  Permutation (np_columns m rows) (map (xrow m s r) (seq 0 m)).
Proof.
  intros H. apply Permutation_map_inv in H. destruct H as [sg [-> Hs]].
  unfold np_columns.
  rewrite (Permutation_map _ Hs).
  assert (E : map (fun j => map (fun row => nth j row 0) (map (xrow m s r) sg)) sg = map (xrow m s r) (seq 0 m)); [|rewrite E; auto].
  assert (L : length sg = m) by (rewrite <- (Permutation_length Hs), seq_length; auto).
  assert (ND : NoDup sg) by (eapply Permutation_NoDup; [exact Hs|apply seq_NoDup]).
  assert (HI : forall i, In i sg -> (i < m)%nat).
  { intros i Hi. apply (Permutation_in _ (Permutation_sym Hs)) in Hi. apply in_seq in Hi. lia. }
  transitivity (map (fun t => map (fun i => if (nth t sg 0 =? i)%nat then s else r) sg) (seq 0 m)).
  - rewrite <- (map_map (fun t => nth t sg 0%nat) (fun v => map (fun i => if (v =? i)%nat then s else r) sg)).
    replace (map (fun t => nth t sg 0%nat) (seq 0 m)) with sg.
    + apply map_ext_in. intros j Hj. rewrite map_map. apply map_ext_in. intros i Hi.
      apply nth_xrow. auto.
    + rewrite <- L. clear. induction sg; simpl; auto. f_equal. rewrite <- seq_shift, map_map. auto.
  - apply map_ext_in. intros t Ht. apply in_seq in Ht. unfold xrow.
    replace (map (fun i => if (nth t sg 0 =? i)%nat then s else r) sg)
      with (map (fun j => if (nth t sg 0 =? nth j sg 0)%nat then s else r) (seq 0 m)).
    + apply map_ext_in. intros j Hj. apply in_seq in Hj.
      destruct (j =? t)%nat eqn:X.
      * apply Nat.eqb_eq in X. subst. rewrite Nat.eqb_refl. auto.
      * apply Nat.eqb_neq in X. destruct (nth t sg 0 =? nth j sg 0)%nat eqn:Y; auto.
        apply Nat.eqb_eq in Y. exfalso. apply X. eapply NoDup_nth; [exact ND|lia|lia|symmetry; exact Y].
    + rewrite <- L. rewrite <- (map_map (fun j => nth j sg 0%nat) (fun i => if (nth t sg 0 =? i)%nat then s else r)).
      f_equal. clear. induction sg; simpl; auto. f_equal. rewrite <- seq_shift, map_map. auto.
Qed.

(** A class of multiplicity zero can carry any values. *)
Lemma combine_zero_class {A} (e : list (list A * nat)) v v' :
  combine (e ++ [(v, 0%nat)]) = combine (e ++ [(v', 0%nat)]).
Proof.
  unfold combine. rewrite !map_app. cbn [map fst snd].
  rewrite !flat_map_concat_map. f_equal. apply map_ext_in. intros t Ht. f_equal. apply map_ext_in. intros i Hi.
  apply in_partitions in Ht. assert (B := labeling_bound _ _ _ Ht Hi).
  rewrite app_length, map_length in B. cbn [length] in B.
  destruct (Nat.eq_dec i (length e)) as [->|Hne].
  - exfalso. specialize (Ht (length e)). rewrite app_nth2, map_length, Nat.sub_diag in Ht by (rewrite map_length; lia).
    cbn [nth] in Ht. apply (count_occ_In Nat.eq_dec) in Hi. lia.
  - rewrite !app_nth1 by (rewrite map_length; lia). auto.
Qed.

Lemma sg_rows M g v s r : (list_sum (map snd (snd g)) <= M)%nat -> (0 < M)%nat -> s <> r ->
  combine (sg_elems M g) = combine (map (fun it => ([fst it], snd it)) (snd g) ++ [(v, (M - list_sum (map snd (snd g)))%nat)]) ->
  NoDup (map fst (snd g) ++ v) -> gnum (sg_group M g) = INR M ->
  Permutation (base_vector 0 M (snd g)) (s :: repeat r (M - 1)) ->
  Permutation (combine (sg_elems M g)) (map (xrow M s r) (seq 0 M)).
Proof.
  intros H HM Hsr E Hnd Hg Hb. apply rows_are_xrows; auto.
  - rewrite E. apply NoDup_combine. rewrite map_app, concat_app, map_map. cbn [map fst snd concat].
    rewrite app_nil_r. replace (concat _) with (map fst (snd g)); auto.
    clear. induction (snd g); cbn; auto. f_equal. auto.
  - apply INR_eq. exact Hg.
  - intros p Hp. rewrite <- Hb. apply combine_sg_perm; auto.
Qed.

Lemma sg_rows_1 n w s : s <> 0 ->
  Permutation (combine (sg_elems (n + 1) (w, [(s, 1%nat)]))) (map (xrow (n + 1) s 0) (seq 0 (n + 1))).
Proof.
  intros Hs. apply (sg_rows _ _ [0]); auto; try (cbn; lia).
  - cbn. constructor; [|constructor; [|constructor]]; cbn; intuition.
  - rewrite num_1, plus_INR. auto.
Qed.
Lemma sg_rows_n_1 n w r s : s <> r ->
  Permutation (combine (sg_elems (n + 1) (w, [(r, n); (s, 1%nat)]))) (map (xrow (n + 1) s r) (seq 0 (n + 1))).
Proof.
  intros Hs. apply (sg_rows _ _ []); auto; try (cbn; lia).
  - unfold sg_elems. cbn [snd map list_sum fold_right]. rewrite Nat.add_0_r, Nat.sub_diag. apply combine_zero_class.
  - cbn. constructor; [|constructor; [|constructor]]; cbn; intuition.
  - rewrite num_n_1, plus_INR. auto.
  - unfold base_vector. cbn [snd fst map list_sum fold_right concat]. rewrite Nat.add_0_r, Nat.sub_diag.
    replace (n + 1 - 1)%nat with n by lia. cbn [repeat]. rewrite !app_nil_r. apply Permutation_sym, Permutation_cons_append.
Qed.
Lemma sg_rows_1_n n w s r : s <> r ->
  Permutation (combine (sg_elems (n + 1) (w, [(s, 1%nat); (r, n)]))) (map (xrow (n + 1) s r) (seq 0 (n + 1))).
Proof.
  intros Hs. apply (sg_rows _ _ []); auto; try (cbn; lia).
  - unfold sg_elems. cbn [snd map list_sum fold_right]. replace (n + 1 - (1 + (n + 0)))%nat with 0%nat by lia. apply combine_zero_class.
  - cbn. constructor; [|constructor; [|constructor]]; cbn; intuition.
  - rewrite num_1_n, plus_INR. auto.
  - unfold base_vector. cbn [snd fst map list_sum fold_right concat repeat app].
    replace (n + 1 - (1 + (n + 0)))%nat with 0%nat by lia.
    replace (n + 1 - 1)%nat with n by lia. cbn [repeat]. rewrite !app_nil_r. auto.
Qed.

Lemma combine_repeat_pair {P} (w : R) (pts : list P) m : length pts = m -> List.combine (repeat w m) pts = map (pair w) pts.
Proof. intros <-. induction pts; cbn; auto. f_equal. auto. Qed.

Lemma untransposed_exact n w g s r d :
  Permutation (combine (sg_elems (n + 1) g)) (map (xrow (n + 1) s r) (seq 0 (n + 1))) -> w = fst g ->
  exact (n + 1) d (simplexI n) (srule (n + 1) [g]) ->
  simplex_scheme n d (Some (from_data_untransposed n [(w, combine (sg_elems (n + 1) g))] d)).
Proof.
  intros H -> He. eexists. split; [reflexivity|].
  assert (L := Permutation_length H). rewrite map_length, seq_length in L.
  unfold from_data_untransposed, untangle. cbn [map snd fst concat np_repeat s_dim s_degree s_rule].
  rewrite !app_nil_r. unfold mk_rule. cbn [fst snd]. unfold point in *. rewrite L.
  rewrite combine_repeat_pair by (unfold np_columns; rewrite map_length, seq_length; auto).
  split; auto. split; auto. eapply exact_perm; [|exact He].
  unfold srule, sym_rule. cbn [map flat_map sg_group fst snd]. rewrite app_nil_r.
  apply Permutation_map. eapply perm_trans; [exact H|]. apply Permutation_sym, columns_xrows. auto.
Qed.

Theorem lauffer_1_exact n : simplex_scheme n 1 (lauffer_1 n).
Proof.
  unfold lauffer_1. rd_step (1 / INR (n + 1)).
  apply (untransposed_exact _ _ (1 / INR (n + 1), [(1, 1%nat)]) 1 0); auto.
  - apply sg_rows_1. lra.
  - tn_split n; field; tside.
Qed.

Lemma sqrt_gt1 q N : 0 <= q -> 1 <= N -> q * q = N + 2 -> 1 < q.
Proof. intros. nra. Qed.

Theorem hammer_stroud_1a_exact n : (1 <= n)%nat -> simplex_scheme n 2 (hammer_stroud_1a n).
Proof.
  intros H. unfold hammer_stroud_1a. n_bound n. apply bind_sqrt; [lra|]. intros q Pq Qq.
  assert (Q1 := sqrt_gt1 _ _ Pq B Qq).
  match goal with |- context [from_data_untransposed n [(?W, _)]] => rd_step W end.
  match goal with |- context [from_data_untransposed n [(?W, combine (sg_elems _ (_, [(?r, n); (?s, _)])))]] =>
    apply (untransposed_exact _ _ (W, [(r, n); (s, 1%nat)]) s r); auto end.
  - apply sg_rows_n_1. intros E. apply Rminus_diag_eq in E.
    match type of E with ?X = 0 => replace X with (q / (INR n + 2)) in E by (field; lra) end.
    assert (0 < q / (INR n + 2)) by (apply Rdiv_lt_0_compat; lra). lra.
  - clear B. tn_split n; replace (INR n) with (q * q - 2) in * by lra; field; split; nra.
Qed.

Theorem hammer_stroud_1b_exact n : (1 <= n)%nat -> simplex_scheme n 2 (hammer_stroud_1b n).
Proof.
  intros H. unfold hammer_stroud_1b. n_bound n. apply bind_sqrt; [lra|]. intros q Pq Qq.
  assert (Q1 := sqrt_gt1 _ _ Pq B Qq).
  match goal with |- context [from_data_untransposed n [(?W, _)]] => rd_step W end.
  match goal with |- context [from_data_untransposed n [(?W, combine (sg_elems _ (_, [(?r, n); (?s, _)])))]] =>
    apply (untransposed_exact _ _ (W, [(r, n); (s, 1%nat)]) s r); auto end.
  - apply sg_rows_n_1. intros E. apply Rminus_diag_eq in E.
    match type of E with ?X = 0 => replace X with (- q / (INR n + 2)) in E by (field; lra) end.
    assert (0 < q / (INR n + 2)) by (apply Rdiv_lt_0_compat; lra). unfold Rdiv in *. lra.
  - clear B. tn_split n; replace (INR n) with (q * q - 2) in * by lra; field; split; nra.
Qed.
