(** Moments of the point sets produced by [combine]: closed form valid for every dimension. *)
From Coq Require Import Reals List Arith Lia Lra Permutation Bool.
From Verif Require Import Spec RsumLemmas CombModel CombProofs.
Import ListNotations.
Open Scope R_scope.

Definition psum (vals : list R) (a : nat) : R := Rsum (map (fun v => v ^ a) vals).
Definition mean (vals : list R) (a : nat) : R := psum vals a / INR (length vals).

Fixpoint decR (i : nat) (cs : list R) : list R :=
  match cs, i with
  | [], _ => []
  | c :: cs', O => (c - 1) :: cs'
  | c :: cs', S i' => c :: decR i' cs'
  end.

(** Average of prod_j mu_{t_j}(k_j) over all labelings t, in closed form: position by position a class i
    is drawn with probability (remaining count of i)/(remaining positions). *)
Fixpoint avg (mus : list (nat -> R)) (cs : list R) (N : R) (k : list nat) : R :=
  match k with
  | [] => 1
  | a :: k' =>
      Rsum (map (fun i => nth i cs 0 / N * nth i mus (fun _ => 0) a * avg mus (decR i cs) (N - 1) k')
                (seq 0 (length cs)))
  end.

Lemma decR_length i cs : length (decR i cs) = length cs.
Proof. revert i; induction cs; destruct i; simpl; auto. Qed.

Lemma nth_decR i j cs : (i < length cs)%nat ->
  nth j (decR i cs) 0 = nth j cs 0 - (if (i =? j)%nat then 1 else 0).
Proof.
  revert i j; induction cs as [|c cs IH]; intros i j H; simpl in *; [lia|].
  destruct i, j; simpl; try ring. apply IH. lia.
Qed.

Lemma decR_comm i j cs : decR i (decR j cs) = decR j (decR i cs).
Proof. revert i j; induction cs; intros [|i] [|j]; simpl; auto. f_equal. auto. Qed.

Lemma avg_swap mus cs N a b k : avg mus cs N (a :: b :: k) = avg mus cs N (b :: a :: k).
Proof.
  change (avg mus cs N (a :: b :: k)) with
    (Rsum (map (fun i => nth i cs 0 / N * nth i mus (fun _ => 0) a *
        avg mus (decR i cs) (N - 1) (b :: k)) (seq 0 (length cs)))).
  change (avg mus cs N (b :: a :: k)) with
    (Rsum (map (fun i => nth i cs 0 / N * nth i mus (fun _ => 0) b *
        avg mus (decR i cs) (N - 1) (a :: k)) (seq 0 (length cs)))).
  assert (E : forall a b,
    Rsum (map (fun i => nth i cs 0 / N * nth i mus (fun _ => 0) a *
        avg mus (decR i cs) (N - 1) (b :: k)) (seq 0 (length cs))) =
    Rsum (map (fun i => Rsum (map (fun j =>
       nth i cs 0 * (nth j cs 0 - (if (i =? j)%nat then 1 else 0)) / N / (N - 1) *
       nth i mus (fun _ => 0) a * nth j mus (fun _ => 0) b *
       avg mus (decR j (decR i cs)) (N - 1 - 1) k) (seq 0 (length cs)))) (seq 0 (length cs)))).
  { intros a' b'. apply Rsum_map_ext. intros i Hi. apply in_seq in Hi.
    simpl. rewrite decR_length. rewrite <- Rsum_map_scal. apply Rsum_map_ext. intros j Hj.
    rewrite nth_decR by lia. unfold Rdiv. ring. }
  rewrite (E a b), (E b a). rewrite Rsum_swap.
  apply Rsum_map_ext. intros i _. apply Rsum_map_ext. intros j _.
  rewrite decR_comm. rewrite (Nat.eqb_sym j i).
  destruct (i =? j)%nat eqn:Q; [apply Nat.eqb_eq in Q; subst|]; unfold Rdiv; ring.
Qed.

Lemma avg_perm mus cs N k k' : Permutation k k' -> avg mus cs N k = avg mus cs N k'.
Proof.
  intros H. revert cs N. induction H; intros cs N.
  - auto.
  - simpl. apply Rsum_map_ext. intros i _. rewrite IHPermutation. auto.
  - apply avg_swap.
  - rewrite IHPermutation1. auto.
Qed.

Lemma Rsum_decR i cs : (i < length cs)%nat -> Rsum (decR i cs) = Rsum cs - 1.
Proof.
  revert i; induction cs as [|c cs IH]; intros [|i] H; simpl in *; try lia; [ring|].
  rewrite IH by lia. ring.
Qed.

Lemma Rsum_nth cs : Rsum (map (fun i => nth i cs 0) (seq 0 (length cs))) = Rsum cs.
Proof.
  induction cs as [|c cs IH]; simpl; auto. rewrite <- seq_shift, map_map. simpl. rewrite IH. auto.
Qed.

(** Trailing zero exponents do not matter. *)
Lemma avg_zeros mus cs m :
  (forall i, (i < length cs)%nat -> nth i mus (fun _ => 0) 0%nat = 1) ->
  Rsum cs = INR m -> avg mus cs (INR m) (repeat 0%nat m) = 1.
Proof.
  revert cs. induction m as [|m IH]; intros cs Hmu Hs; simpl; auto.
  rewrite (Rsum_map_ext _ (fun i => nth i cs 0 * / INR (S m))).
  - rewrite Rsum_map_scal_r, Rsum_nth, Hs. field. apply not_0_INR. lia.
  - intros i Hi. apply in_seq in Hi. change (match m with 0%nat => 1 | S _ => INR m + 1 end) with (INR (S m)).
    replace (INR (S m) - 1) with (INR m) by (rewrite S_INR; ring).
    rewrite Hmu by lia. rewrite IH.
    + unfold Rdiv. ring.
    + intros j Hj. rewrite decR_length in Hj. auto.
    + rewrite Rsum_decR by lia. rewrite Hs, S_INR. ring.
Qed.

Lemma avg_app_zeros mus l cs m :
  (forall i, (i < length cs)%nat -> nth i mus (fun _ => 0) 0%nat = 1) ->
  Rsum cs = INR (length l + m) ->
  avg mus cs (INR (length l + m)) (l ++ repeat 0%nat m) = avg mus cs (INR (length l + m)) l.
Proof.
  revert cs. induction l as [|a l IH]; intros cs Hmu Hs.
  - simpl. apply avg_zeros; auto.
  - simpl app. simpl avg. apply Rsum_map_ext. intros i Hi. apply in_seq in Hi.
    assert (E : INR (length (a :: l) + m) - 1 = INR (length l + m)).
    { change (length (a :: l) + m)%nat with (S (length l + m)). rewrite S_INR. ring. }
    change (match (length l + m)%nat with 0%nat => 1 | S _ => INR (length l + m) + 1 end)
      with (INR (length (a :: l) + m)).
    rewrite E. rewrite IH; auto.
    + intros j Hj. rewrite decR_length in Hj. auto.
    + rewrite Rsum_decR by lia. rewrite Hs. lra.
Qed.

(** Sum over a cartesian product factorises. *)
Fixpoint tprod (g : nat -> nat -> R) (t k : list nat) : R :=
  match t, k with
  | i :: t', a :: k' => g i a * tprod g t' k'
  | _, _ => 1
  end.

Lemma Rsum_product (vals : list (list R)) t k :
  length k = length t ->
  Rsum (map (mono k) (product (map (fun ti => nth ti vals []) t))) =
  tprod (fun i a => psum (nth i vals []) a) t k.
Proof.
  revert k. induction t as [|i t IH]; intros [|a k] H; simpl in *; try discriminate; [ring|].
  rewrite Rsum_map_flat_map.
  rewrite (Rsum_map_ext _ (fun v => v ^ a * tprod (fun i a => psum (nth i vals []) a) t k)).
  - rewrite Rsum_map_scal_r. auto.
  - intros v _. rewrite map_map. simpl. rewrite Rsum_map_scal. rewrite IH by lia. auto.
Qed.

Lemma tprod_scal (g h : nat -> nat -> R) (len : nat -> R) t k :
  length k = length t -> (forall i a, In i t -> g i a = len i * h i a) ->
  tprod g t k = fold_right Rmult 1 (map len t) * tprod h t k.
Proof.
  revert k. induction t as [|i t IH]; intros [|a k] H Hg; simpl in *; try discriminate; [ring|].
  rewrite Hg by auto. rewrite IH; [ring|lia|auto].
Qed.

Lemma num_partitions_dec i sizes m : list_sum sizes = S m -> (0 < nth i sizes 0)%nat ->
  INR (length (partitions (dec i sizes))) =
  INR (length (partitions sizes)) * (INR (nth i sizes 0%nat) / INR (S m)).
Proof.
  intros Hs Hi.
  assert (H1 := length_partitions sizes). assert (H2 := length_partitions (dec i sizes)).
  assert (Hd := dec_sum i sizes Hi). assert (E : list_sum (dec i sizes) = m) by lia.
  rewrite E in H2. rewrite Hs in H1.
  rewrite (prodfact_dec i sizes Hi) in H1.
  assert (Hp := prodfact_pos (dec i sizes)).
  change (fact (S m)) with (S m * fact m)%nat in H1.
  apply (f_equal INR) in H1, H2. rewrite !mult_INR in H1. rewrite !mult_INR in H2.
  assert (Hp' : INR (prodfact (dec i sizes)) <> 0) by (apply not_0_INR; lia).
  assert (Hm : INR (S m) <> 0) by (apply not_0_INR; lia).
  apply (Rmult_eq_reg_r (INR (prodfact (dec i sizes)))); auto.
  rewrite H2. apply (Rmult_eq_reg_l (INR (S m))); auto. rewrite <- H1. field. auto.
Qed.

Lemma map_INR_dec i sizes : (0 < nth i sizes 0)%nat -> map INR (dec i sizes) = decR i (map INR sizes).
Proof.
  revert i; induction sizes as [|s ss IH]; intros [|i] H; simpl in *; auto.
  - f_equal. rewrite minus_INR by lia. auto.
  - f_equal; auto.
Qed.

Lemma nth_map_INR i sizes : nth i (map INR sizes) 0 = INR (nth i sizes 0%nat).
Proof. change 0 with (INR 0). apply map_nth. Qed.

Theorem sum_labelings (mus : list (nat -> R)) sizes k :
  length k = list_sum sizes ->
  Rsum (map (fun t => tprod (fun i a => nth i mus (fun _ => 0) a) t k) (partitions sizes)) =
  INR (length (partitions sizes)) * avg mus (map INR sizes) (INR (list_sum sizes)) k.
Proof.
  revert sizes. induction k as [|a k IH]; intros sizes Hk; simpl in Hk.
  - rewrite partitions_zero by auto. simpl. ring.
  - rewrite (partitions_step sizes (length k)) at 1 by auto. rewrite Rsum_map_flat_map.
    simpl avg. rewrite map_length. rewrite <- Rsum_map_scal.
    apply Rsum_map_ext. intros i Hi. apply in_seq in Hi.
    rewrite nth_map_INR. destruct (nth i sizes 0 =? 0)%nat eqn:E.
    + apply Nat.eqb_eq in E. rewrite E. simpl. unfold Rdiv. ring.
    + apply Nat.eqb_neq in E. rewrite map_map. simpl tprod.
      rewrite Rsum_map_scal.
      assert (Hd := dec_sum i sizes ltac:(lia)).
      rewrite IH by lia.
      rewrite (num_partitions_dec i sizes (length k)) by lia.
      rewrite map_INR_dec by lia.
      replace (INR (list_sum sizes) - 1) with (INR (list_sum (dec i sizes))).
      * rewrite <- Hk. ring.
      * rewrite <- Hd, S_INR. ring.
Qed.

Lemma combine_num {A} (elems : list (list A * nat)) :
  length (combine elems) =
  (length (partitions (map snd elems)) * prodpow (map (fun e => (length (fst e), snd e)) elems))%nat.
Proof.
  assert (H1 := length_combine elems). assert (H2 := length_partitions (map snd elems)).
  assert (Hp := prodfact_pos (map snd elems)). nia.
Qed.

Lemma INR_prodlens lens t :
  fold_right Rmult 1 (map (fun ti => INR (nth ti lens 0%nat)) t) =
  INR (fold_right Nat.mul 1%nat (map (fun ti => nth ti lens 0%nat) t)).
Proof. induction t; simpl; auto. rewrite IHt, mult_INR. auto. Qed.

Definition ecounts (elems : list (list R * nat)) : list R := map (fun e => INR (snd e)) elems.
Definition emeans (elems : list (list R * nat)) : list (nat -> R) := map (fun e => mean (fst e)) elems.

(** The moment theorem for [combine]. *)
Theorem combine_moment (elems : list (list R * nat)) k :
  (forall e, In e elems -> fst e <> []) ->
  length k = list_sum (map snd elems) ->
  Rsum (map (mono k) (combine elems)) =
  INR (length (combine elems)) * avg (emeans elems) (ecounts elems) (INR (length k)) k.
Proof.
  intros Hne Hk. rewrite combine_num, mult_INR.
  unfold combine. rewrite Rsum_map_flat_map.
  set (vals := map fst elems). set (sizes := map snd elems).
  set (lens := map (fun e : list R * nat => length (fst e)) elems).
  rewrite (Rsum_map_ext _ (fun t => INR (prodpow (map (fun e => (length (fst e), snd e)) elems)) *
             tprod (fun i a => nth i (emeans elems) (fun _ => 0) a) t k)).
  - rewrite Rsum_map_scal. rewrite (sum_labelings (emeans elems) sizes) by auto.
    replace (map INR sizes) with (ecounts elems).
    + fold sizes in Hk. rewrite <- Hk. ring.
    + unfold ecounts, sizes. rewrite map_map. auto.
  - intros t Ht. apply in_partitions in Ht.
    assert (Hl := labeling_length _ _ Ht).
    rewrite Rsum_product by (fold sizes in Hk; lia).
    rewrite (tprod_scal _ (fun i a => nth i (emeans elems) (fun _ => 0) a)
               (fun i => INR (nth i lens 0%nat))).
    + rewrite INR_prodlens. rewrite (prodpow_labeling lens sizes).
      * f_equal. f_equal. f_equal. unfold lens, sizes.
        clear. induction elems; simpl; auto. f_equal; auto.
      * unfold lens, sizes. rewrite !map_length. auto.
      * auto.
    + fold sizes in Hk. lia.
    + intros i a Hi. assert (Hb := labeling_bound _ _ i Ht Hi).
      unfold vals, emeans, lens. unfold sizes in Hb. rewrite map_length in Hb.
      change (@nil R) with (fst (@nil R, 0%nat)). rewrite map_nth.
      rewrite (nth_indep _ (fun _ => 0) (mean (fst (@nil R, 0%nat)))) by (rewrite map_length; auto).
      rewrite (map_nth (fun e : list R * nat => mean (fst e))).
      rewrite (nth_indep _ 0%nat (length (fst (@nil R, 0%nat)))) by (rewrite map_length; auto).
      rewrite (map_nth (fun e : list R * nat => length (fst e))).
      unfold mean. field.
      apply not_0_INR. intros Hz. apply length_zero_iff_nil in Hz.
      eapply Hne; [|exact Hz]. apply nth_In. auto.
Qed.

Lemma mean_0 vals : vals <> [] -> mean vals 0 = 1.
Proof.
  intros H. unfold mean, psum. rewrite (Rsum_map_ext _ (fun _ => 1)) by (intros; simpl; auto).
  rewrite Rsum_map_const. field. apply not_0_INR. destruct vals; simpl; [tauto|lia].
Qed.

Theorem combine_moment_canon (elems : list (list R * nat)) l m :
  (forall e, In e elems -> fst e <> []) ->
  (length l + m)%nat = list_sum (map snd elems) ->
  Rsum (map (mono (l ++ repeat 0%nat m)) (combine elems)) =
  INR (length (combine elems)) *
  avg (emeans elems) (ecounts elems) (INR (length l + m)) l.
Proof.
  intros Hne Hk. rewrite combine_moment; auto.
  - rewrite app_length, repeat_length. rewrite avg_app_zeros; auto.
    + intros i Hi. unfold ecounts in Hi. rewrite map_length in Hi. unfold emeans.
      rewrite (nth_indep _ (fun _ => 0) (mean (fst (@nil R, 0%nat)))) by (rewrite map_length; auto).
      rewrite (map_nth (fun e : list R * nat => mean (fst e))).
      apply mean_0. apply Hne. apply nth_In. auto.
    + rewrite Hk. unfold ecounts. clear. induction elems; simpl; auto.
      rewrite IHelems. unfold list_sum. rewrite <- plus_INR. auto.
  - rewrite app_length, repeat_length. auto.
Qed.

Theorem combine_moment_perm (elems : list (list R * nat)) k k' :
  (forall e, In e elems -> fst e <> []) ->
  Permutation k k' -> length k = list_sum (map snd elems) ->
  Rsum (map (mono k) (combine elems)) = Rsum (map (mono k') (combine elems)).
Proof.
  intros Hne Hp Hk. assert (Hl := Permutation_length Hp).
  rewrite !combine_moment; auto; try lia. rewrite <- Hl. f_equal. apply avg_perm. auto.
Qed.
