(** Proofs about the combinatorial helpers. *)
From Coq Require Import List Arith Lia Bool Permutation.
From Verif Require Export CombSpec.
From Verif Require Import CombModel.
Import ListNotations.

(* ---------------------------------------------------------------- lists *)
Lemma NoDup_app_intro {A} (l1 l2 : list A) :
  NoDup l1 -> NoDup l2 -> (forall x, In x l1 -> In x l2 -> False) -> NoDup (l1 ++ l2).
Proof.
  induction l1 as [|a l1 IH]; simpl; intros H1 H2 H; auto.
  inversion H1; subst. constructor.
  - rewrite in_app_iff. intros [Hi|Hi]; [contradiction|]. eapply H; eauto.
  - apply IH; auto. intros x Hx Hx2. eapply H; eauto.
Qed.

Lemma NoDup_flat_map {A B} (f : A -> list B) (l : list A) :
  NoDup l -> (forall a, In a l -> NoDup (f a)) ->
  (forall a b x, In a l -> In b l -> In x (f a) -> In x (f b) -> a = b) ->
  NoDup (flat_map f l).
Proof.
  induction l as [|a l IH]; simpl; intros Hl Hf Hd; [constructor|].
  inversion Hl; subst.
  apply NoDup_app_intro.
  - apply Hf; auto.
  - apply IH; auto. intros. eapply Hd; eauto.
  - intros x Hx Hx2. apply in_flat_map in Hx2. destruct Hx2 as [b [Hb Hxb]].
    assert (a = b) by (eapply Hd; eauto). subst. contradiction.
Qed.

Lemma NoDup_map_inj {A B} (f : A -> B) (l : list A) :
  (forall x y, In x l -> In y l -> f x = f y -> x = y) -> NoDup l -> NoDup (map f l).
Proof.
  induction l as [|a l IH]; simpl; intros Hf Hn; [constructor|].
  inversion Hn; subst. constructor.
  - rewrite in_map_iff. intros [y [Hy Hin]]. assert (y = a) by (apply Hf; auto). subst. contradiction.
  - apply IH; auto.
Qed.

Lemma length_flat_map {A B} (f : A -> list B) (l : list A) :
  length (flat_map f l) = list_sum (map (fun a => length (f a)) l).
Proof. induction l; simpl; auto. rewrite app_length, IHl. auto. Qed.

(* -------------------------------------------------------------- product *)
Lemma in_product {A} (ls : list (list A)) (p : list A) :
  In p (product ls) <-> Forall2 (fun v l => In v l) p ls.
Proof.
  revert p. induction ls as [|l ls IH]; intros p; simpl.
  - split.
    + intros [<-|[]]. constructor.
    + intros H. inversion H; auto.
  - rewrite in_flat_map. split.
    + intros [v [Hv Hp]]. apply in_map_iff in Hp. destruct Hp as [p' [<- Hp']].
      constructor; auto. apply IH; auto.
    + intros H. inversion H; subst. exists x; split; auto. apply in_map. apply IH; auto.
Qed.

Lemma NoDup_product {A} (ls : list (list A)) :
  Forall (@NoDup A) ls -> NoDup (product ls).
Proof.
  induction ls as [|l ls IH]; intros H; simpl.
  - constructor; auto. constructor.
  - inversion H; subst. apply NoDup_flat_map; auto.
    + intros a Ha. apply NoDup_map_inj; auto. intros x y _ _ E. inversion E; auto.
    + intros a b x Ha Hb Hxa Hxb. apply in_map_iff in Hxa, Hxb.
      destruct Hxa as [? [<- _]], Hxb as [? [E _]]. inversion E; auto.
Qed.

Lemma length_product {A} (ls : list (list A)) :
  length (product ls) = fold_right Nat.mul 1 (map (@length A) ls).
Proof.
  induction ls as [|l ls IH]; simpl; auto.
  rewrite length_flat_map.
  rewrite (map_ext _ (fun _ => length (product ls))) by (intros; apply map_length).
  rewrite IH. generalize (fold_right Nat.mul 1 (map (length (A:=A)) ls)). intros m.
  induction l; simpl; auto.
Qed.

(* ------------------------------------------------------------------ dec *)
Lemma dec_length i s : length (dec i s) = length s.
Proof. revert i; induction s; destruct i; simpl; auto. Qed.

Lemma dec_sum i s : 0 < nth i s 0 -> S (list_sum (dec i s)) = list_sum s.
Proof.
  revert i; induction s as [|a s IH]; destruct i; simpl; intros H; try lia.
  apply IH in H. unfold list_sum in *. lia.
Qed.

Lemma nth_dec i j s :
  nth j (dec i s) 0 = nth j s 0 - (if i =? j then 1 else 0).
Proof.
  revert i j; induction s as [|a s IH]; intros i j; destruct i, j; simpl; try lia.
  all: try (destruct j; simpl; lia); auto.
Qed.

Lemma nth_pos_lt i (s : list nat) : 0 < nth i s 0 -> i < length s.
Proof. intros H. destruct (Nat.lt_ge_cases i (length s)); auto. rewrite nth_overflow in H; lia. Qed.

Lemma forallb_zero_iff s : forallb (fun x => x =? 0) s = true <-> list_sum s = 0.
Proof.
  induction s as [|a s IH]; simpl; [tauto|].
  rewrite andb_true_iff, Nat.eqb_eq, IH. unfold list_sum. simpl. lia.
Qed.

(* ----------------------------------------------------------- partitions *)
Lemma partitions_fuel_zero fuel s : list_sum s = 0 -> partitions_fuel fuel s = [[]].
Proof.
  intros H.
  assert (Hf : forallb (fun x => x =? 0) s = true) by (apply forallb_zero_iff; auto).
  destruct fuel; simpl; rewrite Hf; auto.
  replace (flat_map _ _) with (@nil (list nat)); auto.
  symmetry. generalize (seq 0 (length s)). intros l.
  assert (Hn : forall i, nth i s 0 = 0).
  { intros i. destruct (Nat.lt_ge_cases i (length s)); [|apply nth_overflow; lia].
    rewrite forallb_forall in Hf. apply Nat.eqb_eq. apply Hf. apply nth_In; auto. }
  induction l; simpl; auto. rewrite Hn. simpl. auto.
Qed.

(** The recursion equation of the Python generator, independent of fuel. *)
Theorem partitions_unfold s :
  partitions s =
  (if forallb (fun x => x =? 0) s then [[]] else []) ++
  flat_map (fun i => if nth i s 0 =? 0 then [] else map (cons i) (partitions (dec i s)))
           (seq 0 (length s)).
Proof.
  unfold partitions. destruct (list_sum s) as [|m] eqn:E.
  - rewrite partitions_fuel_zero by auto.
    assert (Hf : forallb (fun x => x =? 0) s = true) by (apply forallb_zero_iff; auto).
    rewrite Hf. replace (flat_map _ _) with (@nil (list nat)); auto.
    symmetry. generalize (seq 0 (length s)). intros l. induction l; simpl; auto.
    rewrite IHl. assert (nth a s 0 = 0).
    { destruct (Nat.lt_ge_cases a (length s)); [|apply nth_overflow; lia].
      rewrite forallb_forall in Hf. apply Nat.eqb_eq. apply Hf. apply nth_In; auto. }
    rewrite H. auto.
  - simpl. f_equal. apply flat_map_ext. intros i.
    destruct (nth i s 0 =? 0) eqn:Hi; auto.
    apply Nat.eqb_neq in Hi.
    assert (Hs := dec_sum i s). assert (list_sum (dec i s) = m) by lia. rewrite H. auto.
Qed.

Lemma partitions_zero s : list_sum s = 0 -> partitions s = [[]].
Proof. intros. unfold partitions. apply partitions_fuel_zero; auto. Qed.

(** One step for non-zero sizes. *)
Lemma partitions_step s m : list_sum s = S m ->
  partitions s =
  flat_map (fun i => if nth i s 0 =? 0 then [] else map (cons i) (partitions (dec i s)))
           (seq 0 (length s)).
Proof.
  intros H. rewrite partitions_unfold.
  destruct (forallb (fun x => x =? 0) s) eqn:E; auto.
  apply forallb_zero_iff in E. lia.
Qed.

(** Label vectors: every label i occurs exactly sizes[i] times, no other label occurs. *)
Definition labeling (sizes t : list nat) : Prop :=
  forall i, count_occ Nat.eq_dec t i = nth i sizes 0.

Lemma list_sum_zero_nth s : list_sum s = 0 -> forall i, nth i s 0 = 0.
Proof.
  induction s as [|a s IH]; simpl; intros H i.
  - destruct i; auto.
  - destruct i; [|apply IH]; unfold list_sum in *; lia.
Qed.

Lemma nth_zero_list_sum s : (forall i, nth i s 0 = 0) -> list_sum s = 0.
Proof.
  induction s as [|a s IH]; simpl; intros H; auto.
  assert (a = 0) by (apply (H 0)). assert (list_sum s = 0).
  { apply IH. intros i. apply (H (S i)). } unfold list_sum in *. lia.
Qed.

Theorem in_partitions sizes t : In t (partitions sizes) <-> labeling sizes t.
Proof.
  remember (list_sum sizes) as m eqn:Hm. revert sizes t Hm.
  induction m as [|m IH]; intros sizes t Hm.
  - rewrite partitions_zero by auto. split.
    + intros [<-|[]]. intros i. simpl. symmetry. apply list_sum_zero_nth; auto.
    + intros H. left. destruct t as [|a t]; auto. specialize (H a).
      rewrite list_sum_zero_nth in H by auto. simpl in H.
      destruct (Nat.eq_dec a a); [discriminate|tauto].
  - rewrite (partitions_step _ m) by auto. rewrite in_flat_map. split.
    + intros [i [Hi Ht]]. destruct (nth i sizes 0 =? 0) eqn:E; [destruct Ht|].
      apply Nat.eqb_neq in E. apply in_map_iff in Ht. destruct Ht as [t' [<- Ht']].
      apply IH in Ht'; [|assert (Hd := dec_sum i sizes); lia].
      intros j. simpl. specialize (Ht' j). rewrite nth_dec in Ht'.
      destruct (Nat.eq_dec i j) as [->|Hn].
      * rewrite Nat.eqb_refl in Ht'. lia.
      * apply Nat.eqb_neq in Hn. rewrite Hn in Ht'. lia.
    + intros H. destruct t as [|i t].
      * exfalso. assert (list_sum sizes = 0); [|lia]. apply nth_zero_list_sum. intros i.
        specialize (H i). simpl in H. auto.
      * assert (Hi : 0 < nth i sizes 0).
        { specialize (H i). simpl in H. destruct (Nat.eq_dec i i); [lia|tauto]. }
        exists i. split.
        -- apply in_seq. apply nth_pos_lt in Hi. lia.
        -- destruct (nth i sizes 0 =? 0) eqn:E; [apply Nat.eqb_eq in E; lia|].
           apply in_map. apply IH.
           ++ assert (Hd := dec_sum i sizes Hi). lia.
           ++ intros j. specialize (H j). simpl in H. rewrite nth_dec.
              destruct (Nat.eq_dec i j) as [->|Hn].
              ** rewrite Nat.eqb_refl. lia.
              ** apply Nat.eqb_neq in Hn. rewrite Hn. lia.
Qed.

Theorem NoDup_partitions sizes : NoDup (partitions sizes).
Proof.
  remember (list_sum sizes) as m eqn:Hm. revert sizes Hm.
  induction m as [|m IH]; intros sizes Hm.
  - rewrite partitions_zero by auto. repeat constructor. simpl. tauto.
  - rewrite (partitions_step _ m) by auto. apply NoDup_flat_map.
    + apply seq_NoDup.
    + intros i Hi. destruct (nth i sizes 0 =? 0) eqn:E; [constructor|].
      apply Nat.eqb_neq in E. apply NoDup_map_inj.
      * intros x y _ _ Q. inversion Q; auto.
      * apply IH. assert (Hd := dec_sum i sizes). lia.
    + intros a b x Ha Hb Hxa Hxb.
      destruct (nth a sizes 0 =? 0); [destruct Hxa|].
      destruct (nth b sizes 0 =? 0); [destruct Hxb|].
      apply in_map_iff in Hxa, Hxb. destruct Hxa as [? [<- _]], Hxb as [? [Q _]].
      inversion Q; auto.
Qed.

Lemma labeling_length sizes t : labeling sizes t -> length t = list_sum sizes.
Proof.
  revert sizes. induction t as [|a t IH]; intros sizes H; simpl.
  - symmetry. apply nth_zero_list_sum. intros i. specialize (H i). simpl in H. auto.
  - assert (Ha : 0 < nth a sizes 0).
    { specialize (H a). simpl in H. destruct (Nat.eq_dec a a); [lia|tauto]. }
    assert (Hd := dec_sum a sizes Ha). rewrite <- Hd. f_equal. apply IH.
    intros j. specialize (H j). simpl in H. rewrite nth_dec.
    destruct (Nat.eq_dec a j) as [->|Hn].
    + rewrite Nat.eqb_refl. lia.
    + apply Nat.eqb_neq in Hn. rewrite Hn. lia.
Qed.

Lemma labeling_bound sizes t i : labeling sizes t -> In i t -> i < length sizes.
Proof.
  intros H Hi. apply nth_pos_lt. rewrite <- (H i).
  apply (count_occ_In Nat.eq_dec) in Hi. lia.
Qed.

(** Multinomial count. *)
Lemma prodfact_pos s : 0 < prodfact s.
Proof. induction s; simpl; [lia|]. assert (H := lt_O_fact a). nia. Qed.

Lemma prodfact_dec i s : 0 < nth i s 0 -> prodfact s = nth i s 0 * prodfact (dec i s).
Proof.
  revert i; induction s as [|a s IH]; intros i H.
  - destruct i; simpl in *; lia.
  - destruct i as [|i]; simpl in *.
    + destruct a as [|a]; [lia|]. replace (S a - 1) with a by lia.
      simpl. lia.
    + rewrite (IH i H). lia.
Qed.

Lemma sum_nth_seq s : list_sum (map (fun i => nth i s 0) (seq 0 (length s))) = list_sum s.
Proof.
  induction s as [|a s IH]; simpl; auto.
  rewrite <- seq_shift, map_map. unfold list_sum in *. simpl. rewrite IH. auto.
Qed.

Theorem length_partitions sizes :
  length (partitions sizes) * prodfact sizes = fact (list_sum sizes).
Proof.
  remember (list_sum sizes) as m eqn:Hm. revert sizes Hm.
  induction m as [|m IH]; intros sizes Hm.
  - rewrite partitions_zero by auto. simpl.
    assert (prodfact sizes = 1); [|lia]. revert Hm.
    induction sizes as [|a s IHs]; simpl; intros; auto.
    assert (a = 0) by (unfold list_sum in *; lia). subst.
    simpl. rewrite IHs; auto.
  - rewrite (partitions_step _ m) by auto. rewrite length_flat_map.
    assert (G : forall l,
      list_sum (map (fun i => length (if nth i sizes 0 =? 0 then []
                 else map (cons i) (partitions (dec i sizes)))) l) * prodfact sizes
      = list_sum (map (fun i => nth i sizes 0) l) * fact m).
    { induction l as [|i l IHl]; simpl; auto.
      unfold list_sum in *. simpl. rewrite !Nat.mul_add_distr_r, IHl. f_equal.
      destruct (nth i sizes 0 =? 0) eqn:E.
      - apply Nat.eqb_eq in E. rewrite E. auto.
      - apply Nat.eqb_neq in E. rewrite map_length.
        rewrite (prodfact_dec i) by lia.
        rewrite <- (IH (dec i sizes)); [lia|].
        assert (Hd := dec_sum i sizes). unfold list_sum in *. lia. }
    rewrite G, sum_nth_seq, <- Hm. simpl. lia.
Qed.

(* -------------------------------------------------------------- combine *)
Lemma Forall2_map_r {A B C} (R : A -> C -> Prop) (f : B -> C) l m :
  Forall2 R l (map f m) <-> Forall2 (fun a b => R a (f b)) l m.
Proof.
  revert l. induction m as [|b m IH]; intros l; simpl.
  - split; intros H; inversion H; constructor.
  - split; intros H; inversion H; subst; constructor; auto; apply IH; auto.
Qed.

Lemma Forall2_len {A B} (R : A -> B -> Prop) l m : Forall2 R l m -> length l = length m.
Proof. induction 1; simpl; auto. Qed.

Theorem in_combine {A} (elems : list (list A * nat)) (p : list A) :
  In p (combine elems) <-> arrangement elems p.
Proof.
  unfold combine, arrangement. rewrite in_flat_map. split.
  - intros [t [Ht Hp]]. exists t. split; [apply in_partitions in Ht; exact Ht|].
    apply in_product in Hp. apply (proj1 (Forall2_map_r _ _ _ _)) in Hp. exact Hp.
  - intros [t [Ht Hp]]. exists t. split; [apply in_partitions; auto|].
    apply in_product. apply (proj2 (Forall2_map_r _ _ _ _)). exact Hp.
Qed.

Theorem combine_row_length {A} (elems : list (list A * nat)) (p : list A) :
  In p (combine elems) -> length p = list_sum (map snd elems).
Proof.
  intros H. apply in_combine in H. destruct H as [t [Ht Hp]].
  apply Forall2_len in Hp. rewrite Hp. apply labeling_length; auto.
Qed.

Lemma class_value_inj {A} (vals : list (list A)) i j v :
  NoDup (concat vals) -> In v (nth i vals []) -> In v (nth j vals []) -> i = j.
Proof.
  revert i j. induction vals as [|l vals IH]; intros i j Hn Hi Hj; simpl in *.
  - destruct i; destruct Hi.
  - assert (Hsplit : NoDup l /\ NoDup (concat vals) /\ (forall x, In x l -> In x (concat vals) -> False)).
    { clear -Hn. induction l as [|a l IHl]; simpl in *.
      - repeat split; auto; constructor.
      - inversion Hn; subst. destruct IHl as [A1 [A2 A3]]; auto.
        rewrite in_app_iff in H1. repeat split; auto.
        + constructor; auto.
        + intros x [<-|Hx] Hc; [tauto|eauto]. }
    destruct Hsplit as [H1 [H2 H3]].
    assert (Hc : forall k, In v (nth k vals []) -> In v (concat vals)).
    { intros k Hk. apply in_concat. exists (nth k vals []). split; auto.
      destruct (Nat.lt_ge_cases k (length vals)); [apply nth_In; auto|].
      rewrite nth_overflow in Hk by lia. destruct Hk. }
    destruct i, j; auto.
    + exfalso. eapply H3; eauto.
    + exfalso. eapply H3; eauto.
Qed.

Theorem NoDup_combine {A} (elems : list (list A * nat)) :
  NoDup (concat (map fst elems)) -> NoDup (combine elems).
Proof.
  intros Hn. unfold combine. apply NoDup_flat_map.
  - apply NoDup_partitions.
  - intros t Ht. apply NoDup_product. apply Forall_forall. intros l Hl.
    apply in_map_iff in Hl. destruct Hl as [i [<- _]].
    generalize i. clear -Hn. induction (map fst elems) as [|l v IH]; intros i; simpl in *.
    + destruct i; constructor.
    + assert (NoDup l /\ NoDup (concat v)) as [H1 H2].
      { clear -Hn. induction l; simpl in *; [split; auto; constructor|].
        inversion Hn; subst. destruct IHl; auto. split; auto. constructor; auto.
        rewrite in_app_iff in H1. tauto. }
      destruct i; [exact H1|apply IH; exact H2].
  - intros t1 t2 p _ _ H1 H2. apply in_product in H1, H2. apply (proj1 (Forall2_map_r _ _ _ _)) in H1, H2.
    revert t2 H2. induction H1 as [|v i p t1 Hv H1 IH]; intros t2 H2; inversion H2; subst; auto.
    f_equal.
    + eapply class_value_inj; eauto.
    + apply IH; auto.
Qed.

Lemma prodpow_labeling (lens : list nat) (sizes t : list nat) :
  length lens = length sizes -> labeling sizes t ->
  fold_right Nat.mul 1 (map (fun ti => nth ti lens 0) t) = prodpow (List.combine lens sizes).
Proof.
  revert sizes. induction t as [|a t IH]; intros sizes Hl H; simpl.
  - assert (Hz : list_sum sizes = 0).
    { apply nth_zero_list_sum. intros i. specialize (H i). simpl in H. auto. }
    clear H. revert sizes Hl Hz. induction lens as [|b lens IHl]; intros [|s ss] Hl Hz; simpl in *; auto; try lia.
    unfold list_sum in *. simpl in Hz. rewrite <- IHl; try lia.
    assert (s = 0) by lia. subst. simpl. lia.
  - assert (Ha : 0 < nth a sizes 0).
    { specialize (H a). simpl in H. destruct (Nat.eq_dec a a); [lia|tauto]. }
    rewrite (IH (dec a sizes)).
    + clear -Ha Hl. revert a sizes Ha Hl. induction lens as [|b lens IHl]; intros a [|s ss] Ha Hl; simpl in *; try lia.
      * destruct a; lia.
      * destruct a as [|a]; simpl.
        -- destruct s; [lia|]. replace (S s - 1) with s by lia. simpl. lia.
        -- rewrite <- (IHl a ss) by (auto; lia). ring.
    + rewrite dec_length. auto.
    + intros j. specialize (H j). simpl in H. rewrite nth_dec.
      destruct (Nat.eq_dec a j) as [->|Hn].
      * rewrite Nat.eqb_refl. lia.
      * apply Nat.eqb_neq in Hn. rewrite Hn. lia.
Qed.

(** Number of rows = multinomial(counts) * prod |values_i|^count_i. *)
Theorem length_combine {A} (elems : list (list A * nat)) :
  length (combine elems) * prodfact (map snd elems) =
  fact (list_sum (map snd elems)) * prodpow (map (fun e => (length (fst e), snd e)) elems).
Proof.
  unfold combine. rewrite length_flat_map.
  assert (E : forall t, In t (partitions (map snd elems)) ->
     length (product (map (fun ti => nth ti (map fst elems) []) t)) =
     prodpow (map (fun e => (length (fst e), snd e)) elems)).
  { intros t Ht. apply in_partitions in Ht. rewrite length_product, map_map.
    transitivity (fold_right Nat.mul 1 (map (fun ti => nth ti (map (fun e => length (fst e)) elems) 0) t)).
    - f_equal. apply map_ext. intros i.
      change 0 with (length (@nil A)). rewrite <- (map_map fst (@length A)). rewrite map_nth. auto.
    - rewrite (prodpow_labeling _ (map snd elems)); auto.
      + f_equal. clear. induction elems; simpl; auto. f_equal; auto.
      + rewrite !map_length. auto. }
  rewrite <- length_partitions.
  revert E. generalize (partitions (map snd elems)) as l.
  generalize (prodpow (map (fun e => (length (fst e), snd e)) elems)) as c.
  generalize (prodfact (map snd elems)) as pf. intros pf c l E.
  assert (list_sum (map (fun a => length (product (map (fun ti => nth ti (map fst elems) []) a))) l) = length l * c).
  { induction l as [|t l IH]; simpl; auto. unfold list_sum in *. simpl.
    rewrite (E t) by (left; auto). rewrite IH; auto. intros; apply E; right; auto. }
  rewrite H. lia.
Qed.
