(** Proofs about rd, fsd, fs_array, pm, pm_roll, get_all_exponents and untangle. *)
From Coq Require Import List Arith Lia Bool Permutation.
From Verif Require Import CombSpec CombModel CombProofs.
Import ListNotations.

(* ---------------------------------------------------- labelings as permutations *)
Fixpoint labels_from (i : nat) (sizes : list nat) : list nat :=
  match sizes with
  | [] => []
  | c :: cs => repeat i c ++ labels_from (S i) cs
  end.

Lemma count_occ_repeat_nat i j c :
  count_occ Nat.eq_dec (repeat i c) j = if i =? j then c else 0.
Proof.
  induction c; simpl; [destruct (i =? j); auto|].
  rewrite IHc. destruct (Nat.eq_dec i j) as [->|H].
  - rewrite Nat.eqb_refl. auto.
  - apply Nat.eqb_neq in H. rewrite H. auto.
Qed.

Lemma count_labels_from i sizes j :
  count_occ Nat.eq_dec (labels_from i sizes) j = if j <? i then 0 else nth (j - i) sizes 0.
Proof.
  revert i; induction sizes as [|c cs IH]; intros i; simpl.
  - destruct (j <? i); auto. destruct (j - i); auto.
  - rewrite count_occ_app, count_occ_repeat_nat, IH.
    destruct (Nat.eqb_spec i j), (Nat.ltb_spec j i), (Nat.ltb_spec j (S i)); try lia.
    + subst. rewrite Nat.sub_diag. lia.
    + replace (j - i) with (S (j - S i)) by lia. auto.
Qed.

Lemma labeling_perm sizes t : labeling sizes t <-> Permutation t (labels_from 0 sizes).
Proof.
  unfold labeling. rewrite (Permutation_count_occ Nat.eq_dec). split; intros H i.
  - rewrite count_labels_from. simpl. rewrite Nat.sub_0_r. auto.
  - rewrite H, count_labels_from. simpl. rewrite Nat.sub_0_r. auto.
Qed.

Definition expand {A} (bs : list A) (sizes : list nat) : list A :=
  concat (map (fun bc => repeat (fst bc) (snd bc)) (List.combine bs sizes)).

Lemma map_labels_from {A} (d : A) pre bs sizes : length bs = length sizes ->
  map (fun i => nth i (pre ++ bs) d) (labels_from (length pre) sizes) = expand bs sizes.
Proof.
  revert pre sizes; induction bs as [|b bs IH]; intros pre [|c cs] H; simpl in *; try lia; auto.
  rewrite map_app. unfold expand. simpl. f_equal.
  - clear. induction c; simpl; auto. f_equal; auto.
    rewrite app_nth2, Nat.sub_diag by lia. auto.
  - specialize (IH (pre ++ [b]) cs). rewrite app_length in IH. simpl in IH.
    rewrite Nat.add_1_r, <- app_assoc in IH. simpl in IH. apply IH. lia.
Qed.

Lemma in_labels_from i sizes j : In j (labels_from i sizes) -> i <= j < i + length sizes.
Proof.
  revert i; induction sizes; intros i H; simpl in *; [tauto|].
  apply in_app_iff in H. destruct H as [H|H].
  - apply repeat_spec in H. lia.
  - apply IHsizes in H. lia.
Qed.

Lemma Forall2_impl_in {A B} (P Q : A -> B -> Prop) l m :
  (forall a b, In b m -> P a b -> Q a b) -> Forall2 P l m -> Forall2 Q l m.
Proof.
  intros H F. induction F; constructor; simpl in *; auto.
Qed.

Theorem arrangement_base {A} (S : A -> A -> Prop) (elems : list (list A * nat)) (bs : list A) p :
  Forall2 (fun e b => forall v, In v (fst e) <-> S v b) elems bs ->
  (arrangement elems p <->
   exists q, Permutation q (expand bs (map snd elems)) /\ Forall2 S p q).
Proof.
  intros HS. assert (Hlen := Forall2_len _ _ _ HS).
  destruct bs as [|d bs'] eqn:Ebs.
  { destruct elems; [|discriminate]. unfold arrangement, expand. simpl. split.
    - intros [t [Ht Hp]]. exists []. split; auto.
      destruct t as [|i t]; [inversion Hp; constructor|].
      specialize (Ht i). simpl in Ht. destruct (Nat.eq_dec i i); [destruct i; lia|tauto].
    - intros [q [Hq Hp]]. apply Permutation_sym, Permutation_nil in Hq. subst. inversion Hp; subst.
      exists []. split; [intros [|i]; auto|constructor]. }
  rewrite <- Ebs in *. clear bs' Ebs.
  assert (Hnth : forall i, i < length elems ->
     forall v, In v (nth i (map fst elems) []) <-> S v (nth i bs d)).
  { clear -HS. induction HS; intros i Hi; simpl in *; [lia|]. destruct i; auto. apply IHHS. lia. }
  assert (Hmap : map (fun i => nth i bs d) (labels_from 0 (map snd elems)) = expand bs (map snd elems)).
  { change (map (fun i => nth i ([] ++ bs) d) (labels_from (length (@nil A)) (map snd elems)) = expand bs (map snd elems)).
    apply map_labels_from. rewrite map_length. auto. }
  unfold arrangement. split.
  - intros [t [Ht Hp]]. exists (map (fun i => nth i bs d) t). split.
    + rewrite <- Hmap. apply Permutation_map. apply labeling_perm. exact Ht.
    + apply (proj2 (Forall2_map_r _ _ _ _)).
      eapply Forall2_impl_in; [|exact Hp]. intros v i Hi Hv. apply Hnth; auto.
      pose proof (labeling_bound _ _ i Ht Hi) as Hb. rewrite map_length in Hb. auto.
  - intros [q [Hq Hp]]. rewrite <- Hmap in Hq. apply Permutation_map_inv in Hq.
    destruct Hq as [t [-> Ht]]. apply Permutation_sym in Ht. exists t. split.
    + apply labeling_perm. auto.
    + apply (proj1 (Forall2_map_r _ _ _ _)) in Hp.
      eapply Forall2_impl_in; [|exact Hp]. intros v i Hi Hv. apply Hnth; auto.
      apply (Permutation_in _ Ht) in Hi. apply in_labels_from in Hi. rewrite map_length in Hi. lia.
Qed.

Lemma Forall2_eq_iff {A} (p q : list A) : Forall2 eq p q <-> p = q.
Proof.
  split; [induction 1; congruence|intros ->; induction q; constructor; auto].
Qed.

(* -------------------------------------------------------------- rd *)
Lemma expand_items {A} (zero : A) n (items : list (A * nat)) (f : A -> list A) :
  expand (map fst items ++ [zero])
    (map snd (map (fun it => (f (fst it), snd it)) items ++ [([zero], n - list_sum (map snd items))]))
  = base_vector zero n items.
Proof.
  unfold base_vector. generalize (n - list_sum (map snd items)) as m. intros m.
  unfold expand. induction items as [|[v c] items IH]; simpl.
  - rewrite app_nil_r. auto.
  - rewrite IH. rewrite app_assoc. auto.
Qed.

Theorem rd_None {A} (zero : A) n items :
  rd zero n items = None <-> (exists it, In it items /\ snd it = 0) \/ n < list_sum (map snd items).
Proof.
  unfold rd. destruct (forallb (fun it => 0 <? snd it) items) eqn:E; simpl.
  - rewrite forallb_forall in E. destruct (Nat.leb_spec (list_sum (map snd items)) n).
    + split; [discriminate|]. intros [[it [Hi Hz]]|Hl]; [|lia].
      apply E in Hi. apply Nat.ltb_lt in Hi. lia.
    + split; auto.
  - split; auto. intros _. left.
    assert (H : exists it, In it items /\ (0 <? snd it) = false).
    { clear -E. induction items; simpl in *; [discriminate|].
      apply andb_false_iff in E. destruct E as [E|E]; [exists a; auto|].
      destruct (IHitems E) as [it [H1 H2]]. exists it; auto. }
    destruct H as [it [H1 H2]]. exists it. split; auto. apply Nat.ltb_ge in H2. lia.
Qed.

Theorem rd_rows {A} (zero : A) n items rows p :
  rd zero n items = Some rows ->
  (In p rows <-> Permutation p (base_vector zero n items)).
Proof.
  unfold rd. destruct (_ && _) eqn:E; [|discriminate]. intros H; injection H as <-.
  apply andb_true_iff in E. destruct E as [_ E]. apply Nat.leb_le in E.
  rewrite in_combine.
  rewrite (arrangement_base eq _ (map fst items ++ [zero])).
  - rewrite (expand_items zero n items (fun x => [x])). split.
    + intros [q [Hq Hp]]. apply Forall2_eq_iff in Hp. subst. auto.
    + intros Hp. exists p. split; auto. apply Forall2_eq_iff. auto.
  - apply Forall2_app.
    + clear. induction items; simpl; constructor; auto. intros v. simpl. split; [intros [->|[]]|intros ->]; auto.
    + constructor; auto. intros v. simpl. split; [intros [->|[]]|intros ->]; auto.
Qed.

Theorem rd_NoDup {A} (zero : A) n items rows :
  rd zero n items = Some rows -> NoDup (zero :: map fst items) -> NoDup rows.
Proof.
  unfold rd. destruct (_ && _) eqn:E; [|discriminate]. intros H Hn; injection H as <-.
  apply NoDup_combine. rewrite map_app, concat_app. simpl.
  replace (concat (map fst (map (fun it => ([fst it], snd it)) items))) with (map fst items).
  - apply (Permutation_NoDup (l := zero :: map fst items)); auto. apply Permutation_cons_append.
  - clear. induction items; simpl; auto. f_equal. auto.
Qed.

Lemma base_vector_length {A} (zero : A) n items :
  list_sum (map snd items) <= n -> length (base_vector zero n items) = n.
Proof.
  intros H. unfold base_vector. rewrite app_length, repeat_length.
  assert (E : length (concat (map (fun it => repeat (fst it) (snd it)) items)) = list_sum (map snd items)).
  { clear. induction items; simpl; auto. rewrite app_length, repeat_length, IHitems. auto. }
  lia.
Qed.

(* -------------------------------------------------------------- fsd / fs_array / pm *)
Section Signs.
  Context {A : Type} (zero : A) (opp : A -> A).
  Context (opp_zero : opp zero = zero).

  Local Notation sign_variant := (sign_variant opp).

  Theorem fsd_None n tuples : fsd zero opp n tuples = None <-> n < list_sum (map snd tuples).
  Proof.
    unfold fsd. destruct (Nat.leb_spec (list_sum (map snd tuples)) n); split; try discriminate; auto; lia.
  Qed.

  Theorem fsd_rows n tuples rows p :
    fsd zero opp n tuples = Some rows ->
    (In p rows <-> exists q, Permutation q (base_vector zero n tuples) /\ sign_variant p q).
  Proof.
    unfold fsd. destruct (Nat.leb_spec (list_sum (map snd tuples)) n); [|discriminate].
    intros E; injection E as <-. rewrite in_combine.
    rewrite (arrangement_base (fun x y => x = y \/ x = opp y) _ (map fst tuples ++ [zero])).
    - rewrite (expand_items zero n tuples (fun x => [x; opp x])). unfold sign_variant. tauto.
    - apply Forall2_app.
      + clear. induction tuples; simpl; constructor; auto. intros v. simpl. intuition congruence.
      + constructor; auto. intros v. simpl. rewrite opp_zero. intuition congruence.
  Qed.

  Theorem fsd_NoDup n tuples rows :
    fsd zero opp n tuples = Some rows ->
    NoDup (zero :: map fst tuples ++ map opp (map fst tuples)) -> NoDup rows.
  Proof.
    unfold fsd. destruct (Nat.leb_spec (list_sum (map snd tuples)) n); [|discriminate].
    intros E Hn; injection E as <-. apply NoDup_combine. rewrite map_app, concat_app. simpl.
    eapply Permutation_NoDup; [|exact Hn].
    etransitivity; [apply Permutation_cons_append|]. apply Permutation_app_tail.
    rewrite map_map. simpl. clear. induction tuples as [|[v c] ts IH]; simpl; auto.
    constructor. etransitivity; [|apply perm_skip; exact IH].
    apply Permutation_sym. apply Permutation_middle.
  Qed.

  Theorem fs_array_rows v p :
    In p (fs_array opp v) <-> exists q, Permutation q v /\ sign_variant p q.
  Proof.
    unfold fs_array. rewrite in_combine.
    rewrite (arrangement_base (fun x y => x = y \/ x = opp y) _ v).
    - replace (expand v (map snd (map (fun vi => ([vi; opp vi], 1)) v))) with v.
      + unfold sign_variant. tauto.
      + unfold expand. clear. induction v; simpl; auto. f_equal. auto.
    - clear. induction v; simpl; constructor; auto. intros w. simpl. intuition congruence.
  Qed.

  Context (eqz : A -> bool).
  Context (eqz_spec : forall x, eqz x = true <-> x = zero).

  Theorem pm_rows v p : In p (pm zero opp eqz v) <-> sign_variant p v.
  Proof.
    unfold pm. rewrite in_product. unfold sign_variant.
    rewrite (Forall2_map_r (fun x l => In x l)).
    assert (E : forall x y, In x (if eqz y then [zero] else [y; opp y]) <-> x = y \/ x = opp y).
    { intros x y. destruct (eqz y) eqn:Q; simpl.
      - apply eqz_spec in Q. subst. rewrite opp_zero. intuition congruence.
      - intuition congruence. }
    split; intros H; induction H; constructor; auto; apply E; auto.
  Qed.

  Theorem pm_NoDup v : (forall x, In x v -> x <> zero -> opp x <> x) -> NoDup (pm zero opp eqz v).
  Proof.
    intros H. unfold pm. apply NoDup_product. apply Forall_forall. intros l Hl.
    apply in_map_iff in Hl. destruct Hl as [x [<- Hx]]. destruct (eqz x) eqn:E.
    - repeat constructor. simpl. tauto.
    - repeat constructor; simpl; [|tauto]. intros [Q|[]]. apply (H x Hx); auto.
      intros ->. assert (eqz zero = true) by (apply eqz_spec; auto). congruence.
  Qed.

  Local Notation num_nonzero := (num_nonzero eqz).

  Theorem pm_length v : length (pm zero opp eqz v) = 2 ^ num_nonzero v.
  Proof.
    unfold pm, num_nonzero. rewrite length_product, map_map. induction v; simpl; auto.
    destruct (eqz a); simpl; rewrite IHv; lia.
  Qed.

  Lemma roll_length {B} i (row : list B) : length (roll i row) = length row.
  Proof. unfold roll. rewrite app_length, skipn_length, firstn_length. lia. Qed.

  (** np.roll: entry j of the result is entry (j - i) mod n of the input. *)
  Lemma nth_roll {B} (d : B) i (row : list B) j : i <= length row -> j < length row ->
    nth j (roll i row) d = nth ((j + length row - i) mod length row) row d.
  Proof.
    intros Hi Hj. unfold roll. set (n := length row) in *.
    destruct (Nat.lt_ge_cases j i).
    - rewrite app_nth1 by (rewrite skipn_length; fold n; lia).
      rewrite Nat.mod_small by lia.
      rewrite <- (firstn_skipn (n - i) row) at 2. rewrite app_nth2; rewrite firstn_length; fold n; [|lia].
      f_equal. lia.
    - rewrite app_nth2 by (rewrite skipn_length; fold n; lia).
      rewrite skipn_length. fold n. replace (j + n - i) with ((j - i) + 1 * n) by lia.
      rewrite Nat.mod_add by lia. rewrite Nat.mod_small by lia.
      rewrite <- (firstn_skipn (n - i) row) at 2. rewrite app_nth1; [f_equal; lia|].
      rewrite firstn_length. fold n. lia.
  Qed.

  Local Notation cyclic_shift := (cyclic_shift zero).

  Lemma cyclic_shift_roll i q p : i < length q -> (cyclic_shift i q p <-> p = roll i q).
  Proof.
    intros Hi. unfold cyclic_shift. split.
    - intros [Hl H]. apply (nth_ext _ _ zero zero).
      + rewrite roll_length. auto.
      + intros j Hj. rewrite H by lia. rewrite nth_roll by lia. auto.
    - intros ->. split; [apply roll_length|]. intros j Hj. apply nth_roll; lia.
  Qed.

  Lemma sign_variant_length p q : sign_variant p q -> length p = length q.
  Proof. apply Forall2_len. Qed.

  Theorem pm_roll_rows v p :
    In p (pm_roll zero opp eqz v) <->
    exists i q, i < length v /\ sign_variant q v /\ cyclic_shift i q p.
  Proof.
    unfold pm_roll. rewrite in_flat_map. split.
    - intros [i [Hi Hp]]. apply in_seq in Hi. apply in_map_iff in Hp. destruct Hp as [q [<- Hq]].
      apply pm_rows in Hq. exists i, q. split; [lia|]. split; auto. apply cyclic_shift_roll; auto.
      rewrite (sign_variant_length _ _ Hq). lia.
    - intros [i [q [Hi [Hq Hp]]]]. exists i. split; [apply in_seq; lia|].
      apply in_map_iff. exists q. split; [|apply pm_rows; auto].
      symmetry. apply cyclic_shift_roll; auto. rewrite (sign_variant_length _ _ Hq). auto.
  Qed.

  Theorem pm_roll_length v : length (pm_roll zero opp eqz v) = 2 ^ num_nonzero v * length v.
  Proof.
    unfold pm_roll. rewrite length_flat_map.
    rewrite (map_ext _ (fun _ => 2 ^ num_nonzero v)).
    - generalize (2 ^ num_nonzero v) as c. intros c. rewrite <- (seq_length (length v) 0) at 2.
      generalize (seq 0 (length v)) as l. induction l; simpl; [lia|]. unfold list_sum in *. lia.
    - intros i. rewrite map_length. apply pm_length.
  Qed.
End Signs.

(* -------------------------------------------------------------- get_all_exponents *)
Lemma enumerates_zero dim : enumerates [repeat 0 dim] dim 0.
Proof.
  split; [repeat constructor; simpl; tauto|]. intros k; simpl. split.
  - intros [<-|[]]. rewrite repeat_length. split; auto. induction dim; simpl; auto.
  - intros [Hl Hs]. left. revert k Hl Hs. induction dim; intros [|a k] Hl Hs; simpl in *; try lia; auto.
    unfold list_sum in *. f_equal; [lia|]. apply IHdim; lia.
Qed.

Lemma augment_enumerates dim d L : enumerates L dim d -> enumerates (augment dim L) dim (S d).
Proof.
  revert d L. induction dim as [|m IH]; intros d L [Hn H].
  - simpl. split; [constructor|]. intros k. split; [intros []|]. intros [Hl Hs].
    destruct k; simpl in *; lia.
  - assert (Hne : L <> []).
    { intros ->. destruct (H (d :: repeat 0 m)) as [_ Q].
      apply Q. simpl. rewrite repeat_length. split; auto.
      assert (list_sum (repeat 0 m) = 0) by (clear; induction m; auto).
      unfold list_sum in *. lia. }
    set (W := map (@tl nat) (filter (fun e => match e with 0 :: _ => true | _ => false end) L)).
    assert (HW : enumerates W m d).
    { split.
      - unfold W. apply NoDup_map_inj; [|apply NoDup_filter; auto].
        intros x y Hx Hy E. apply filter_In in Hx, Hy. destruct Hx as [_ Hx], Hy as [_ Hy].
        destruct x as [|[|]], y as [|[|]]; try discriminate. simpl in E. congruence.
      - intros k. unfold W. rewrite in_map_iff. split.
        + intros [x [<- Hx]]. apply filter_In in Hx. destruct Hx as [Hx Hz]. apply H in Hx.
          destruct x as [|[|a] x]; try discriminate. simpl in *. unfold list_sum in *. simpl in *. lia.
        + intros [Hl Hs]. exists (0 :: k). split; auto. apply filter_In. split; auto.
          apply H. simpl. unfold list_sum in *. simpl. lia. }
    assert (E : augment (S m) L =
       map (fun e => match e with a :: e' => S a :: e' | [] => [] end) L ++ map (cons 0) (augment m W)).
    { destruct L; [tauto|]. reflexivity. }
    rewrite E. destruct (IH d W HW) as [Hn1 H1]. split.
    + apply NoDup_app_intro.
      * apply NoDup_map_inj; auto. intros x y Hx Hy Q. apply H in Hx, Hy.
        destruct x, y; simpl in *; try lia; congruence.
      * apply NoDup_map_inj; auto. congruence.
      * intros x Hx Hx'. apply in_map_iff in Hx, Hx'. destruct Hx as [y [<- Hy]], Hx' as [y' [Q _]].
        apply H in Hy. destruct y; simpl in *; [lia|discriminate].
    + intros k. rewrite in_app_iff, !in_map_iff. split.
      * intros [[x [<- Hx]]|[x [<- Hx]]].
        -- apply H in Hx. destruct x; simpl in *; unfold list_sum in *; simpl in *; lia.
        -- apply H1 in Hx. simpl. unfold list_sum in *. simpl. lia.
      * intros [Hl Hs]. destruct k as [|[|a] k]; simpl in *; [lia| |].
        -- right. exists k. split; auto. apply H1. unfold list_sum in *. simpl in Hs. lia.
        -- left. exists (a :: k). split; auto. apply H. unfold list_sum in *. simpl in *. lia.
Qed.

Lemma exponent_levels_spec steps : forall dim L d, enumerates L dim d ->
  length (exponent_levels dim L steps) = S steps /\
  forall j, j <= steps -> enumerates (nth j (exponent_levels dim L steps) []) dim (d + j).
Proof.
  induction steps as [|s IH]; intros dim L d H.
  - split; auto. intros j Hj. replace j with 0 by lia. simpl. rewrite Nat.add_0_r. auto.
  - destruct (IH dim (augment dim L) (S d) (augment_enumerates _ _ _ H)) as [Hl He]. split.
    + simpl. rewrite Hl. auto.
    + intros [|j] Hj; simpl; [rewrite Nat.add_0_r; auto|].
      replace (d + S j) with (S d + j) by lia. apply He. lia.
Qed.

Theorem get_all_exponents_length dim m : length (get_all_exponents dim m) = S m.
Proof. apply (exponent_levels_spec m dim _ 0). apply enumerates_zero. Qed.

Theorem get_all_exponents_level dim m d : d <= m ->
  enumerates (nth d (get_all_exponents dim m) []) dim d.
Proof. intros H. apply (exponent_levels_spec m dim _ 0); auto. apply enumerates_zero. Qed.

(* -------------------------------------------------------------- untangle *)
Lemma combine_app_len {A B} (l1 l2 : list A) (m1 m2 : list B) : length l1 = length m1 ->
  List.combine (l1 ++ l2) (m1 ++ m2) = List.combine l1 m1 ++ List.combine l2 m2.
Proof. revert m1; induction l1; intros [|b m1] H; simpl in *; try lia; auto. f_equal; auto. Qed.

Theorem untangle_pairs {W P} (data : list (W * list P)) points weights :
  untangle data = (points, weights) ->
  length points = length weights /\
  List.combine weights points = flat_map (fun g => map (fun p => (fst g, p)) (snd g)) data.
Proof.
  unfold untangle. intros E. injection E as <- <-. induction data as [|[w ps] data [IH1 IH2]]; simpl; auto.
  rewrite !app_length, repeat_length. split; [lia|].
  rewrite combine_app_len by (rewrite repeat_length; auto).
  rewrite IH2. f_equal. clear. induction ps; simpl; auto. f_equal; auto.
Qed.
