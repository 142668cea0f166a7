(** Exactness of permutation-invariant rules reduces to finitely many canonical exponents,
    for every dimension n. *)
From Coq Require Import Reals List Arith Lia Lra Permutation Bool.
From Verif Require Import Spec RsumLemmas CombModel CombProofs Moments.
Import ListNotations.
Open Scope R_scope.

(* ----------------------------------------------- canonical exponent vectors *)
(** Non-increasing lists of positive numbers, each at most [mx], with sum at most [d]. *)
Fixpoint parts_fuel (f d mx : nat) : list (list nat) :=
  [] :: match f with
        | O => []
        | S f' => flat_map (fun a => map (cons a) (parts_fuel f' (d - a) a)) (seq 1 (Nat.min mx d))
        end.
Definition parts (d : nat) : list (list nat) := parts_fuel d d d.
Definition eparts (d : nat) : list (list nat) := filter (forallb Nat.even) (parts d).

Inductive desc : nat -> list nat -> Prop :=
| desc_nil : forall m, desc m []
| desc_cons : forall m a l, (0 < a <= m)%nat -> desc a l -> desc m (a :: l).

Lemma parts_fuel_complete f : forall d mx l, desc mx l -> (list_sum l <= d)%nat -> (d <= f)%nat ->
  In l (parts_fuel f d mx).
Proof.
  induction f as [|f IH]; intros d mx l H Hs Hf.
  - inversion H; subst; simpl; auto. unfold list_sum in Hs. simpl in Hs. lia.
  - inversion H as [|? a l' Ha Hl]; subst; [left; auto|]. right.
    change (list_sum (a :: l')) with (a + list_sum l')%nat in Hs.
    apply in_flat_map. exists a. split; [apply in_seq; lia|].
    apply in_map. apply IH; auto; lia.
Qed.

Lemma parts_complete d l : desc d l -> (list_sum l <= d)%nat -> In l (parts d).
Proof. intros. apply parts_fuel_complete; auto. Qed.

Fixpoint insert (a : nat) (l : list nat) : list nat :=
  match l with
  | [] => [a]
  | b :: l' => if (b <=? a)%nat then a :: b :: l' else b :: insert a l'
  end.

Lemma insert_perm a l : Permutation (a :: l) (insert a l).
Proof.
  induction l as [|b l IH]; simpl; auto. destruct (b <=? a)%nat; auto.
  etransitivity; [apply perm_swap|]. constructor. auto.
Qed.

Lemma desc_le m m' l : desc m l -> (m <= m')%nat -> desc m' l.
Proof. intros H Hm. inversion H; subst; constructor; auto; lia. Qed.

Lemma insert_desc a l m : (0 < a <= m)%nat -> desc m l -> desc m (insert a l).
Proof.
  revert m. induction l as [|b l IH]; intros m Ha H; simpl.
  - repeat constructor; lia.
  - inversion H; subst. destruct (Nat.leb_spec b a).
    + constructor; auto. constructor; auto. lia.
    + constructor; auto. apply IH; auto. lia.
Qed.

Lemma canon_exists k d : (tdeg k <= d)%nat ->
  exists l m, Permutation k (l ++ repeat 0%nat m) /\ desc d l.
Proof.
  revert d. induction k as [|a k IH]; intros d H.
  - exists [], 0%nat. split; constructor.
  - unfold tdeg in *. change (list_sum (a :: k)) with (a + list_sum k)%nat in H.
    destruct (IH d) as [l [m [Hp Hd]]]; [lia|].
    destruct a as [|a].
    + exists l, (S m). split; auto. simpl.
      etransitivity; [apply perm_skip; exact Hp|]. apply Permutation_middle.
    + exists (insert (S a) l), m. split.
      * etransitivity; [apply perm_skip; exact Hp|].
        rewrite app_comm_cons. apply Permutation_app_tail. apply insert_perm.
      * apply insert_desc; auto. lia.
Qed.

Lemma reduce_canon n d (P : list nat -> Prop) :
  (forall k k', Permutation k k' -> length k = n -> P k -> P k') ->
  (forall l m, In l (parts d) -> (length l + m)%nat = n -> P (l ++ repeat 0%nat m)) ->
  forall k, length k = n -> (tdeg k <= d)%nat -> P k.
Proof.
  intros HP Hc k Hl Hk. destruct (canon_exists k d Hk) as [l [m [Hp Hd]]].
  assert (Hlen := Permutation_length Hp). rewrite app_length, repeat_length in Hlen.
  apply (HP (l ++ repeat 0%nat m)).
  - apply Permutation_sym. auto.
  - rewrite app_length, repeat_length. lia.
  - apply Hc; [|lia]. apply parts_complete; auto.
    assert (E := tdeg_perm _ _ Hp). rewrite tdeg_app, tdeg_zeros in E. unfold tdeg in *. lia.
Qed.

(* ----------------------------------------------- permutation-invariant rules *)
(** A group: common weight and the [combine] argument describing its points. *)
Definition group := (R * list (list R * nat))%type.

Definition sym_rule (gs : list group) : rule :=
  flat_map (fun g => map (fun p => (fst g, p)) (combine (snd g))) gs.

Definition ok_group (n : nat) (g : group) : Prop :=
  list_sum (map snd (snd g)) = n /\ forall e, In e (snd g) -> fst e <> [].

Definition gnum (g : group) : R := INR (length (combine (snd g))).
Definition gavg (g : group) (N : R) (l : list nat) : R := avg (emeans (snd g)) (ecounts (snd g)) N l.

Lemma apply_sym_rule gs f :
  apply (sym_rule gs) f = Rsum (map (fun g => fst g * Rsum (map f (combine (snd g)))) gs).
Proof.
  unfold apply, sym_rule. rewrite Rsum_map_flat_map. apply Rsum_map_ext. intros [w e] _. simpl.
  rewrite map_map. simpl. rewrite Rsum_map_scal. auto.
Qed.

Lemma sym_rule_dim n gs : (forall g, In g gs -> ok_group n g) -> points_in_dim n (sym_rule gs).
Proof.
  intros H. unfold points_in_dim, sym_rule. apply Forall_forall. intros [w p] Hin.
  apply in_flat_map in Hin. destruct Hin as [g [Hg Hp]]. apply in_map_iff in Hp.
  destruct Hp as [p' [E Hp]]. injection E as <- <-. simpl.
  rewrite (combine_row_length _ _ Hp). apply H. auto.
Qed.

Lemma sym_rule_moment n gs l m :
  (forall g, In g gs -> ok_group n g) -> (length l + m)%nat = n ->
  apply (sym_rule gs) (mono (l ++ repeat 0%nat m)) =
  Rsum (map (fun g => fst g * (gnum g * gavg g (INR n) l)) gs).
Proof.
  intros H Hl. rewrite apply_sym_rule. apply Rsum_map_ext. intros g Hg.
  destruct (H g Hg) as [Hs Hne]. rewrite combine_moment_canon by (auto; lia).
  rewrite Hl. auto.
Qed.

Lemma sym_rule_perm n gs k k' :
  (forall g, In g gs -> ok_group n g) -> Permutation k k' -> length k = n ->
  apply (sym_rule gs) (mono k) = apply (sym_rule gs) (mono k').
Proof.
  intros H Hp Hk. rewrite !apply_sym_rule. apply Rsum_map_ext. intros g Hg. f_equal.
  destruct (H g Hg) as [Hs Hne]. apply combine_moment_perm; auto. lia.
Qed.

Theorem sym_exact n d I gs :
  (forall g, In g gs -> ok_group n g) ->
  (forall k k', Permutation k k' -> length k = n -> I k = I k') ->
  (forall l m, In l (parts d) -> (length l + m)%nat = n ->
     Rsum (map (fun g => fst g * (gnum g * gavg g (INR n) l)) gs) = I (l ++ repeat 0%nat m)) ->
  exact n d I (sym_rule gs).
Proof.
  intros Hg HI H. split; [apply sym_rule_dim; auto|].
  apply (reduce_canon n d (fun k => apply (sym_rule gs) (mono k) = I k)).
  - intros k k' Hp Hl E. rewrite <- (sym_rule_perm n gs k k') by auto. rewrite E. auto.
  - intros l m Hl Hn. rewrite (sym_rule_moment n) by auto. auto.
Qed.

(** Central symmetry in every class kills odd exponents. *)
Definition even_group (g : group) : Prop :=
  forall e a, In e (snd g) -> Nat.odd a = true -> mean (fst e) a = 0.

Lemma avg_odd mus l : (forall i a, Nat.odd a = true -> nth i mus (fun _ => 0) a = 0) ->
  existsb Nat.odd l = true -> forall cs N, avg mus cs N l = 0.
Proof.
  intros Hm. induction l as [|a l IH]; intros Ho cs N; simpl in *; [discriminate|].
  apply Rsum_map_zero. intros i _. destruct (Nat.odd a) eqn:E.
  - rewrite Hm by auto. ring.
  - rewrite IH by auto. ring.
Qed.

Theorem sym_exact_even n d I gs :
  (forall g, In g gs -> ok_group n g) ->
  (forall g, In g gs -> even_group g) ->
  (forall k k', Permutation k k' -> length k = n -> I k = I k') ->
  (forall k, length k = n -> existsb Nat.odd k = true -> I k = 0) ->
  (forall l m, In l (eparts d) -> (length l + m)%nat = n ->
     Rsum (map (fun g => fst g * (gnum g * gavg g (INR n) l)) gs) = I (l ++ repeat 0%nat m)) ->
  exact n d I (sym_rule gs).
Proof.
  intros Hg He HI Ho H. apply sym_exact; auto. intros l m Hl Hn.
  destruct (existsb Nat.odd l) eqn:E.
  - rewrite (Ho (l ++ repeat 0%nat m)).
    + apply Rsum_map_zero. intros g Hin. unfold gavg. rewrite avg_odd; [ring| |auto].
      intros i a Ha. unfold emeans.
      destruct (Nat.lt_ge_cases i (length (snd g))).
      * rewrite (nth_indep _ (fun _ => 0) (mean (fst (@nil R, 0%nat)))) by (rewrite map_length; auto).
        rewrite (map_nth (fun e : list R * nat => mean (fst e))).
        apply (He g); auto. apply nth_In. auto.
      * rewrite nth_overflow by (rewrite map_length; lia). auto.
    + rewrite app_length, repeat_length. auto.
    + rewrite existsb_app, E. auto.
  - apply H; auto. unfold eparts. apply filter_In. split; auto.
    clear -E. induction l as [|a l IH]; simpl in *; auto.
    apply orb_false_iff in E. destruct E as [E1 E2]. rewrite IH by auto.
    rewrite <- Nat.negb_odd, E1. auto.
Qed.

(* ----------------------------------------------- means of +-r and of 0 *)
Lemma mean_pm_odd r a : Nat.odd a = true -> mean [r; - r] a = 0.
Proof.
  intros H. unfold mean, psum. cbn [map Rsum length].
  apply Nat.odd_spec in H. destruct H as [b ->].
  rewrite !pow_add, !pow_mult. replace ((- r) ^ 2) with (r ^ 2) by ring. simpl INR. field.
Qed.

Lemma mean_pm_even r b : mean [r; - r] (2 * b) = (r * r) ^ b.
Proof.
  unfold mean, psum. cbn [map Rsum length]. rewrite !pow_mult.
  replace ((- r) ^ 2) with (r * r) by ring. replace (r ^ 2) with (r * r) by ring. simpl INR. field.
Qed.

Lemma mean_single v a : mean [v] a = v ^ a.
Proof. unfold mean, psum. simpl. field. Qed.

Lemma mean_0_odd a : Nat.odd a = true -> mean [0] a = 0.
Proof. intros H. rewrite mean_single. apply pow_ne_zero. destruct a; discriminate. Qed.

(* ----------------------------------------------- number of points *)
(** Falling factorial x (x-1) ... (x-c+1). *)
Fixpoint ffR (c : nat) (x : R) : R :=
  match c with O => 1 | S c' => x * ffR c' (x - 1) end.

Lemma fact_ffR c : forall n, (c <= n)%nat -> INR (fact n) = ffR c (INR n) * INR (fact (n - c)).
Proof.
  induction c as [|c IH]; intros n H; simpl ffR.
  - rewrite Nat.sub_0_r. ring.
  - destruct n as [|n]; [lia|]. change (fact (S n)) with (S n * fact n)%nat.
    rewrite mult_INR, (IH n) by lia. rewrite S_INR. replace (INR n + 1 - 1) with (INR n) by ring.
    simpl Nat.sub. ring.
Qed.

Lemma prodfact_app s1 s2 : prodfact (s1 ++ s2) = (prodfact s1 * prodfact s2)%nat.
Proof. induction s1; simpl; auto. rewrite IHs1. lia. Qed.

Lemma prodpow_app s1 s2 : prodpow (s1 ++ s2) = (prodpow s1 * prodpow s2)%nat.
Proof. induction s1 as [|[b c] s1 IH]; simpl; auto. rewrite IH. lia. Qed.

(** One large class (v0, n - c) after the small classes. *)
Theorem gnum_big w n (small : list (list R * nat)) v0 :
  (list_sum (map snd small) <= n)%nat ->
  gnum (w, small ++ [(v0, (n - list_sum (map snd small))%nat)]) =
  ffR (list_sum (map snd small)) (INR n) / INR (prodfact (map snd small)) *
  INR (prodpow (map (fun e => (length (fst e), snd e)) small)) *
  INR (length v0) ^ (n - list_sum (map snd small)).
Proof.
  intros H. unfold gnum. cbn [fst snd]. set (c := list_sum (map snd small)) in *.
  assert (L := length_combine (small ++ [(v0, (n - c)%nat)])).
  apply (f_equal INR) in L. rewrite !mult_INR in L.
  rewrite !map_app in L. rewrite list_sum_app, prodfact_app, prodpow_app in L.
  fold c in L. simpl in L. rewrite !Nat.add_0_r, !Nat.mul_1_r in L.
  replace (c + (n - c))%nat with n in L by lia.
  rewrite (fact_ffR c n) in L by auto. rewrite !mult_INR, pow_INR in L.
  assert (F1 : INR (fact (n - c)) <> 0) by apply INR_fact_neq_0.
  assert (F2 : INR (prodfact (map snd small)) <> 0).
  { apply not_0_INR. pose proof (prodfact_pos (map snd small)). lia. }
  apply (Rmult_eq_reg_r (INR (prodfact (map snd small)) * INR (fact (n - c)))).
  - rewrite L. field. auto.
  - apply Rmult_integral_contrapositive. auto.
Qed.
