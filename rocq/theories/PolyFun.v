(** Functions on R^n given by polynomials: closure under sums, products and polynomial substitution. *)
From Coq Require Import Reals List Arith Lia Lra.
From Verif Require Import Spec RsumLemmas TnModel2 SilProofs.
Import ListNotations.
Open Scope R_scope.

(** f agrees on R^n with a polynomial of total degree at most d. *)
Definition polyfun (n d : nat) (f : point -> R) : Prop :=
  exists p, mp_ok n d p /\ forall x, length x = n -> f x = mpeval p x.

Lemma polyfun_ext n d f g : (forall x, length x = n -> f x = g x) -> polyfun n d f -> polyfun n d g.
Proof. intros H [p [Hp E]]. exists p. split; auto. intros x Hx. rewrite <- H; auto. Qed.
Lemma mp_ok_le n d d' p : (d <= d')%nat -> mp_ok n d p -> mp_ok n d' p.
Proof. intros Hd H. unfold mp_ok in *. eapply Forall_impl; [|exact H]. cbn. intros ? []. split; lia. Qed.
Lemma polyfun_le n d d' f : (d <= d')%nat -> polyfun n d f -> polyfun n d' f.
Proof. intros Hd [p [Hp E]]. exists p. split; auto. apply (mp_ok_le n d); auto. Qed.
Lemma polyfun_mpeval n d p : mp_ok n d p -> polyfun n d (mpeval p).
Proof. intros H. exists p. auto. Qed.
Lemma polyfun_mono n k : length k = n -> polyfun n (tdeg k) (mono k).
Proof.
  intros H. exists [(1, k)]. split; [repeat constructor; auto|]. intros x _. unfold mpeval. cbn. ring.
Qed.
Lemma mono_zero n : forall x, mono (repeat 0%nat n) x = 1.
Proof. induction n; intros [|t x]; cbn; auto. rewrite IHn. ring. Qed.
Lemma tdeg_zero n : tdeg (repeat 0%nat n) = 0%nat.
Proof. unfold tdeg. induction n; cbn; auto. Qed.
Lemma polyfun_const n d c : polyfun n d (fun _ => c).
Proof.
  exists [(c, repeat 0%nat n)]. split; [constructor; [|constructor]; cbn; rewrite repeat_length, tdeg_zero; lia|].
  intros x _. unfold mpeval. cbn. rewrite mono_zero. ring.
Qed.
Lemma polyfun_add n d f g : polyfun n d f -> polyfun n d g -> polyfun n d (fun x => f x + g x).
Proof.
  intros [p [Hp E]] [q [Hq F]]. exists (p ++ q). split; [apply Forall_app; auto|].
  intros x Hx. unfold mpeval in *. rewrite map_app, Rsum_app, E, F; auto.
Qed.
Lemma tdeg_addk a : forall b, length a = length b -> tdeg (addk a b) = (tdeg a + tdeg b)%nat.
Proof.
  unfold tdeg, addk, list_sum. induction a as [|i a IH]; intros [|j b] H; try discriminate; auto. injection H as H. cbn [map List.combine fold_right fst snd]. rewrite (IH b H). lia.
Qed.
Lemma mp_ok_len n d p : mp_ok n d p -> mp_len n p.
Proof. intros H. eapply Forall_impl; [|exact H]. cbn. intros ? []; auto. Qed.
Lemma polyfun_mul n d e f g : polyfun n d f -> polyfun n e g -> polyfun n (d + e) (fun x => f x * g x).
Proof.
  intros [p [Hp E]] [q [Hq F]]. exists (mp_mul p q). split.
  - unfold mp_ok in *. rewrite Forall_forall in *. intros ck Hc. apply in_flat_map in Hc. destruct Hc as [a [Ha Hc]].
    apply in_map_iff in Hc. destruct Hc as [b [<- Hb]]. cbn [snd]. fold (addk (snd a) (snd b)).
    destruct (Hp a Ha), (Hq b Hb). split; [apply addk_length; auto|]. rewrite tdeg_addk by lia. lia.
  - intros x Hx. rewrite (mpeval_mul n) by eauto using mp_ok_len. rewrite E, F; auto.
Qed.
Lemma polyfun_scal n d c f : polyfun n d f -> polyfun n d (fun x => c * f x).
Proof. intros H. apply (polyfun_mul n 0 d (fun _ => c) f); auto. apply polyfun_const. Qed.
Lemma polyfun_sum {A} n d (l : list A) (f : A -> point -> R) : (forall a, In a l -> polyfun n d (f a)) ->
  polyfun n d (fun x => Rsum (map (fun a => f a x) l)).
Proof.
  induction l as [|a l IH]; intros H; [apply (polyfun_const n d 0)|]. cbn.
  apply polyfun_add; [apply H; left; auto|apply IH; intros; apply H; right; auto].
Qed.
Lemma polyfun_pow n f k : polyfun n 1 f -> polyfun n k (fun x => f x ^ k).
Proof.
  intros H. induction k as [|k IH]; [apply (polyfun_const n 0 1)|]. apply (polyfun_mul n 1 k); auto.
Qed.
Lemma mono_coord n i : forall x : point, (i < n)%nat -> length x = n ->
  mono (map (fun j => if Nat.eq_dec i j then 1%nat else 0%nat) (seq 0 n)) x = nth i x 0.
Proof.
  enough (G : forall n a i (x : point), (i < n)%nat -> length x = n ->
    mono (map (fun j => if Nat.eq_dec (a + i) j then 1%nat else 0%nat) (seq a n)) x = nth i x 0) by (intros x; apply (G n 0%nat)).
  clear. induction n as [|n IH]; intros a i x Hi Hx; [lia|]. destruct x as [|t x]; [discriminate|]. cbn [seq map mono nth].
  destruct i as [|i].
  - destruct (Nat.eq_dec (a + 0) a) as [_|N]; [|lia]. 
    replace (mono _ x) with 1; [cbn; ring|]. symmetry. rewrite (map_ext_in _ (fun _ => 0%nat)).
    + clear. generalize (S a). revert x. induction n; intros [|t x] b; cbn; auto. rewrite IHn. ring.
    + intros j Hj. apply in_seq in Hj. destruct (Nat.eq_dec (a + 0) j); lia.
  - destruct (Nat.eq_dec (a + S i) a); [lia|]. rewrite pow_O, Rmult_1_l. rewrite <- (IH (S a) i x) by (cbn in Hx; lia).
    f_equal. apply map_ext. intros j. replace (S a + i)%nat with (a + S i)%nat by lia. auto.
Qed.
Lemma polyfun_coord n i : (i < n)%nat -> polyfun n 1 (fun x => nth i x 0).
Proof.
  intros Hi. set (k := map (fun j => if Nat.eq_dec i j then 1%nat else 0%nat) (seq 0 n)).
  apply (polyfun_ext n 1 (mono k)); [intros x Hx; apply mono_coord; auto|].
  apply (polyfun_le n (tdeg k)); [|apply polyfun_mono; unfold k; rewrite map_length, seq_length; auto].
  unfold k. clear. unfold tdeg, list_sum. assert (G : forall a, (fold_right Nat.add 0%nat (map (fun j => if Nat.eq_dec i j then 1%nat else 0%nat) (seq a n)) <= 1)%nat).
  { intros a. destruct (le_lt_dec a i) as [H|H].
    - revert a H. induction n as [|n IH]; intros a H; cbn [seq map fold_right]; [lia|]. destruct (Nat.eq_dec i a).
      + replace (fold_right _ _ _) with 0%nat; [lia|]. symmetry. rewrite (map_ext_in _ (fun _ => 0%nat)).
        * generalize (S a). clear. induction n; intros b; cbn; auto.
        * intros j Hj. apply in_seq in Hj. destruct (Nat.eq_dec i j); lia.
      + specialize (IH (S a)). lia.
    - replace (fold_right _ _ _) with 0%nat; [lia|]. symmetry. rewrite (map_ext_in _ (fun _ => 0%nat)).
      * generalize a. clear. induction n; intros b; cbn; auto.
      * intros j Hj. apply in_seq in Hj. destruct (Nat.eq_dec i j); lia. }
  apply (G 0%nat).
Qed.
(** Substituting m affine functions of n variables into a polynomial in m variables. *)
Lemma polyfun_mono_comp n (L : list (point -> R)) : Forall (polyfun n 1) L -> forall k, length k = length L ->
  polyfun n (tdeg k) (fun x => mono k (map (fun l => l x) L)).
Proof.
  induction 1 as [|l L Hl HL IH]; intros [|a k] Hk; try discriminate; cbn [mono map]; [apply (polyfun_const n 0 1)|].
  apply (polyfun_mul n a (tdeg k)); [apply polyfun_pow; auto|apply IH; auto].
Qed.
Theorem polyfun_comp n m d (L : list (point -> R)) f : length L = m -> Forall (polyfun n 1) L -> polyfun m d f ->
  polyfun n d (fun x => f (map (fun l => l x) L)).
Proof.
  intros Hm HL [p [Hp E]]. apply (polyfun_ext n d (fun x => mpeval p (map (fun l => l x) L))).
  - intros x Hx. rewrite E; auto. rewrite map_length. auto.
  - unfold mpeval. apply (polyfun_sum n d p (fun ck x => fst ck * mono (snd ck) (map (fun l => l x) L))).
    intros ck Hc. unfold mp_ok in Hp. rewrite Forall_forall in Hp. destruct (Hp _ Hc).
    apply polyfun_scal. apply (polyfun_le n (tdeg (snd ck))); auto. apply polyfun_mono_comp; auto. lia.
Qed.
(** A rule and a functional that agree on monomials agree on polynomial functions. *)
Lemma apply_polyfun_ext n q f g : points_in_dim n q -> (forall x, length x = n -> f x = g x) -> apply q f = apply q g.
Proof.
  intros Hq H. unfold apply. apply Rsum_map_ext. intros wp Hin. unfold points_in_dim in Hq. rewrite Forall_forall in Hq.
  rewrite H; auto.
Qed.
