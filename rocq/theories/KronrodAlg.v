(** Laurie's algorithm (KronrodModel.r_kronrod): the table of mixed moments it fills. *)
From Coq Require Import Reals List Arith ZArith Bool Lia Lra.
From Verif Require Import Spec RsumLemmas PyBase KronrodModel.
Import ListNotations.
Set Bullet Behavior "Strict Subproofs".
Open Scope R_scope.

Notation rset := (@set R).
Notation rset_many := (@set_many R).
Notation rcumsum := (cumsum Rplus).
Notation east := (eastward Rplus Rminus Rmult).
Notation south := (southward 0 Rplus Rminus Rmult rdiv).

(* ------------------------------------------------------------------ arrays *)
Lemma set_many_other v is : forall xs i, ~ In i is -> rset_many v is xs i = v i.
Proof.
  unfold set_many. revert v. induction is as [|j is IH]; intros v xs i H; [auto|]. destruct xs as [|x xs]; [auto|]. cbn [List.combine fold_left fst snd].
  rewrite IH by (intros K; apply H; right; auto). unfold set. destruct (Nat.eqb_spec i j) as [->|]; auto. exfalso. apply H. left; auto.
Qed.
Lemma set_many_nth v is : forall xs i, NoDup is -> (i < length is)%nat -> length xs = length is -> rset_many v is xs (nth i is 0%nat) = nth i xs 0.
Proof.
  revert v. induction is as [|j is IH]; intros v xs i Hn Hi L; [cbn in Hi; lia|]. destruct xs as [|x xs]; [discriminate L|]. inversion Hn as [|? ? Hj Hn']; subst.
  change (rset_many v (j :: is) (x :: xs)) with (rset_many (rset v j x) is xs). destruct i as [|i]; cbn [nth].
  - rewrite set_many_other by auto. unfold set. rewrite Nat.eqb_refl. auto.
  - cbn [length] in Hi, L. apply IH; auto; lia.
Qed.
Lemma cumsum_from_length l : forall acc, length (cumsum_from Rplus acc l) = length l.
Proof. induction l as [|x l IH]; intros acc; cbn; auto. Qed.
Lemma cumsum_length l : length (rcumsum l) = length l.
Proof. destruct l; cbn; auto. rewrite cumsum_from_length. auto. Qed.
Lemma cumsum_0 l : nth 0 (rcumsum l) 0 = nth 0 l 0.
Proof. destruct l; auto. Qed.
Lemma cumsum_from_S l : forall acc i, (i < length l)%nat -> nth i (cumsum_from Rplus acc l) 0 = nth i (acc :: cumsum_from Rplus acc l) 0 + nth i l 0.
Proof.
  induction l as [|x l IH]; intros acc i Hi; [cbn in Hi; lia|]. destruct i as [|i]; [reflexivity|]. cbn [cumsum_from nth]. cbn [length] in Hi. rewrite IH by lia. reflexivity.
Qed.
Lemma cumsum_S l i : (S i < length l)%nat -> nth (S i) (rcumsum l) 0 = nth i (rcumsum l) 0 + nth (S i) l 0.
Proof. destruct l as [|x l]; intros H; [cbn in H; lia|]. cbn [length] in H. cbn [cumsum]. rewrite (cumsum_from_S l x i ltac:(lia) : nth (S i) (x :: cumsum_from Rplus x l) 0 = _). reflexivity. Qed.
Lemma nth_map_R {A} (f : A -> R) l i d : (i < length l)%nat -> nth i (map f l) 0 = f (nth i l d).
Proof. intros H. rewrite (nth_indep _ 0 (f d)) by (rewrite map_length; auto). apply map_nth. Qed.
Lemma nth_map_nat {A} (f : A -> nat) l i d : (i < length l)%nat -> nth i (map f l) 0%nat = f (nth i l d).
Proof. intros H. rewrite (nth_indep _ 0%nat (f d)) by (rewrite map_length; auto). apply map_nth. Qed.

(** Writing a cumulative sum at increasing positions. *)
Lemma write_cumsum v ks (pos : nat -> nat) (term : nat -> R) : NoDup (map pos ks) ->
  let v' := rset_many v (map pos ks) (rcumsum (map term ks)) in
  (forall i, ~ In i (map pos ks) -> v' i = v i) /\
  (forall i, (i < length ks)%nat -> v' (pos (nth i ks 0%nat)) = (match i with O => 0 | S i' => v' (pos (nth i' ks 0%nat)) end) + term (nth i ks 0%nat)).
Proof.
  intros Hn v'. split; [intros i Hi; apply set_many_other; auto|].
  assert (G : forall i, (i < length ks)%nat -> v' (pos (nth i ks 0%nat)) = nth i (rcumsum (map term ks)) 0).
  { intros i Hi. unfold v'. rewrite <- (nth_map_nat pos ks i 0%nat Hi). apply set_many_nth; auto; rewrite ?cumsum_length, !map_length; auto. }
  intros i Hi. rewrite G by auto. destruct i as [|i].
  - rewrite cumsum_0, (nth_map_R term ks 0 0%nat) by auto. ring.
  - rewrite cumsum_S by (rewrite map_length; auto). rewrite (G i) by lia. rewrite (nth_map_R term ks (S i) 0%nat) by auto. auto.
Qed.

(* ------------------------------------------------------------------ the first loop *)
Section East.
Context (n : nat) (a b : nat -> R).
Definition est (m : nat) : (nat -> R) * (nat -> R) :=
  fold_left (fun st m => east n a b m st) (seq 0 m) ((fun _ => 0), rset (fun _ => 0) 1 (b (n + 1)%nat)).
Lemma est_S m : est (S m) = east n a b m (est m).
Proof. unfold est. rewrite seq_S, fold_left_app. reflexivity. Qed.
Definition X (m : nat) : nat -> R := snd (est m).
(** The antidiagonal before the m-th one. *)
Definition Xp (m : nat) : nat -> R := match m with O => fun _ => 0 | S m' => X m' end.
Lemma est_pair m : est m = (Xp m, X m).
Proof. destruct m as [|m]; [reflexivity|]. unfold Xp, X. rewrite est_S. destruct (est m) as [s t]. reflexivity. Qed.
Lemma X_S m : X (S m) = rset_many (Xp m) (map (fun k => (k + 1)%nat) (rev (seq 0 (S ((m + 1) / 2)))))
    (rcumsum (map (fun k => (a (k + n + 1)%nat - a (m - k)%nat) * X m (k + 1)%nat + b (k + n + 1)%nat * Xp m k - b (m - k)%nat * Xp m (k + 1)%nat) (rev (seq 0 (S ((m + 1) / 2)))))).
Proof. unfold X at 1. rewrite est_S, est_pair. reflexivity. Qed.
Lemma rev_seq_nth k0 i : (i <= k0)%nat -> nth i (rev (seq 0 (S k0))) 0%nat = (k0 - i)%nat.
Proof. intros H. rewrite rev_nth by (rewrite seq_length; lia). rewrite seq_length, seq_nth by lia. lia. Qed.
Lemma X_step m : let k0 := ((m + 1) / 2)%nat in
  (forall i, (i = 0 \/ k0 + 1 < i)%nat -> X (S m) i = Xp m i) /\
  (forall k, (k <= k0)%nat -> X (S m) (k + 1)%nat = (if (k =? k0)%nat then 0 else X (S m) (k + 2)%nat) +
     ((a (k + n + 1)%nat - a (m - k)%nat) * X m (k + 1)%nat + b (k + n + 1)%nat * Xp m k - b (m - k)%nat * Xp m (k + 1)%nat)).
Proof.
  intros k0. rewrite X_S. fold k0. set (ks := rev (seq 0 (S k0))). set (pos := fun k => (k + 1)%nat).
  set (term := fun k => (a (k + n + 1)%nat - a (m - k)%nat) * X m (k + 1)%nat + b (k + n + 1)%nat * Xp m k - b (m - k)%nat * Xp m (k + 1)%nat).
  assert (Hin : forall i, In i (map pos ks) <-> (1 <= i <= k0 + 1)%nat).
  { intros i. rewrite in_map_iff. split.
    - intros [k [<- Hk]]. apply in_rev in Hk. apply in_seq in Hk. unfold pos. lia.
    - intros H. exists (i - 1)%nat. split; [unfold pos; lia|]. apply -> in_rev. apply in_seq. lia. }
  assert (Hn : NoDup (map pos ks)).
  { apply FinFun.Injective_map_NoDup; [intros x y H; unfold pos in H; lia|]. unfold ks. apply NoDup_rev, seq_NoDup. }
  destruct (write_cumsum (Xp m) ks pos term Hn) as [H1 H2]. set (v' := rset_many (Xp m) (map pos ks) (rcumsum (map term ks))) in *. split.
  - intros i Hi. apply H1. rewrite Hin. lia.
  - intros k Hk. assert (L : length ks = S k0) by (unfold ks; rewrite rev_length, seq_length; auto).
    specialize (H2 (k0 - k)%nat ltac:(lia)). unfold ks in H2. rewrite rev_seq_nth in H2 by lia. replace (k0 - (k0 - k))%nat with k in H2 by lia. fold ks in H2.
    unfold pos at 1 in H2. rewrite H2. unfold term. f_equal. destruct (Nat.eqb_spec k k0) as [->|N].
    + rewrite Nat.sub_diag. auto.
    + replace (k0 - k)%nat with (S (k0 - k - 1)) by lia. unfold ks. rewrite rev_seq_nth by lia. f_equal. unfold pos. lia.
Qed.
Lemma half_le m : (2 * (m / 2) <= m)%nat. Proof. apply Nat.mul_div_le. lia. Qed.
Lemma half_gt m : (m < 2 * (m / 2) + 2)%nat. Proof. pose proof (Nat.mul_succ_div_gt m 2 ltac:(lia)). lia. Qed.
Lemma X_far m : forall i, (i = 0 \/ m < 2 * (i - 1))%nat -> X m i = 0 /\ (forall m', m = S m' -> X m' i = 0).
Proof.
  induction m as [|m IH]; intros i Hi.
  - split; [|intros; lia]. unfold X, est. cbn. unfold set. destruct (Nat.eqb_spec i 1); [lia|auto].
  - assert (E : X m i = 0) by (apply (proj1 (IH i ltac:(lia)))). split; [|intros m' Em; injection Em as <-; auto].
    pose proof (half_le (m + 1)). pose proof (half_gt (m + 1)). destruct (X_step m) as [H1 _]. rewrite H1 by lia. destruct m as [|m]; [reflexivity|]. cbn [Xp].
    apply (proj2 (IH i ltac:(lia))). auto.
Qed.
Lemma Xp_far m i : (i = 0 \/ m < 2 * i - 1)%nat -> Xp m i = 0.
Proof. intros H. destruct m as [|m]; [reflexivity|]. cbn [Xp]. apply (proj1 (X_far m i ltac:(lia))). Qed.
(** The mixed moments of the first loop. *)
Definition tau1 (k l : nat) : R := X (k + l)%nat (k + 1)%nat.
Lemma tau1_00 : tau1 0 0 = b (n + 1)%nat.
Proof. reflexivity. Qed.
Lemma tau1_diag l : tau1 (S l) (S l) = b (n + 1 + S l)%nat * tau1 l l.
Proof.
  unfold tau1. replace (S l + S l)%nat with (S (2 * l + 1)) by lia. destruct (X_step (2 * l + 1)) as [_ H].
  assert (K : ((2 * l + 1 + 1) / 2 = S l)%nat) by (replace (2 * l + 1 + 1)%nat with (S l * 2)%nat by lia; apply Nat.div_mul; lia).
  rewrite K in H. specialize (H (S l) (le_n _)). rewrite Nat.eqb_refl in H. rewrite H.
  rewrite (proj1 (X_far (2 * l + 1) (S l + 1)%nat ltac:(lia))). rewrite (Xp_far (2 * l + 1) (S l + 1)%nat) by lia.
  replace (2 * l + 1)%nat with (S (l + l)) by lia. cbn [Xp]. replace (X (l + l)%nat (S l)) with (X (l + l)%nat (l + 1)%nat) by (f_equal; lia). replace (S l + n + 1)%nat with (n + 1 + S l)%nat by lia. ring.
Qed.
Lemma tau1_rec k l : (k <= l)%nat -> tau1 k (S l) = (if (k <? l)%nat then tau1 (S k) l else 0) + (a (n + 1 + k)%nat - a l) * tau1 k l +
  (match k with O => 0 | S k' => b (n + 1 + k)%nat * tau1 k' l end) - (if (k <? l)%nat then b l * tau1 k (l - 1) else 0).
Proof.
  intros H. unfold tau1. replace (k + S l)%nat with (S (k + l)) by lia. destruct (X_step (k + l)) as [_ E].
  pose proof (half_le (k + l + 1)). pose proof (half_gt (k + l + 1)). specialize (E k ltac:(lia)). rewrite E. clear E.
  replace (k + l - k)%nat with l by lia. replace (k + n + 1)%nat with (n + 1 + k)%nat by lia.
  assert (E1 : Xp (k + l) k = match k with O => 0 | S k' => X (k' + l)%nat (k' + 1)%nat end).
  { destruct k as [|k]; [apply Xp_far; lia|]. cbn [Nat.add Xp]. f_equal. lia. }
  rewrite E1. destruct (Nat.ltb_spec k l) as [L|L].
  - destruct (Nat.eqb_spec k ((k + l + 1) / 2)); [lia|]. replace (S k + l)%nat with (S (k + l)) by lia. replace (S k + 1)%nat with (k + 2)%nat by lia.
    replace (Xp (k + l) (k + 1)%nat) with (X (k + (l - 1))%nat (k + 1)%nat); [destruct k; ring|]. destruct l as [|l]; [lia|]. replace (k + S l)%nat with (S (k + l)) by lia. cbn [Xp]. f_equal. lia.
  - assert (k = l) by lia. subst l. destruct (Nat.eqb_spec k ((k + k + 1) / 2)); [|lia]. rewrite (Xp_far (k + k) (k + 1)%nat) by lia. destruct k; ring.
Qed.
End East.

(* ------------------------------------------------------------------ the second loop *)
(** The cumulative sum of one pass, by columns l = m - k. *)
Lemma south_write n m (a b s t : nat -> R) : (1 <= n)%nat -> (n - 1 <= m <= 2 * n - 3)%nat -> (1 <= m)%nat ->
  let k0 := (m + 1 - n)%nat in
  let k1 := ((m - 1) / 2)%nat in
  let ks := seq k0 (k1 + 1 - k0) in
  let j_of := fun k => let L := (m - k)%nat in (n - 1 - L)%nat in
  let s' := rset_many s (map (fun k => (j_of k + 1)%nat) ks)
    (rcumsum (map (fun k => let L := (m - k)%nat in let j := j_of k in
       (0 - (a (k + n + 1)%nat - a L)) * t (j + 1)%nat - b (k + n + 1)%nat * s (j + 1)%nat + b L * s (j + 2)%nat) ks)) in
  (forall l, (l <= n - 1)%nat -> (2 * l <= m)%nat -> s' (n - l)%nat = s (n - l)%nat) /\
  (forall k l, (k + l = m)%nat -> (k < l)%nat -> (l <= n - 1)%nat ->
     s' (n - l)%nat = (if (l =? n - 1)%nat then 0 else s' (n - S l)%nat) + ((0 - (a (n + 1 + k)%nat - a l)) * t (n - l)%nat - b (n + 1 + k)%nat * s (n - l)%nat + b l * s (n - (l - 1))%nat)).
Proof.
  intros Hn Hm Hm1 k0 k1 ks j_of s'. set (pos := fun k => (j_of k + 1)%nat) in *.
  assert (A1 : (2 * k1 <= m - 1)%nat) by apply half_le. assert (A2 : (m - 1 < 2 * k1 + 2)%nat) by apply half_gt.
  assert (Hpos : forall k, (k0 <= k <= k1)%nat -> pos k = (k - k0 + 1)%nat) by (intros k Hk; unfold pos, j_of, k0 in *; lia).
  assert (Hin : forall i, In i (map pos ks) <-> (1 <= i <= k1 + 1 - k0)%nat).
  { intros i. rewrite in_map_iff. split.
    - intros [k [<- Hk]]. apply in_seq in Hk. rewrite Hpos by lia. lia.
    - intros H. exists (i - 1 + k0)%nat. rewrite Hpos by lia. split; [lia|]. apply in_seq. lia. }
  assert (Hnd : NoDup (map pos ks)).
  { unfold ks. rewrite (map_ext_in pos (fun k => (k - k0 + 1)%nat)) by (intros k Hk; apply in_seq in Hk; apply Hpos; lia).
    assert (G : forall c k, (k0 <= k)%nat -> NoDup (map (fun k => (k - k0 + 1)%nat) (seq k c))).
    { induction c as [|c IH]; intros k Hk; cbn [seq map]; constructor; auto. intros H. apply in_map_iff in H. destruct H as [k' [E Hk']]. apply in_seq in Hk'. lia. }
    apply G. auto. }
  destruct (write_cumsum s ks pos (fun k => let L := (m - k)%nat in let j := j_of k in
       (0 - (a (k + n + 1)%nat - a L)) * t (j + 1)%nat - b (k + n + 1)%nat * s (j + 1)%nat + b L * s (j + 2)%nat) Hnd) as [H1 H2]. fold s' in H1, H2. split.
  - intros l Hl H2l. apply H1. rewrite Hin. unfold k0 in *. lia.
  - intros k l Ekl Hkl Hl. assert (Hk : (k0 <= k <= k1)%nat) by (unfold k0; lia).
    assert (Lk : length ks = (k1 + 1 - k0)%nat) by apply seq_length.
    specialize (H2 (k - k0)%nat ltac:(lia)). assert (En : nth (k - k0) ks 0%nat = k) by (unfold ks; rewrite seq_nth by lia; lia). rewrite En in H2.
    assert (E1 : (pos k = n - l)%nat) by (rewrite Hpos by auto; unfold k0; lia). rewrite E1 in H2. rewrite H2. clear H2. f_equal.
    + destruct (Nat.eqb_spec l (n - 1)) as [El|El].
      * replace (k - k0)%nat with 0%nat by (unfold k0; lia). auto.
      * destruct (k - k0)%nat as [|i] eqn:Ei; [unfold k0 in *; lia|]. unfold ks. rewrite seq_nth by lia. rewrite Hpos by lia. f_equal. unfold k0 in *. lia.
    + unfold j_of. replace (m - k)%nat with l by lia. replace (k + n + 1)%nat with (n + 1 + k)%nat by lia.
      replace (n - 1 - l + 1)%nat with (n - l)%nat by lia. replace (n - 1 - l + 2)%nat with (n - (l - 1))%nat by lia. reflexivity.
Qed.

Definition table_rec (n : nat) (a b : nat -> R) (tau : nat -> nat -> R) (k l : nat) : Prop :=
  tau k (S l) = (if (k <? l)%nat then tau (S k) l else 0) + (a (n + 1 + k)%nat - a l) * tau k l +
    (match k with O => 0 | S k' => b (n + 1 + k)%nat * tau k' l end) - (if (k <? l)%nat then b l * tau k (l - 1)%nat else 0).
Definition table_inv (n : nat) (a0 b0 : nat -> R) (m : nat) (a b s t : nat -> R) (tau : nat -> nat -> R) : Prop :=
  tau 0%nat 0%nat = b (n + 1)%nat /\
  (forall l, (2 * (l + 1) <= m)%nat -> tau (S l) (S l) = b (n + 1 + S l)%nat * tau l l) /\
  (forall k l, (k <= l)%nat -> (k + l < m)%nat -> (l <= n - 1)%nat -> table_rec n a b tau k l) /\
  (forall k, (k + n <= m)%nat -> tau k n = 0) /\
  (forall k l, (k + l = m)%nat -> (k <= l)%nat -> (l <= n - 1)%nat -> t (n - l)%nat = tau k l) /\
  (forall k l, (S (k + l) = m)%nat -> (k <= l)%nat -> (l <= n - 1)%nat -> s (n - l)%nat = tau k l) /\
  ((m = n - 1)%nat -> s 1%nat = 0) /\
  (forall i, (i <= 3 * n / 2)%nat -> a i = a0 i) /\ (forall i, (i <= (3 * n + 1) / 2)%nat -> b i = b0 i).

Lemma south_inv n a0 b0 m a b s t tau a' b' s' t' : (2 <= n)%nat -> (n - 1 <= m <= 2 * n - 3)%nat ->
  table_inv n a0 b0 m a b s t tau -> south n m ((a, b), (s, t)) = Some ((a', b'), (s', t')) -> exists tau', table_inv n a0 b0 (S m) a' b' s' t' tau'.
Proof.
  intros Hn Hm (I1 & I2 & I3 & I4 & I5 & I6 & I7 & I8 & I9) E. destruct (south_write n m a b s t ltac:(lia) Hm ltac:(lia)) as [W1 W2].
  unfold southward in E. set (v := rset_many _ _ _) in W1, W2. fold v in E.
  assert (A1 : (2 * ((m - 1) / 2) <= m - 1)%nat) by apply half_le. assert (A2 : (m - 1 < 2 * ((m - 1) / 2) + 2)%nat) by apply half_gt.
  assert (A3 : (2 * ((m + 1) / 2) <= m + 1)%nat) by apply half_le. assert (A4 : (m + 1 < 2 * ((m + 1) / 2) + 2)%nat) by apply half_gt.
  set (tau' := fun k l => if (k + l =? S m)%nat then (if (l =? n)%nat then 0 else v (n - l)%nat) else tau k l).
  assert (T0 : forall k l, (k + l <= m)%nat -> tau' k l = tau k l) by (intros k l H; unfold tau'; destruct (Nat.eqb_spec (k + l) (S m)); [lia|auto]).
  assert (T1 : forall k l, (k + l = S m)%nat -> (l <= n - 1)%nat -> tau' k l = v (n - l)%nat).
  { intros k l H1 H2. unfold tau'. destruct (Nat.eqb_spec (k + l) (S m)); [|lia]. destruct (Nat.eqb_spec l n); [lia|auto]. }
  assert (T2 : forall k, (k + n = S m)%nat -> tau' k n = 0).
  { intros k H1. unfold tau'. rewrite H1, !Nat.eqb_refl. auto. }
  (* the recurrence on the new antidiagonal, away from the diagonal *)
  assert (R1 : forall k l, (k < l)%nat -> (k + l = m)%nat -> (l <= n - 1)%nat -> table_rec n a b tau' k l).
  { intros k l Hkl Hs Hl. unfold table_rec. destruct (Nat.ltb_spec k l); [|lia]. specialize (W2 k l Hs Hkl Hl).
    rewrite (T1 (S k) l) by lia. rewrite (T0 k l) by lia. rewrite (T0 k (l - 1)%nat) by lia.
    replace (tau' k (S l)) with (if (l =? n - 1)%nat then 0 else v (n - S l)%nat).
    2:{ destruct (Nat.eqb_spec l (n - 1)) as [El|N]; [replace (S l) with n by lia; rewrite T2 by lia; auto|rewrite T1 by lia; auto]. }
    rewrite (I5 k l) in W2 by lia. rewrite (I6 k (l - 1)%nat) in W2 by lia.
    replace (match k with O => 0 | S k' => b (n + 1 + k)%nat * tau' k' l end) with (b (n + 1 + k)%nat * s (n - l)%nat).
    2:{ destruct k as [|k]; [|rewrite (I6 k l), (T0 k l) by lia; auto]. replace (n - l)%nat with 1%nat by lia. rewrite I7 by lia. ring. }
    lra. }
  exists tau'. destruct (Nat.even m) eqn:Ev.
  - (* a coefficient of the diagonal *)
    apply Nat.even_spec in Ev. destruct Ev as [k Ek]. replace ((m - 1) / 2)%nat with (k - 1)%nat in * by lia. replace ((m + 1) / 2)%nat with k in * by lia.
    replace (n - 1 - (m - (k - 1)) + 1)%nat with (n - S k)%nat in E by lia. replace (n - 1 - (m - (k - 1)) + 2)%nat with (n - k)%nat in E by lia. replace (k + n + 1)%nat with (n + 1 + k)%nat in E by lia.
    unfold rdiv in E. destruct (Req_EM_T (t (n - k)%nat) 0) as [Z|NZ]; [discriminate E|]. cbn [bind] in E. injection E as <- <- <- <-.
    set (A := a k + (v (n - S k)%nat - b (n + 1 + k)%nat * v (n - k)%nat) / t (n - k)%nat) in *.
    assert (SA : forall i, i <> (n + 1 + k)%nat -> rset a (n + 1 + k) A i = a i) by (intros i Hi; unfold set; destruct (Nat.eqb_spec i (n + 1 + k)); [lia|auto]).
    assert (SB : rset a (n + 1 + k) A (n + 1 + k)%nat = A) by (unfold set; rewrite Nat.eqb_refl; auto).
    unfold table_inv. repeat split.
    + rewrite T0 by lia. auto.
    + intros l Hl. rewrite !T0 by lia. apply I2. lia.
    + intros k' l Hk Hs Hl. destruct (Nat.eq_dec (k' + l) m) as [E|N].
      * destruct (Nat.eq_dec k' l) as [Ekl|Nk].
        -- assert (Hl1 : l = k) by lia. assert (Hk1 : k' = k) by lia. rewrite Hl1, Hk1. clear Ekl Hl1 Hk1. unfold table_rec. rewrite SB, (SA k) by lia. destruct (Nat.ltb_spec k k); [lia|].
           rewrite (T1 k (S k)) by lia. rewrite (T0 k k) by lia. rewrite <- (I5 k k) by lia. unfold A. destruct k as [|k]; [lia|]. rewrite (T0 k (S k)) by lia.
           rewrite (W1 (S k)) by lia. rewrite (I6 k (S k)) by lia. field. auto.
        -- specialize (R1 k' l ltac:(lia) E Hl). unfold table_rec in *. rewrite !SA by lia. exact R1.
      * specialize (I3 k' l Hk ltac:(lia) Hl). unfold table_rec in *. rewrite !SA by lia. rewrite (T0 k' (S l)), (T0 k' l) by lia. 
        destruct (Nat.ltb_spec k' l).
        -- rewrite (T0 (S k') l), (T0 k' (l - 1)%nat) by lia. destruct k' as [|k']; [exact I3|rewrite (T0 k' l) by lia; exact I3].
        -- destruct k' as [|k']; [exact I3|rewrite (T0 k' l) by lia; exact I3].
    + intros k' Hk. destruct (Nat.eq_dec (k' + n) (S m)); [apply T2; auto|rewrite T0 by lia; apply I4; lia].
    + intros k' l Hs Hk Hl. rewrite T1 by lia. auto.
    + intros k' l Hs Hk Hl. rewrite T0 by lia. apply I5; lia.
    + intros Hc. lia.
    + intros i Hi. pose proof (half_le (3 * n)). pose proof (half_gt (3 * n)). rewrite SA by lia. auto.
    + auto.
  - (* an off-diagonal coefficient *)
    assert (Od : Nat.odd m = true) by (unfold Nat.odd; rewrite Ev; auto). apply Nat.odd_spec in Od. destruct Od as [k Ek].
    replace ((m - 1) / 2)%nat with k in * by lia. replace ((m + 1) / 2)%nat with (S k) in * by lia.
    replace (n - 1 - (m - k) + 1)%nat with (n - S k)%nat in E by lia. replace (n - 1 - (m - k) + 2)%nat with (n - k)%nat in E by lia. replace (S k + n + 1)%nat with (n + 1 + S k)%nat in E by lia.
    unfold rdiv in E. destruct (Req_EM_T (v (n - k)%nat) 0) as [Z|NZ]; [discriminate E|]. cbn [bind] in E. injection E as <- <- <- <-.
    set (B := v (n - S k)%nat / v (n - k)%nat) in *.
    assert (SA : forall i, i <> (n + 1 + S k)%nat -> rset b (n + 1 + S k) B i = b i) by (intros i Hi; unfold set; destruct (Nat.eqb_spec i (n + 1 + S k)); [lia|auto]).
    assert (SB : rset b (n + 1 + S k) B (n + 1 + S k)%nat = B) by (unfold set; rewrite Nat.eqb_refl; auto).
    unfold table_inv. repeat split.
    + rewrite T0 by lia. rewrite SA by lia. auto.
    + intros l Hl. destruct (Nat.eq_dec l k) as [->|N].
      * rewrite SB, (T1 (S k) (S k)), (T0 k k) by lia. rewrite <- (I6 k k) by lia. rewrite <- (W1 k) by lia. unfold B. field. auto.
      * rewrite !T0 by lia. rewrite SA by lia. apply I2. lia.
    + intros k' l Hk Hs Hl. destruct (Nat.eq_dec (k' + l) m) as [E|N].
      * specialize (R1 k' l ltac:(lia) E Hl). unfold table_rec in *. rewrite !SA by lia. exact R1.
      * specialize (I3 k' l Hk ltac:(lia) Hl). unfold table_rec in *. rewrite !SA by lia. rewrite (T0 k' (S l)), (T0 k' l) by lia. 
        destruct (Nat.ltb_spec k' l).
        -- rewrite (T0 (S k') l), (T0 k' (l - 1)%nat) by lia. destruct k' as [|k']; [exact I3|rewrite (T0 k' l) by lia; exact I3].
        -- destruct k' as [|k']; [exact I3|rewrite (T0 k' l) by lia; exact I3].
    + intros k' Hk. destruct (Nat.eq_dec (k' + n) (S m)); [apply T2; auto|rewrite T0 by lia; apply I4; lia].
    + intros k' l Hs Hk Hl. rewrite T1 by lia. auto.
    + intros k' l Hs Hk Hl. rewrite T0 by lia. apply I5; lia.
    + intros Hc. lia.
    + auto.
    + intros i Hi. pose proof (half_le (3 * n + 1)). pose proof (half_gt (3 * n + 1)). rewrite SA by lia. auto.
Qed.
Lemma south_loop n a0 b0 c : (2 <= n)%nat -> forall m st st', (n - 1 <= m)%nat -> (m + c <= 2 * n - 2)%nat ->
  (exists tau, table_inv n a0 b0 m (fst (fst st)) (snd (fst st)) (fst (snd st)) (snd (snd st)) tau) ->
  loop (south n) (seq m c) st = Some st' -> exists tau, table_inv n a0 b0 (m + c) (fst (fst st')) (snd (fst st')) (fst (snd st')) (snd (snd st')) tau.
Proof.
  intros Hn. induction c as [|c IH]; intros m st st' H1 H2 HI E.
  - cbn [seq loop] in E. injection E as <-. rewrite Nat.add_0_r. auto.
  - cbn [seq loop] in E. destruct st as [[a b] [s t]]. destruct (south n m (a, b, (s, t))) as [[[a1 b1] [s1 t1]]|] eqn:E1; [|discriminate E]. cbn [bind] in E.
    replace (m + S c)%nat with (S m + c)%nat by lia. apply (IH (S m) _ st') in E; auto; try lia.
    destruct HI as [tau HI]. cbn [fst snd] in *. apply (south_inv n a0 b0 m a b s t tau a1 b1 s1 t1); auto; lia.
Qed.
(** What the algorithm computes: coefficients that agree with the given ones as far as these go, and a table of mixed moments
    that satisfies the recurrence everywhere and vanishes in column n. *)
Theorem r_kronrod_table n a0 b0 a b : r_kronrod 0 Rplus Rminus Rmult rdiv n a0 b0 = Some (a, b) ->
  (1 <= n)%nat /\ (forall i, (i <= 3 * n / 2)%nat -> a i = a0 i) /\ (forall i, (i <= (3 * n + 1) / 2)%nat -> b i = b0 i) /\
  exists tau, tau 0%nat 0%nat = b (n + 1)%nat /\ (forall l, (S l <= n - 1)%nat -> tau (S l) (S l) = b (n + 1 + S l)%nat * tau l l) /\
    (forall k l, (k <= l <= n - 1)%nat -> table_rec n a b tau k l) /\ (forall k, (k <= n - 1)%nat -> tau k n = 0) /\ tau (n - 1)%nat (n - 1)%nat <> 0.
Proof.
  intros E. unfold r_kronrod in E. destruct (Nat.eqb_spec n 0) as [->|Hn]; [discriminate E|]. split; [lia|].
  pose proof (half_le (3 * n)) as Q1. pose proof (half_gt (3 * n)) as Q2. pose proof (half_le (3 * n + 1)) as Q3. pose proof (half_gt (3 * n + 1)) as Q4.
  set (aI := prefix 0 (3 * n / 2 + 1) a0) in E. set (bI := prefix 0 ((3 * n + 1) / 2 + 1) b0) in E.
  assert (HaI : forall i, (i <= 3 * n / 2)%nat -> aI i = a0 i) by (intros i Hi; unfold aI, prefix; destruct (Nat.ltb_spec i (3 * n / 2 + 1)); [auto|lia]).
  assert (HbI : forall i, (i <= (3 * n + 1) / 2)%nat -> bI i = b0 i) by (intros i Hi; unfold bI, prefix; destruct (Nat.ltb_spec i ((3 * n + 1) / 2 + 1)); [auto|lia]).
  change (fold_left (fun st m => east n aI bI m st) (seq 0 (n - 1)) ((fun _ => 0), rset (fun _ => 0) 1 (bI (n + 1)%nat))) with (est n aI bI (n - 1)) in E.
  rewrite est_pair in E. cbv beta iota zeta in E.
  set (sI := fun i => if ((1 <=? i) && (i <? n / 2 + 1 + 1))%nat then Xp n aI bI (n - 1) (i - 1)%nat else Xp n aI bI (n - 1) i) in E.
  pose proof (half_le n) as Q5. pose proof (half_gt n) as Q6.
  assert (Inv0 : table_inv n a0 b0 (n - 1) aI bI sI (X n aI bI (n - 1)) (tau1 n aI bI)).
  { unfold table_inv. repeat split; auto.
    - intros l _. apply tau1_diag.
    - intros k l Hk _ _. apply (tau1_rec n aI bI k l Hk).
    - intros k Hk. lia.
    - intros k l Hs Hk Hl. unfold tau1. rewrite Hs. f_equal. lia.
    - intros k l Hs Hk Hl. unfold sI. destruct (Nat.leb_spec 1 (n - l)); [|lia]. destruct (Nat.ltb_spec (n - l) (n / 2 + 1 + 1)); [|lia]. cbn [andb].
      unfold tau1. destruct (n - 1)%nat as [|n1] eqn:En; [lia|]. cbn [Xp]. replace (k + l)%nat with n1 by lia. f_equal. lia.
    - intros _. unfold sI. cbn [Nat.leb]. destruct (Nat.ltb_spec 1 (n / 2 + 1 + 1)); [|lia]. cbn [andb]. apply Xp_far. auto. }
  match type of E with bind ?L _ = _ => destruct L as [[[a1 b1] [s1 t1]]|] eqn:EL; [|discriminate E] end. cbn [bind] in E.
  assert (Inv1 : exists tau, table_inv n a0 b0 (2 * n - 2) a1 b1 s1 t1 tau).
  { destruct (Nat.eq_dec n 1) as [->|N1].
    - cbn in EL. injection EL as <- <- <- <-. exists (tau1 1 aI bI). exact Inv0.
    - assert (G := south_loop n a0 b0 (n - 1) ltac:(lia) (n - 1) (aI, bI, (sI, X n aI bI (n - 1))) (a1, b1, (s1, t1)) (le_n _) ltac:(lia) (ex_intro _ _ Inv0) EL). cbn [fst snd] in G.
      replace (n - 1 + (n - 1))%nat with (2 * n - 2)%nat in G by lia. exact G. }
  destruct Inv1 as [tau (I1 & I2 & I3 & I4 & I5 & I6 & I7 & I8 & I9)].
  unfold rdiv in E. destruct (Req_EM_T (t1 1%nat) 0) as [Z|NZ]; [discriminate E|]. cbn [bind] in E.
  set (A := a1 (n - 1)%nat - b1 (2 * n)%nat * s1 1%nat / t1 1%nat) in E. set (a2 := rset a1 (2 * n) A) in E. injection E as <- <-.
  assert (SA : forall i, i <> (2 * n)%nat -> a2 i = a1 i) by (intros i Hi; unfold a2, set; destruct (Nat.eqb_spec i (2 * n)); [lia|auto]).
  assert (SB : a2 (2 * n)%nat = A) by (unfold a2, set; rewrite Nat.eqb_refl; auto).
  split; [intros i Hi; rewrite SA by lia; auto|]. split; [auto|].
  assert (Ht : t1 1%nat = tau (n - 1)%nat (n - 1)%nat) by (rewrite <- (I5 (n - 1)%nat (n - 1)%nat) by lia; f_equal; lia).
  set (tau' := fun k l => if (l =? n)%nat then 0 else tau k l). exists tau'.
  assert (T0 : forall k l, (l <= n - 1)%nat -> tau' k l = tau k l) by (intros k l H; unfold tau'; destruct (Nat.eqb_spec l n); [lia|auto]).
  assert (T1 : forall k, tau' k n = 0) by (intros k; unfold tau'; rewrite Nat.eqb_refl; auto).
  repeat split.
  - rewrite T0 by lia. auto.
  - intros l Hl. rewrite !T0 by lia. apply I2. lia.
  - intros k l Hkl. unfold table_rec. rewrite (SA l) by lia. destruct (Nat.eq_dec k (n - 1)) as [->|N].
    + assert (l = n - 1)%nat by lia. subst l. replace (n + 1 + (n - 1))%nat with (2 * n)%nat by lia. rewrite SB. destruct (Nat.ltb_spec (n - 1) (n - 1)); [lia|].
      replace (S (n - 1)) with n by lia. rewrite T1, T0 by lia. rewrite <- Ht. unfold A. destruct (n - 1)%nat as [|n1] eqn:En.
      * rewrite (I7 ltac:(lia)). field. auto.
      * rewrite (T0 n1 (S n1)) by lia. rewrite <- (I6 n1 (S n1)) by lia. replace (n - S n1)%nat with 1%nat by lia. field. auto.
    + rewrite (SA (n + 1 + k)%nat) by lia. specialize (I3 k l ltac:(lia) ltac:(lia) ltac:(lia)). unfold table_rec in I3.
      assert (E1 : tau' k (S l) = tau k (S l)).
      { destruct (Nat.eq_dec (S l) n) as [->|N2]; [|apply T0; lia]. rewrite T1. symmetry. apply I4. lia. }
      rewrite E1, (T0 k l), (T0 (S k) l), (T0 k (l - 1)%nat) by lia. rewrite I3. destruct k as [|k]; [reflexivity|]. rewrite (T0 k l) by lia. reflexivity.
  - intros k Hk. apply T1.
  - rewrite T0 by lia. rewrite <- Ht. auto.
Qed.
