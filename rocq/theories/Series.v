(** Formal power series as sequences: convolution, differences, palindromic sequences. *)
From Coq Require Import Reals List Arith Lia Lra FunctionalExtensionality.
From Verif Require Import Spec RsumLemmas.
Import ListNotations.
Open Scope R_scope.

Fixpoint psum (f : nat -> R) (n : nat) : R := match n with O => 0 | S m => psum f m + f m end.
Lemma psum_Rsum f n : Rsum (map f (seq 0 n)) = psum f n.
Proof. induction n as [|n IH]; [reflexivity|]. rewrite seq_S, map_app, Rsum_app, IH. simpl. ring. Qed.
Lemma psum_ext f g n : (forall i, (i < n)%nat -> f i = g i) -> psum f n = psum g n.
Proof. induction n as [|n IH]; intros H; cbn [psum]; auto. rewrite IH, (H n) by auto. reflexivity. Qed.
Lemma psum_plus f g n : psum (fun i => f i + g i) n = psum f n + psum g n.
Proof. induction n as [|n IH]; cbn [psum]; [ring|]. rewrite IH. ring. Qed.
Lemma psum_minus f g n : psum (fun i => f i - g i) n = psum f n - psum g n.
Proof. induction n as [|n IH]; cbn [psum]; [ring|]. rewrite IH. ring. Qed.
Lemma psum_scal c f n : psum (fun i => c * f i) n = c * psum f n.
Proof. induction n as [|n IH]; cbn [psum]; [ring|]. rewrite IH. ring. Qed.
Lemma psum_scal_r c f n : psum (fun i => f i * c) n = psum f n * c.
Proof. induction n as [|n IH]; cbn [psum]; [ring|]. rewrite IH. ring. Qed.
Lemma psum_zero f n : (forall i, (i < n)%nat -> f i = 0) -> psum f n = 0.
Proof. induction n as [|n IH]; intros H; cbn [psum]; auto. rewrite IH, (H n) by auto. ring. Qed.
Lemma psum_first f n : psum f (S n) = f 0%nat + psum (fun i => f (S i)) n.
Proof. induction n as [|n IH]; [cbn [psum]; ring|]. change (psum f (S (S n))) with (psum f (S n) + f (S n)). rewrite IH. cbn [psum]. ring. Qed.
Lemma psum_split f m n : psum f (m + n) = psum f m + psum (fun i => f (m + i)%nat) n.
Proof. induction n as [|n IH]; [rewrite Nat.add_0_r; cbn [psum]; ring|]. rewrite Nat.add_succ_r. cbn [psum]. rewrite IH. ring. Qed.
Lemma psum_rev f n : psum f (S n) = psum (fun i => f (n - i)%nat) (S n).
Proof.
  induction n as [|n IH]; [reflexivity|].
  rewrite (psum_first (fun i => f (S n - i)%nat)). cbn [Nat.sub]. change (psum f (S (S n))) with (psum f (S n) + f (S n)).
  rewrite IH. ring_simplify. f_equal. 
Qed.
Lemma psum_swap (f : nat -> nat -> R) m n : psum (fun i => psum (f i) n) m = psum (fun j => psum (fun i => f i j) m) n.
Proof.
  induction m as [|m IH]; cbn [psum].
  - rewrite psum_zero; auto.
  - rewrite IH, <- psum_plus. apply psum_ext. reflexivity.
Qed.
Lemma psum_delta f n m : psum (fun i => if (i =? m)%nat then f i else 0) n = if (m <? n)%nat then f m else 0.
Proof.
  induction n as [|n IH]; [reflexivity|]. cbn [psum]. rewrite IH.
  destruct (Nat.ltb_spec m n), (Nat.ltb_spec m (S n)), (Nat.eqb_spec n m); subst; try lia; try ring.
Qed.
Lemma psum_trunc f n m : (n <= m)%nat -> (forall i, (n <= i)%nat -> (i < m)%nat -> f i = 0) -> psum f m = psum f n.
Proof.
  intros H Z. replace m with (n + (m - n))%nat by lia. rewrite psum_split, (psum_zero (fun i => f (n + i)%nat)); [ring|].
  intros i Hi. apply Z; lia.
Qed.

Definition conv (f g : nat -> R) (n : nat) : R := psum (fun i => f i * g (n - i)%nat) (S n).
Definition prev (f : nat -> R) (n : nat) : R := match n with O => 0 | S m => f m end.
Definition dif (f : nat -> R) (n : nat) : R := f n - prev f n.
Definition one (n : nat) : R := if (n =? 0)%nat then 1 else 0.
Fixpoint difn (k : nat) (f : nat -> R) : nat -> R := match k with O => f | S j => dif (difn j f) end.

Lemma conv_dif_l f g : conv (dif f) g = dif (conv f g).
Proof.
  apply functional_extensionality. intros [|n]; unfold conv, dif, prev; [simpl; ring|].
  rewrite psum_first.
  rewrite (psum_ext _ (fun i => f (S i) * g (S n - S i)%nat - f i * g (n - i)%nat)) by (intros; cbn [Nat.sub]; ring).
  rewrite psum_minus. rewrite (psum_first (fun i => f i * g (S n - i)%nat)). cbn [Nat.sub]. ring.
Qed.
Lemma conv_dif_r f g : conv f (dif g) = dif (conv f g).
Proof.
  apply functional_extensionality. intros [|n]; unfold conv, dif, prev; [simpl; ring|].
  cbn [psum]. rewrite Nat.sub_diag.
  rewrite (psum_ext (fun i => f i * (g (S n - i)%nat - _)) (fun i => f i * g (S n - i)%nat - f i * g (n - i)%nat)).
  - rewrite psum_minus. replace (S n - n)%nat with 1%nat by lia. rewrite Nat.sub_diag. ring.
  - intros i Hi. replace (S n - i)%nat with (S (n - i)) by lia. ring.
Qed.
Lemma difn_dif k f : difn k (dif f) = dif (difn k f).
Proof. induction k; cbn [difn]; congruence. Qed.
Lemma conv_difn a b f g : conv (difn a f) (difn b g) = difn (a + b) (conv f g).
Proof.
  induction a as [|a IH]; cbn [difn Nat.add].
  - induction b as [|b IH]; cbn [difn]; auto. rewrite conv_dif_r. congruence.
  - rewrite conv_dif_l. congruence.
Qed.
Lemma psum_dif f s : psum (dif f) (S s) = f s.
Proof. induction s as [|s IH]; [cbn; unfold dif; simpl; ring|]. change (psum (dif f) (S s) + dif f (S s) = f (S s)). rewrite IH. unfold dif. simpl. ring. Qed.

(** Binomial coefficients by Pascal's rule. *)
Fixpoint bn (k i : nat) : R :=
  match k, i with
  | _, O => 1
  | O, S _ => 0
  | S j, S h => bn j h + bn j (S h)
  end.
Lemma bn_0 k : bn k 0 = 1. Proof. destruct k; reflexivity. Qed.
Lemma bn_big k : forall i, (k < i)%nat -> bn k i = 0.
Proof. induction k as [|k IH]; intros [|i] H; try lia; cbn [bn]; auto. rewrite !IH by lia. ring. Qed.
Lemma bn_fact k : forall i, (i <= k)%nat -> bn k i = INR (fact k) / (INR (fact i) * INR (fact (k - i))).
Proof.
  induction k as [|k IH]; intros [|i] H; cbn [bn]; try lia.
  - simpl. field.
  - cbn [Nat.sub]. simpl (fact 0). simpl (INR 1). field. apply INR_fact_neq_0.
  - destruct (Nat.eq_dec i k) as [->|Hne].
    + rewrite (bn_big k (S k)) by lia. rewrite IH by lia. rewrite !Nat.sub_diag. simpl (fact 0). simpl (INR 1).
      field. split; apply INR_fact_neq_0.
    + rewrite !IH by lia. replace (S k - S i)%nat with (S (k - S i)) by lia. replace (k - i)%nat with (S (k - S i)) by lia.
      change (fact (S k)) with (S k * fact k)%nat. change (fact (S i)) with (S i * fact i)%nat.
      change (fact (S (k - S i))) with (S (k - S i) * fact (k - S i))%nat. rewrite !mult_INR, !S_INR, minus_INR, S_INR by lia.
      assert (0 <= INR i) by apply pos_INR. assert (INR (S i) <= INR k) by (apply le_INR; lia). rewrite S_INR in *.
      assert (X : INR k <> INR i) by (intros E; apply INR_eq in E; lia).
      field. repeat split; try apply INR_fact_neq_0; try lra.
Qed.
Lemma difn_bn k f s : difn k f s = psum (fun i => (-1) ^ i * bn k i * f (s - i)%nat) (S s).
Proof.
  revert s. induction k as [|k IH]; intros s.
  - cbn [difn]. rewrite psum_first, (psum_zero (fun i => _)) by (intros; cbn [bn]; ring). cbn [bn pow]. rewrite Nat.sub_0_r. ring.
  - cbn [difn]. unfold dif, prev. destruct s as [|s].
    + rewrite IH. cbn [psum]. rewrite !bn_0. ring.
    + rewrite !IH. rewrite (psum_first (fun i => _ * bn (S k) i * _)), (psum_first (fun i => _ * bn k i * f (S s - i)%nat)). rewrite !bn_0.
      cbn [Nat.sub]. rewrite (psum_ext (fun i => (-1) ^ S i * bn (S k) (S i) * f (s - i)%nat)
        (fun i => (-1) ^ S i * bn k (S i) * f (s - i)%nat - (-1) ^ i * bn k i * f (s - i)%nat)).
      * rewrite psum_minus. ring.
      * intros i _. cbn [bn]. simpl pow. ring.
Qed.

(** Sequences supported on 0..a and palindromic there. *)
Definition pal (a : nat) (f : nat -> R) : Prop := (forall b, (b <= a)%nat -> f b = f (a - b)%nat) /\ forall b, (a < b)%nat -> f b = 0.
Lemma conv_pairs a b f g m : (forall i, (a < i)%nat -> f i = 0) -> (forall i, (b < i)%nat -> g i = 0) ->
  conv f g m = psum (fun i => psum (fun j => if (i + j =? m)%nat then f i * g j else 0) (S b)) (S a).
Proof.
  intros Hf Hg.
  rewrite (psum_ext _ (fun i => if (i <=? m)%nat then f i * g (m - i)%nat else 0)).
  - unfold conv. set (M := (S a + S m)%nat).
    set (F := fun i => if (i <=? m)%nat then f i * g (m - i)%nat else 0).
    transitivity (psum F (S m)).
    { apply psum_ext. intros i Hi. unfold F. replace (i <=? m)%nat with true by (symmetry; apply Nat.leb_le; lia). reflexivity. }
    transitivity (psum F M).
    { symmetry. apply psum_trunc; [unfold M; lia|]. intros i Hi _. unfold F.
      replace (i <=? m)%nat with false by (symmetry; apply Nat.leb_gt; lia). reflexivity. }
    apply psum_trunc; [unfold M; lia|]. intros i Hi _. unfold F. rewrite Hf by lia. destruct (i <=? m)%nat; ring.
  - intros i Hi. destruct (Nat.leb_spec i m).
    + rewrite (psum_ext _ (fun j => if (j =? m - i)%nat then f i * g j else 0)).
      * rewrite (psum_delta (fun j => f i * g j)). destruct (Nat.ltb_spec (m - i) (S b)); auto. rewrite Hg by lia. ring.
      * intros j _. destruct (Nat.eqb_spec (i + j) m), (Nat.eqb_spec j (m - i)); auto; lia.
    + apply psum_zero. intros j _. destruct (Nat.eqb_spec (i + j) m); auto; lia.
Qed.
Lemma pal_conv a b f g : pal a f -> pal b g -> pal (a + b) (conv f g).
Proof.
  intros [Pf Zf] [Pg Zg]. split.
  - intros m Hm. rewrite !(conv_pairs a b) by auto.
    rewrite (psum_rev (fun i => psum _ (S b)) a). apply psum_ext. intros i Hi.
    rewrite (psum_rev _ b). apply psum_ext. intros j Hj.
    rewrite (Pf i), (Pg j) by lia.
    destruct (Nat.eqb_spec (a - i + (b - j)) m), (Nat.eqb_spec (i + j) (a + b - m)); auto; lia.
  - intros m Hm. rewrite (conv_pairs a b) by auto. apply psum_zero. intros i Hi. apply psum_zero. intros j Hj.
    destruct (Nat.eqb_spec (i + j) m); auto; lia.
Qed.
Lemma total_conv a b f g : pal a f -> pal b g -> psum (conv f g) (S (a + b)) = psum f (S a) * psum g (S b).
Proof.
  intros [_ Zf] [_ Zg].
  rewrite (psum_ext _ (fun m => psum (fun i => psum (fun j => if (i + j =? m)%nat then f i * g j else 0) (S b)) (S a))) by (intros; apply conv_pairs; auto).
  rewrite psum_swap. rewrite <- psum_scal_r. apply psum_ext. intros i Hi.
  rewrite psum_swap. rewrite <- psum_scal. apply psum_ext. intros j Hj.
  rewrite (psum_ext _ (fun m => if (m =? i + j)%nat then f i * g j else 0)) by (intros; rewrite Nat.eqb_sym; reflexivity).
  rewrite (psum_delta (fun _ => f i * g j)). replace (i + j <? S (a + b))%nat with true; auto. symmetry. apply Nat.ltb_lt. lia.
Qed.
Lemma pal_half s q : pal (2 * s + 1) q -> psum q (S (2 * s + 1)) = 2 * psum q (S s).
Proof.
  intros [P _]. replace (S (2 * s + 1)) with (S s + S s)%nat by lia. rewrite psum_split.
  rewrite (psum_rev (fun i => q (S s + i)%nat)). rewrite (psum_ext (fun i => q (S s + (s - i))%nat) q); [ring|].
  intros i Hi. rewrite (P i) by lia. f_equal. lia.
Qed.

(** Convolution of a list of series = sum over all compositions. *)
Definition convl (fs : list (nat -> R)) : nat -> R := fold_right conv one fs.
Fixpoint comps (k m : nat) : list (list nat) :=
  match k with
  | O => if (m =? 0)%nat then [[]] else []
  | S j => flat_map (fun b => map (cons b) (comps j (m - b))) (seq 0 (S m))
  end.
Fixpoint zipapp (fs : list (nat -> R)) (b : list nat) : R :=
  match fs, b with f :: fs', x :: b' => f x * zipapp fs' b' | _, _ => 1 end.
Lemma comps_convl fs : forall m, Rsum (map (zipapp fs) (comps (length fs) m)) = convl fs m.
Proof.
  induction fs as [|f fs IH]; intros m.
  - cbn [length comps convl fold_right]. unfold one. destruct (m =? 0)%nat; simpl; ring.
  - cbn [length comps convl fold_right]. rewrite Rsum_map_flat_map. unfold conv. rewrite <- psum_Rsum.
    apply Rsum_map_ext. intros b Hb. rewrite map_map. cbn [zipapp]. rewrite Rsum_map_scal, IH. reflexivity.
Qed.
Lemma in_comps k : forall m b, In b (comps k m) <-> length b = k /\ list_sum b = m.
Proof.
  induction k as [|k IH]; intros m b; cbn [comps].
  - destruct (Nat.eqb_spec m 0); split.
    + intros [<-|[]]. simpl. auto.
    + intros [H _]. destruct b; [left; auto|discriminate].
    + intros [].
    + intros [H E]. destruct b; [simpl in E; lia|discriminate].
  - rewrite in_flat_map. split.
    + intros [x [Hx Hb]]. apply in_seq in Hx. apply in_map_iff in Hb. destruct Hb as [b' [<- Hb]]. apply IH in Hb. simpl. unfold list_sum in *. simpl in *. lia.
    + intros [H E]. destruct b as [|x b]; [discriminate|]. exists x. cbn [length list_sum fold_right] in H, E. fold (list_sum b) in E.
      split; [apply in_seq; lia|]. apply in_map_iff. exists b. split; auto. apply IH. lia.
Qed.
Lemma NoDup_flat_map_cons (f : nat -> list (list nat)) l : NoDup l -> (forall b, In b l -> NoDup (f b)) ->
  NoDup (flat_map (fun b => map (cons b) (f b)) l).
Proof.
  induction 1 as [|x l Hx Hl IH]; intros Hf; [constructor|]. cbn [flat_map].
  assert (N1 : NoDup (map (cons x) (f x))).
  { apply FinFun.Injective_map_NoDup; [intros a b E; congruence|apply Hf; left; auto]. }
  assert (N2 : NoDup (flat_map (fun b => map (cons b) (f b)) l)) by (apply IH; intros; apply Hf; right; auto).
  revert N1. assert (D : forall y, In y (map (cons x) (f x)) -> ~ In y (flat_map (fun b => map (cons b) (f b)) l)).
  { intros y Hy Hy2. apply in_map_iff in Hy. destruct Hy as [a [<- _]]. apply in_flat_map in Hy2.
    destruct Hy2 as [b [Hb Hy2]]. apply in_map_iff in Hy2. destruct Hy2 as [a' [E _]]. injection E as -> _. contradiction. }
  induction (map (cons x) (f x)) as [|y r IHr]; intros N1; [exact N2|].
  inversion N1; subst. cbn [app]. constructor.
  - rewrite in_app_iff. intros [?|?]; [contradiction|]. apply (D y); [left; auto|auto].
  - apply IHr; auto. intros z Hz. apply D. right. auto.
Qed.
Lemma NoDup_comps k : forall m, NoDup (comps k m).
Proof.
  induction k as [|k IH]; intros m; cbn [comps].
  - destruct (m =? 0)%nat; constructor; auto. constructor.
  - apply NoDup_flat_map_cons; [apply seq_NoDup|auto].
Qed.
