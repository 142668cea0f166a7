(** The coefficients that Laurie's algorithm computes make the Gauss polynomial a factor of the polynomial of the Kronrod nodes. *)
From Coq Require Import Reals List Arith ZArith Bool Lia Lra Sorted.
From Verif Require Import Spec Spec1 RsumLemmas AdaptModel PyBase C1Model GwSpec GwModel GwProofs GwExist GwRc KronrodModel KronrodAlg.
Import ListNotations.
Set Bullet Behavior "Strict Subproofs".
Open Scope R_scope.

Definition shift (f : nat -> R) (N : nat) : nat -> R := fun k => f (N + k)%nat.

(* ------------------------------------------------------------------ the first polynomials in terms of the shifted ones *)
Definition qprev (q : nat -> R) (k : nat) : R := match k with O => 0 | S k' => q k' end.
Lemma abel (c A B q : nat -> R) N : sumn (S N) (fun k => c k * (q (S k) + A k * q k + B k * qprev q k)) =
  sumn (S N) (fun k => q k * (qprev c k + A k * c k + B (S k) * c (S k))) + c N * q (S N) - B (S N) * c (S N) * q N.
Proof.
  induction N as [|N IH].
  - unfold sumn. cbn [seq map qprev]. unfold Rsum. cbn [fold_right]. ring.
  - rewrite sumn_S, IH, (sumn_S (S N)). cbn [qprev]. ring.
Qed.
Lemma monic_shifted_rec A B x k : x * monic A B k x = monic A B (S k) x + A k * monic A B k x + B k * qprev (fun j => monic A B j x) k.
Proof. destruct k as [|k]; cbn [qprev]; [cbn [monic]; ring|rewrite monic_SS; ring]. Qed.

Section Table.
Context (n : nat) (a b : nat -> R) (tau : nat -> nat -> R) (Hn : (1 <= n)%nat) (T0 : tau 0%nat 0%nat = b (n + 1)%nat)
  (TD : forall l, (S l <= n - 1)%nat -> tau (S l) (S l) = b (n + 1 + S l)%nat * tau l l)
  (TR : forall k l, (k <= l <= n - 1)%nat -> table_rec n a b tau k l) (TN : forall k, (k <= n - 1)%nat -> tau k n = 0) (TZ : tau (n - 1)%nat (n - 1)%nat <> 0).
Local Notation A := (shift a (n + 1)).
Local Notation B := (shift b (n + 1)).
Local Notation p := (monic a b).
Local Notation q := (monic A B).

Lemma diag_nonzero k : (k <= n - 1)%nat -> tau k k <> 0.
Proof.
  intros H. remember (n - 1 - k)%nat as d eqn:Ed. revert k H Ed. induction d as [|d IH]; intros k H Ed.
  - replace k with (n - 1)%nat by lia. auto.
  - intros Z. apply (IH (S k)); try lia. rewrite TD by lia. rewrite Z. ring.
Qed.
Lemma diag_factor k : (S k <= n - 1)%nat -> B (S k) <> 0.
Proof. intros H Z. apply (diag_nonzero (S k)); [lia|]. rewrite TD by lia. unfold shift in Z. rewrite Z. ring. Qed.

Definition cf (k l : nat) : R := if (k =? l)%nat then 1 else if (k <? l)%nat then tau k l / tau k k else 0.
Lemma cf_diag k : cf k k = 1.
Proof. unfold cf. rewrite Nat.eqb_refl. auto. Qed.
Lemma cf_low k l : (l < k)%nat -> cf k l = 0.
Proof. intros H. unfold cf. destruct (Nat.eqb_spec k l); [lia|]. destruct (Nat.ltb_spec k l); [lia|auto]. Qed.
Lemma cf_tau k l : (k <= l)%nat -> (k <= n - 1)%nat -> cf k l = tau k l / tau k k.
Proof.
  intros H H1. pose proof (diag_nonzero k H1). unfold cf. destruct (Nat.eqb_spec k l) as [<-|N]; [field; auto|]. destruct (Nat.ltb_spec k l); [auto|lia].
Qed.
Lemma cf_rec k l : (l <= n - 1)%nat -> cf k (S l) = qprev (fun j => cf j l) k + (A k - a l) * cf k l + B (S k) * cf (S k) l - (match l with O => 0 | S l' => b l * cf k l' end).
Proof.
  intros Hl. destruct (le_lt_dec k l) as [Hk|Hk].
  - pose proof (diag_nonzero k ltac:(lia)) as Dk. rewrite (cf_tau k (S l)), (cf_tau k l) by lia. rewrite (TR k l) by lia.
    assert (E1 : B (S k) * cf (S k) l = if (k <? l)%nat then tau (S k) l / tau k k else 0).
    { destruct (Nat.ltb_spec k l) as [L|L].
      - rewrite cf_tau by lia. rewrite TD by lia. pose proof (diag_factor k ltac:(lia)) as F. unfold shift in *. field. auto.
      - rewrite cf_low by lia. ring. }
    rewrite E1. assert (E2 : qprev (fun j => cf j l) k = match k with O => 0 | S k' => b (n + 1 + k)%nat * tau k' l / tau k k end).
    { destruct k as [|k']; cbn [qprev]; [auto|]. rewrite cf_tau by lia. rewrite TD by lia. pose proof (diag_nonzero k' ltac:(lia)). pose proof (diag_factor k' ltac:(lia)) as F. unfold shift in F. field. auto. }
    rewrite E2. assert (E3 : match l with O => 0 | S l' => b l * cf k l' end = if (k <? l)%nat then b l * tau k (l - 1)%nat / tau k k else 0).
    { destruct l as [|l']; [destruct (Nat.ltb_spec k 0); [lia|auto]|]. destruct (Nat.ltb_spec k (S l')) as [L|L].
      - rewrite cf_tau by lia. replace (S l' - 1)%nat with l' by lia. field. auto.
      - rewrite cf_low by lia. ring. }
    rewrite E3. unfold shift. destruct (k <? l)%nat; destruct k; field; auto.
  - assert (E3 : match l with O => 0 | S l' => b l * cf k l' end = 0) by (destruct l; [auto|rewrite cf_low by lia; ring]).
    rewrite E3, (cf_low k l), (cf_low (S k) l) by lia. destruct k as [|k]; [lia|]. cbn [qprev]. destruct (Nat.eq_dec k l) as [->|N].
    + rewrite !cf_diag. ring.
    + rewrite !cf_low by lia. ring.
Qed.
Lemma expansion x : forall l, (l <= n)%nat -> p l x = sumn (S n) (fun k => cf k l * q k x).
Proof.
  assert (Z : sumn (S n) (fun k => cf k 0 * q k x) = 1).
  { etransitivity; [|apply (sumn_pick (S n) 0 (fun k => q k x)); lia]. apply sumn_ext. intros k Hk. destruct k as [|k]; [rewrite cf_diag; cbn [Nat.eqb]; ring|rewrite cf_low by lia; cbn [Nat.eqb]; ring]. }
  assert (ST : forall l, (l <= n - 1)%nat -> sumn (S n) (fun k => cf k (S l) * q k x) = (x - a l) * sumn (S n) (fun k => cf k l * q k x) - match l with O => 0 | S l' => b l * sumn (S n) (fun k => cf k l' * q k x) end).
  { intros l Hl. assert (E := abel (fun k => cf k l) A B (fun k => q k x) n). cbv beta in E. rewrite (cf_low n l), (cf_low (S n) l) in E by lia.
    rewrite (sumn_ext _ (fun k => cf k l * (q (S k) x + A k * q k x + B k * qprev (fun j => q j x) k)) (fun k => x * (cf k l * q k x))) in E by (intros k Hk; rewrite <- monic_shifted_rec; ring).
    rewrite sumn_scal in E. assert (E2 : x * sumn (S n) (fun k => cf k l * q k x) = sumn (S n) (fun k => q k x * (qprev (fun k => cf k l) k + A k * cf k l + B (S k) * cf (S k) l))) by (rewrite E; ring).
    rewrite Rmult_minus_distr_r, E2. rewrite <- (sumn_scal (S n) (a l)).
    assert (E3 : match l with O => 0 | S l' => b l * sumn (S n) (fun k => cf k l' * q k x) end = sumn (S n) (fun k => (match l with O => 0 | S l' => b l * cf k l' end) * q k x)).
    { destruct l as [|l']; [symmetry; apply sumn_zero; intros; ring|]. rewrite <- sumn_scal. apply sumn_ext. intros; ring. }
    rewrite E3. assert (M : forall f g h r, (forall k, r k = f k + (-1) * g k + (-1) * h k) -> sumn (S n) r = sumn (S n) f - sumn (S n) g - sumn (S n) h).
    { intros f g h r H. rewrite (sumn_ext _ r (fun k => f k + (-1) * g k + (-1) * h k)) by auto. rewrite !sumn_add, !sumn_scal. ring. }
    apply M. intros k. rewrite cf_rec by lia. ring. }
  assert (G : forall l, ((l <= n)%nat -> p l x = sumn (S n) (fun k => cf k l * q k x)) /\ ((S l <= n)%nat -> p (S l) x = sumn (S n) (fun k => cf k (S l) * q k x))).
  { induction l as [|l [IH1 IH2]].
    - split; [intros _; rewrite Z; auto|]. intros H. rewrite (ST 0%nat) by lia. rewrite Z. reflexivity.
    - split; auto. intros H. rewrite (ST (S l)) by lia. rewrite monic_SS, IH1, IH2 by lia. auto. }
  intros l. apply G.
Qed.
(** The n-th polynomial of the leading coefficients is the n-th polynomial of the trailing ones. *)
Theorem same_poly x : p n x = q n x.
Proof.
  rewrite (expansion x n (le_n _)). rewrite sumn_S, cf_diag. rewrite sumn_zero; [ring|]. intros k Hk. rewrite cf_tau by lia. rewrite TN by lia. unfold Rdiv. ring.
Qed.
End Table.

(* ------------------------------------------------------------------ splitting the polynomial of the whole matrix *)
Lemma monic_split a b N x : (1 <= N)%nat -> forall i, monic a b (N + S i) x = monic (shift a N) (shift b N) (S i) x * monic a b N x - b N * monic (shift a (S N)) (shift b (S N)) i x * monic a b (N - 1) x.
Proof.
  intros HN. assert (G : forall i, (monic a b (N + S i) x = monic (shift a N) (shift b N) (S i) x * monic a b N x - b N * monic (shift a (S N)) (shift b (S N)) i x * monic a b (N - 1) x) /\
    (monic a b (N + S (S i)) x = monic (shift a N) (shift b N) (S (S i)) x * monic a b N x - b N * monic (shift a (S N)) (shift b (S N)) (S i) x * monic a b (N - 1) x)).
  { assert (B0 : monic a b (N + 1) x = (x - a N) * monic a b N x - b N * monic a b (N - 1) x).
    { destruct N as [|M]; [lia|]. replace (S M + 1)%nat with (S (S M)) by lia. rewrite monic_SS. replace (S M - 1)%nat with M by lia. auto. }
    induction i as [|i [IH1 IH2]].
    - split; [rewrite B0; cbn [monic]; unfold shift; rewrite Nat.add_0_r; ring|]. replace (N + 2)%nat with (S (S N)) by lia. rewrite monic_SS. replace (S N) with (N + 1)%nat by lia. rewrite B0.
      cbn [monic]. unfold shift. rewrite !Nat.add_0_r, ?Nat.add_1_r. ring.
    - split; auto. replace (N + S (S (S i)))%nat with (S (S (N + S i))) by lia. rewrite monic_SS. replace (S (N + S i)) with (N + S (S i))%nat by lia. rewrite IH1, IH2.
      rewrite (monic_SS (shift a N) (shift b N) (S i)), (monic_SS (shift a (S N)) (shift b (S N)) i). unfold shift. replace (S N + S i)%nat with (N + S (S i))%nat by lia. ring. }
  intros i. apply G.
Qed.
Fixpoint sprod (b : nat -> R) (k : nat) : R := match k with O => 1 | S k' => sprod b k' * b k end.
(** q_{i} q1_{i} - q_{i+1} q1_{i-1} is the product of the b's. *)
Lemma wronskian a b x : forall i, monic a b (S i) x * monic (shift a 1) (shift b 1) (S i) x - monic a b (S (S i)) x * monic (shift a 1) (shift b 1) i x = sprod b (S i).
Proof.
  induction i as [|i IH].
  - cbn [monic sprod]. unfold shift. cbn [Nat.add]. ring.
  - rewrite (monic_SS a b (S i)), (monic_SS (shift a 1) (shift b 1) i). cbn [sprod]. cbn [sprod] in IH. rewrite <- IH. unfold shift. cbn [Nat.add]. ring.
Qed.
Lemma sprod_pos b k : (forall i, (0 < i <= k)%nat -> 0 < b i) -> 0 < sprod b k.
Proof. induction k as [|k IH]; intros H; cbn [sprod]; [lra|]. apply Rmult_lt_0_compat; [apply IH; intros; apply H; lia|apply H; lia]. Qed.

(* ------------------------------------------------------------------ sorted lists *)
Lemma asc_eq l1 : forall l2, StronglySorted Rlt l1 -> StronglySorted Rlt l2 -> (forall x, In x l1 <-> In x l2) -> l1 = l2.
Proof.
  induction l1 as [|x l1 IH]; intros [|y l2] H1 H2 E; auto.
  - destruct (proj2 (E y) ltac:(left; auto)).
  - destruct (proj1 (E x) ltac:(left; auto)).
  - inversion H1 as [|? ? S1 F1]; subst. inversion H2 as [|? ? S2 F2]; subst. rewrite List.Forall_forall in F1, F2.
    assert (x = y). { destruct (proj1 (E x) ltac:(left; auto)) as [|I1]; auto. destruct (proj2 (E y) ltac:(left; auto)) as [|I2]; auto. specialize (F1 _ I2). specialize (F2 _ I1). lra. }
    subst y. f_equal. apply IH; auto. intros z. split; intros Hz.
    + destruct (proj1 (E z) ltac:(right; auto)) as [->|]; auto. specialize (F1 _ Hz). lra.
    + destruct (proj2 (E z) ltac:(right; auto)) as [->|]; auto. specialize (F2 _ Hz). lra.
Qed.
Lemma le_nodup_lt l : Sorted Rle l -> NoDup l -> StronglySorted Rlt l.
Proof.
  intros HS HN. apply Sorted_StronglySorted in HS; [|intros x y z; apply Rle_trans]. induction HS as [|x l HS IH HF]; constructor; inversion HN; subst; auto.
  rewrite List.Forall_forall in *. intros y Hy. destruct (HF y Hy) as [|E]; auto. subst y. tauto.
Qed.
Lemma sorted_zeros_eq x z : Sorted Rle x -> StronglySorted Rlt z -> (forall r, In r z -> In r x) -> length x = length z -> x = z.
Proof.
  intros HS HZ HI HL. assert (NZ : NoDup z) by (rewrite <- (rev_involutive z); apply NoDup_rev; apply desc_nodup; clear - HZ; induction HZ as [|a l HS IH HF]; cbn; [constructor|]; apply desc_app; auto; apply Forall_rev; auto).
  assert (NX : NoDup x) by (apply (NoDup_incl_NoDup NZ); [lia|exact HI]). apply asc_eq; auto; [apply le_nodup_lt; auto|]. intros r. split; auto. apply (NoDup_length_incl NZ); [lia|exact HI].
Qed.
Lemma desc_eq l1 l2 : StronglySorted Rgt l1 -> StronglySorted Rgt l2 -> (forall x, In x l1 <-> In x l2) -> l1 = l2.
Proof. intros H1 H2 E. rewrite <- (rev_involutive l1), <- (rev_involutive l2). f_equal. apply asc_eq; try (apply rev_sorted; auto). intros x. rewrite <- !in_rev. auto. Qed.
Lemma rprod_zero xs x : rprod xs x = 0 -> In x xs.
Proof. unfold rprod. induction xs as [|r xs IH]; cbn [map fold_right]; intros H; [lra|]. apply Rmult_integral in H. destruct H; [left; lra|right; auto]. Qed.
Lemma rprod_below xs y : List.Forall (fun r => y < r) xs -> 0 < (-1) ^ length xs * rprod xs y.
Proof. induction 1 as [|r xs H1 H2 IH]; unfold rprod; cbn [map fold_right length pow]; [lra|]. fold (rprod xs y). replace (-1 * (-1) ^ length xs * ((y - r) * rprod xs y)) with ((r - y) * ((-1) ^ length xs * rprod xs y)) by ring. apply Rmult_lt_0_compat; lra. Qed.
(** y_0 > x_0 > y_1 > ... > x_{n-1} > y_n *)
Fixpoint merge (xs ys : list R) : list R := match ys with [] => [] | y :: ys' => y :: match xs with [] => [] | x :: xs' => x :: merge xs' ys' end end.
Lemma merge_spec xs : forall M m ys, interlace M (xs ++ [m]) ys ->
  StronglySorted Rgt (merge xs ys) /\ List.Forall (fun z => z < M) (merge xs ys) /\ odd_positions (merge xs ys) = xs /\ length (merge xs ys) = (2 * length xs + 1)%nat /\ (forall z, In z (merge xs ys) -> In z xs \/ In z ys).
Proof.
  induction xs as [|x xs IH]; intros M m [|y ys] H; cbn [app interlace] in H; try tauto.
  - destruct H as [H1 H2]. destruct ys; [|cbn in H2; tauto]. cbn. repeat split; try (constructor; auto; try constructor; lra).
  - destruct H as [H1 H2]. destruct (IH x m ys H2) as [I1 [I2 [I3 [I4 I5]]]]. cbn [merge]. split; [|split; [|split; [|split]]].
    + constructor; [constructor; auto|]. apply List.Forall_cons; [lra|]. eapply List.Forall_impl; [|exact I2]. cbn. intros; lra.
    + apply List.Forall_cons; [lra|]. apply List.Forall_cons; [lra|]. eapply List.Forall_impl; [|exact I2]. cbn. intros; lra.
    + cbn [odd_positions]. f_equal. auto.
    + cbn [length]. lia.
    + cbn. intros z [->|[->|Hz]]; auto. destruct (I5 z Hz); auto.
Qed.
Lemma odd_positions_snoc (l : list R) x y k : length l = (2 * k + 1)%nat -> odd_positions (l ++ [x; y]) = odd_positions l ++ [x].
Proof.
  revert l. induction k as [|k IH]; intros l H.
  - destruct l as [|a [|b l]]; cbn in H; try lia. reflexivity.
  - destruct l as [|a [|b l]]; cbn in H; try lia. cbn [app odd_positions]. f_equal. apply IH. lia.
Qed.
Lemma odd_positions_rev (l : list R) k : length l = (2 * k + 1)%nat -> odd_positions (rev l) = rev (odd_positions l).
Proof.
  revert l. induction k as [|k IH]; intros l H.
  - destruct l as [|a [|b l]]; cbn in H; try lia. reflexivity.
  - destruct l as [|a [|b l]]; cbn in H; try lia. cbn [rev odd_positions]. rewrite <- app_assoc. cbn [app]. rewrite (odd_positions_snoc _ b a k) by (rewrite rev_length; lia). f_equal. apply IH. lia.
Qed.

(* ------------------------------------------------------------------ interlacing *)
(** When the trailing n-th polynomial is the leading one, the zeros of the whole polynomial are those of the leading one and
    further zeros before, between and after them. *)
Theorem kronrod_interlace a b n : (1 <= n)%nat -> (forall i, (0 < i <= 2 * n)%nat -> 0 < b i) -> (forall x, monic a b n x = monic (shift a (n + 1)) (shift b (n + 1)) n x) ->
  exists xs zs, StronglySorted Rlt xs /\ length xs = n /\ (forall r, In r xs <-> monic a b n r = 0) /\ StronglySorted Rlt zs /\ length zs = (2 * n + 1)%nat /\ (forall r, In r zs -> monic a b (2 * n + 1) r = 0) /\ odd_positions zs = xs.
Proof.
  intros Hn Hb Hq. destruct n as [|k]; [lia|]. set (n := S k) in *.
  destruct (real_zeros a b k ltac:(intros; apply Hb; lia)) as [xs [L1 [S1 [Z1 A1]]]].
  destruct (real_zeros (shift a (n + 1)) (shift b (n + 1)) k ltac:(intros; unfold shift; apply Hb; lia)) as [xs' [L2 [S2 [Z2 A2]]]].
  rewrite List.Forall_forall in Z1, Z2.
  assert (F1 : forall x, monic a b n x = rprod xs x) by (unfold n; rewrite <- L1; apply monic_factor; [apply desc_nodup; auto|rewrite L1; auto]).
  assert (F2 : forall x, monic (shift a (n + 1)) (shift b (n + 1)) n x = rprod xs' x) by (unfold n at 3; rewrite <- L2; apply monic_factor; [apply desc_nodup; auto|rewrite L2; auto]).
  assert (Exs : xs' = xs).
  { apply desc_eq; auto. intros x. split; intros Hx; apply rprod_zero; [rewrite <- F1, Hq, F2|rewrite <- F2, <- Hq, F1]; apply rprod_root; auto. }
  subst xs'. set (E := fun x => monic a b (n + 1) x - b (n + 1)%nat * monic (shift a (n + 2)) (shift b (n + 2)) k x).
  assert (HE : forall x, monic a b (2 * n + 1) x = monic a b n x * E x).
  { intros x. replace (2 * n + 1)%nat with (n + 1 + S k)%nat by (unfold n; lia). rewrite (monic_split a b (n + 1) x ltac:(lia) k). fold n. rewrite <- Hq. unfold E.
    replace (S (n + 1)) with (n + 2)%nat by lia. replace (n + 1 - 1)%nat with n by lia. ring. }
  assert (CE : continuity E).
  { apply (continuity_minus (monic a b (n + 1)) (fun x => b (n + 1)%nat * monic (shift a (n + 2)) (shift b (n + 2)) k x)); [apply monic_continuity|]. apply (continuity_scal (monic (shift a (n + 2)) (shift b (n + 2)) k) (b (n + 1)%nat)). apply monic_continuity. }
  assert (SE : forall s ys, (forall y, In y ys -> In y xs) -> alt s (monic a b k) ys -> alt s (monic (shift a (n + 1)) (shift b (n + 1)) k) ys -> alt (- s) E ys).
  { intros s ys. revert s. induction ys as [|y ys IH]; intros s Hi; cbn [alt]; auto. intros [P1 P2] [P3 P4]. split; [|apply IH; auto; intros; apply Hi; right; auto].
    assert (Hy : monic a b n y = 0) by (apply Z1; apply Hi; left; auto). assert (Hy2 : monic (shift a (n + 1)) (shift b (n + 1)) n y = 0) by (rewrite <- Hq; auto).
    assert (E1 : monic a b (n + 1) y = - b n * monic a b k y) by (replace (n + 1)%nat with (S (S k)) by (unfold n; lia); rewrite monic_SS; fold n; rewrite Hy; ring).
    assert (Bn : 0 < b n) by (apply Hb; unfold n; lia). assert (Bn1 : 0 < b (n + 1)%nat) by (apply Hb; unfold n; lia).
    assert (W : 0 < monic (shift a (n + 1)) (shift b (n + 1)) k y * monic (shift a (n + 2)) (shift b (n + 2)) k y).
    { rewrite (monic_ext (shift a (n + 2)) (shift b (n + 2)) (shift (shift a (n + 1)) 1) (shift (shift b (n + 1)) 1)) by (intros i Hi1; unfold shift; f_equal; lia).
      destruct k as [|k']; [cbn; lra|]. assert (WR := wronskian (shift a (n + 1)) (shift b (n + 1)) y k'). fold n in WR. rewrite Hy2 in WR.
      replace (monic (shift a (n + 1)) (shift b (n + 1)) (S k') y * monic (shift (shift a (n + 1)) 1) (shift (shift b (n + 1)) 1) (S k') y) with (sprod (shift b (n + 1)) (S k')) by lra.
      apply sprod_pos. intros i Hi1. unfold shift. apply Hb. unfold n. lia. }
    set (u := monic (shift a (n + 1)) (shift b (n + 1)) k y) in *. set (v := monic (shift a (n + 2)) (shift b (n + 2)) k y) in *. set (w := monic a b k y) in *.
    unfold E. rewrite E1. fold v. replace (- s * (- b n * w - b (n + 1)%nat * v)) with (b n * (s * w) + b (n + 1)%nat * (s * v)) by ring.
    assert (0 < s * v). { destruct (Rlt_or_le 0 (s * v)) as [|C]; auto. exfalso. destruct (Rlt_or_le 0 s); destruct (Rlt_or_le 0 u); destruct (Rlt_or_le 0 v); nra. }
    apply Rplus_lt_0_compat; apply Rmult_lt_0_compat; auto. }
  assert (AE := SE 1 xs (fun y H => H) A1 A2).
  destruct (list_bounds xs) as [l [u HB]].
  destruct (monic_pos_above a b (2 * n + 1) u ltac:(intros; apply Rlt_le, Hb; lia)) as [M [M1 M2]].
  destruct (monic_sign_below a b (2 * n + 1) (Rmin l M) ltac:(intros; apply Rlt_le, Hb; lia)) as [m [m1 m2]].
  assert (ml : m < l) by (pose proof (Rmin_l l M); lra). assert (mM : m < M) by (pose proof (Rmin_r l M); lra).
  assert (EM : 0 < E M).
  { rewrite HE, F1 in M2. assert (0 < rprod xs M) by (apply rprod_pos; eapply List.Forall_impl; [|exact HB]; cbn; intros; lra). destruct (Rlt_or_le 0 (E M)); auto. nra. }
  assert (Em : 0 < (-1) ^ S n * E m).
  { rewrite HE, F1 in m2. assert (P := rprod_below xs m ltac:(eapply List.Forall_impl; [|exact HB]; cbn; intros; lra)). rewrite L1 in P. fold n in P.
    replace ((-1) ^ (2 * n + 1) * (rprod xs m * E m)) with (((-1) ^ n * rprod xs m) * ((-1) ^ S n * E m)) in m2 by (replace (2 * n + 1)%nat with (n + S n)%nat by lia; rewrite pow_add; ring).
    destruct (Rlt_or_le 0 ((-1) ^ S n * E m)); auto. nra. }
  assert (AE2 : alt (- (1)) E (xs ++ [m])) by (apply alt_app; auto; rewrite L1; fold n; cbn [pow] in Em; lra).
  destruct (interlace_exists E CE (xs ++ [m]) M 1) as [ys [I1 I2]]; auto; [|lra|].
  - constructor; [apply desc_app; auto; eapply List.Forall_impl; [|exact HB]; cbn; intros; lra|]. apply Forall_app. split; [eapply List.Forall_impl; [|exact HB]; cbn; intros; lra|]. apply List.Forall_cons; [lra|apply List.Forall_nil].
  - destruct (merge_spec xs M m ys I1) as [G1 [G2 [G3 [G4 G5]]]]. exists (rev xs), (rev (merge xs ys)). rewrite List.Forall_forall in I2. repeat split.
    + apply rev_sorted; auto.
    + rewrite rev_length. auto.
    + intros Hr. apply in_rev in Hr. auto.
    + intros Hr. rewrite <- in_rev. apply rprod_zero. rewrite <- F1. auto.
    + apply rev_sorted; auto.
    + rewrite rev_length, G4, L1. auto.
    + intros r Hr. apply in_rev in Hr. rewrite HE. destruct (G5 r Hr) as [K|K]; [unfold n; rewrite Z1 by auto; ring|rewrite I2 by auto; ring].
    + rewrite (odd_positions_rev _ (length xs)) by auto. rewrite G3. auto.
Qed.

(* ------------------------------------------------------------------ symmetric weights, odd n *)
(** The first diagonal coefficient that the algorithm computes vanishes when the given ones do. *)
Lemma next_alpha n a b tau h : n = (2 * h + 1)%nat -> (forall l, (S l <= n - 1)%nat -> tau (S l) (S l) = b (n + 1 + S l)%nat * tau l l) ->
  (forall k l, (k <= l <= n - 1)%nat -> table_rec n a b tau k l) -> tau 0%nat n = 0 -> tau (n - 1)%nat (n - 1)%nat <> 0 -> (forall i, (i <= 3 * n / 2)%nat -> a i = 0) -> a (3 * n / 2 + 1)%nat = 0.
Proof.
  intros Hh TD TR TN TZ Ha. assert (Hn : (1 <= n)%nat) by lia.
  assert (E32 : (3 * n / 2 = n + h)%nat) by (subst n; replace (3 * (2 * h + 1))%nat with (1 + (3 * h + 1) * 2)%nat by lia; rewrite Nat.div_add by lia; cbn; lia).
  rewrite E32 in *. 
  (* odd antidiagonals below n - 1 vanish *)
  assert (P : forall m k l, (k + l = 2 * m + 1)%nat -> (k < l)%nat -> (k + l <= n - 2)%nat -> tau k l = 0).
  { induction m as [|m IHm].
    - intros k l Hs Hk Hl. assert (k = 0 /\ l = 1)%nat as [-> ->] by lia. rewrite (TR 0%nat 0%nat) by lia. cbn [Nat.ltb Nat.leb]. rewrite !Ha by lia. ring.
    - intros k l Hs. remember (l - k)%nat as d eqn:Ed. revert k l Hs Ed. induction d as [d IHd] using lt_wf_ind. intros k l Hs Ed Hk Hl.
      destruct l as [|l]; [lia|]. rewrite (TR k l) by lia. rewrite (Ha (n + 1 + k)%nat), (Ha l) by lia.
      assert (E1 : (if (k <? l)%nat then tau (S k) l else 0) = 0).
      { destruct (Nat.ltb_spec k l); auto. apply (IHd (l - S k)%nat); lia. }
      assert (E2 : (match k with O => 0 | S k' => b (n + 1 + k)%nat * tau k' l end) = 0).
      { destruct k as [|k']; auto. rewrite (IHm k' l) by lia. ring. }
      assert (E3 : (if (k <? l)%nat then b l * tau k (l - 1)%nat else 0) = 0).
      { destruct (Nat.ltb_spec k l); auto. rewrite (IHm k (l - 1)%nat) by lia. ring. }
      rewrite E1, E2, E3. ring. }
  (* the antidiagonal n *)
  assert (Q : forall k l, (k + l = n)%nat -> (k < l)%nat -> tau k l = 0).
  { induction k as [|k IH]; intros l Hs Hk; [replace l with n by lia; auto|].
    assert (E := TR k l ltac:(lia)). unfold table_rec in E. rewrite (IH (S l)) in E by lia. rewrite (Ha (n + 1 + k)%nat), (Ha l) in E by lia. destruct (Nat.ltb_spec k l); [|lia].
    assert (E2 : (match k with O => 0 | S k' => b (n + 1 + k)%nat * tau k' l end) = 0) by (destruct k as [|k']; auto; rewrite (P (h - 1)%nat k' l) by lia; ring).
    rewrite E2, (P (h - 1)%nat k (l - 1)%nat) in E by lia. lra. }
  assert (E := TR h h ltac:(lia)). unfold table_rec in E. rewrite (Q h (S h)) in E by lia. destruct (Nat.ltb_spec h h); [lia|]. rewrite (Ha h) in E by lia.
  assert (E2 : (match h with O => 0 | S k' => b (n + 1 + h)%nat * tau k' h end) = 0) by (destruct h as [|k']; auto; rewrite (P k' k' (S k')) by lia; ring). rewrite E2 in E.
  replace (n + h + 1)%nat with (n + 1 + h)%nat by lia. assert (D := diag_nonzero n b tau Hn TD TZ h ltac:(lia)).
  assert (M : a (n + 1 + h)%nat * tau h h = 0) by lra. apply Rmult_integral in M. tauto.
Qed.
