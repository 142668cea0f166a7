(** Every symmetric tridiagonal matrix without zeros beside the diagonal has an eigen-decomposition: the zeros of the orthogonal
    polynomials are real, distinct and interlaced. *)
From Coq Require Import Reals List Arith Lia Lra Sorted.
From Coquelicot Require Import Coquelicot.
From Verif Require Import Spec Spec1 RsumLemmas C1Tools Interp GwSpec GwProofs.
Import ListNotations.
Set Bullet Behavior "Strict Subproofs".
Open Scope R_scope.

Lemma monic_continuity a b k : continuity (monic a b k).
Proof.
  assert (G : forall k, continuity (monic a b k) /\ continuity (monic a b (S k))).
  { induction k0 as [|k0 [IH1 IH2]].
    - split; [intros x; apply continuity_const; intros ? ?; auto|]. intros x. cbn [monic]. unfold continuity_pt. apply (continuity_pt_ext (fun y => y - a 0%nat)); [intros; ring|]. apply (continuity_minus id (fun _ => a 0%nat)); [apply derivable_continuous; apply derivable_id|intros y; apply continuity_const; intros ? ?; auto].
    - split; auto. apply (continuity_minus (fun x => (x - a (S k0)) * monic a b (S k0) x) (fun x => b (S k0) * monic a b k0 x)).
      + apply (continuity_mult (fun x => x - a (S k0)) (monic a b (S k0))); auto. apply (continuity_minus id (fun _ => a (S k0))); [apply derivable_continuous; apply derivable_id|intros y; apply continuity_const; intros ? ?; auto].
      + apply (continuity_mult (fun _ => b (S k0)) (monic a b k0)); auto. intros y; apply continuity_const; intros ? ?; auto. }
  apply (G k).
Qed.
Lemma pol_mulx m f c : pol m f -> pol (S m) (fun x => (x - c) * f x).
Proof. intros H. apply (pol_ext _ (fun x => (- c + 1 * x) * f x)); [intros; ring|]. apply pol_lin. auto. Qed.
Lemma pol_sub m f g : pol m f -> pol m g -> pol m (fun x => f x - g x).
Proof. intros Hf Hg. apply (pol_ext _ (fun x => f x + -1 * g x)); [intros; ring|]. apply pol_add; auto. apply pol_scal. auto. Qed.
Lemma pol_monic a b k : pol (S k) (monic a b k) /\ pol k (fun x => monic a b k x - x ^ k).
Proof.
  assert (G : forall k, (pol (S k) (monic a b k) /\ pol k (fun x => monic a b k x - x ^ k)) /\ (pol (S (S k)) (monic a b (S k)) /\ pol (S k) (fun x => monic a b (S k) x - x ^ (S k)))).
  { induction k0 as [|k0 [IH1 [IH2 IH3]]].
    - split; split.
      + apply (pol_const 1 1). lia.
      + apply (pol_ext _ (fun _ => 0)); [intros; cbn; ring|apply pol_zero].
      + apply (pol_ext _ (fun x => (x - a 0%nat) * 1)); [intros; cbn; ring|]. apply (pol_mulx 1 (fun _ => 1)). apply pol_const. lia.
      + apply (pol_ext _ (fun _ => - a 0%nat)); [intros; cbn; ring|]. apply pol_const. lia.
    - split; [split; auto|]. destruct IH1 as [IH0 _]. split.
      + apply (pol_ext _ (fun x => (x - a (S k0)) * monic a b (S k0) x - b (S k0) * monic a b k0 x)); [intros; reflexivity|].
        apply pol_sub; [apply pol_mulx; auto|]. apply pol_scal. apply (pol_le (S k0)); [lia|auto].
      + apply (pol_ext _ (fun x => ((x - 0) * (monic a b (S k0) x - x ^ S k0) - a (S k0) * monic a b (S k0) x) - b (S k0) * monic a b k0 x)); [intros; rewrite monic_SS; cbn [pow]; ring|].
        apply pol_sub; [apply pol_sub|]; [apply pol_mulx; auto|apply pol_scal; auto|apply pol_scal; apply (pol_le (S k0)); [lia|auto]]. }
  apply (G k).
Qed.
(** Product over the zeros. *)
Definition rprod (xs : list R) (x : R) : R := fold_right Rmult 1 (map (fun r => x - r) xs).
Lemma pol_rprod xs : pol (S (length xs)) (rprod xs) /\ pol (length xs) (fun x => rprod xs x - x ^ length xs).
Proof.
  induction xs as [|r xs [IH1 IH2]]; unfold rprod; cbn [map fold_right length].
  - split; [apply pol_const; lia|]. apply (pol_ext _ (fun _ => 0)); [intros; cbn; ring|apply pol_zero].
  - fold rprod. split; [exact (pol_mulx _ _ r IH1)|].
    apply (pol_ext _ (fun x => (x - 0) * (rprod xs x - x ^ length xs) - r * rprod xs x)); [intros; unfold rprod; cbn [pow]; ring|]. apply pol_sub; [apply pol_mulx; auto|apply pol_scal; auto].
Qed.
Lemma rprod_root xs x : In x xs -> rprod xs x = 0.
Proof. induction xs as [|r xs IH]; intros []; unfold rprod; cbn [map fold_right]; fold (rprod xs x); [subst; ring|rewrite IH by auto; ring]. Qed.
Lemma monic_factor a b xs : NoDup xs -> (forall x, In x xs -> monic a b (length xs) x = 0) -> forall x, monic a b (length xs) x = rprod xs x.
Proof.
  intros Hn Hr x. assert (E := pol_unique xs _ _ Hn (proj2 (pol_monic a b (length xs))) (proj2 (pol_rprod xs))).
  assert (F := E ltac:(intros y Hy; cbn beta; rewrite Hr, rprod_root by auto; ring) x). lra.
Qed.

(* ------------------------------------------------------------------ signs for large arguments *)
Lemma monic_big a b k B : (forall i, (i < k)%nat -> a i + b i + 1 <= B /\ a i + 1 <= B) -> (forall i, (0 < i < k)%nat -> 0 <= b i) -> forall x, B <= x -> 0 < monic a b k x.
Proof.
  intros H Hb x Hx. assert (G : forall j, (S j <= k)%nat -> 0 < monic a b j x <= monic a b (S j) x).
  { induction j as [|j IH]; intros L.
    - cbn [monic]. destruct (H 0%nat ltac:(lia)). lra.
    - destruct (IH ltac:(lia)) as [P1 P2]. split; [lra|]. rewrite monic_SS. destruct (H (S j) ltac:(lia)) as [B1 _]. assert (0 <= b (S j)) by (apply Hb; lia). nra. }
  destruct k as [|k]; [cbn; lra|]. destruct (G k ltac:(lia)). lra.
Qed.
Lemma monic_neg a b k x : monic a b k (- x) = (-1) ^ k * monic (fun i => - a i) b k x.
Proof.
  assert (G : forall k, monic a b k (- x) = (-1) ^ k * monic (fun i => - a i) b k x /\ monic a b (S k) (- x) = (-1) ^ (S k) * monic (fun i => - a i) b (S k) x).
  { induction k0 as [|k0 [IH1 IH2]]; [cbn; split; ring|]. split; auto. rewrite !monic_SS, IH1, IH2. cbn [pow]. ring. }
  apply (G k).
Qed.
Lemma bound_exists (f : nat -> R) k c : exists B, c <= B /\ forall i, (i < k)%nat -> f i <= B.
Proof.
  induction k as [|k [B [H1 H2]]]; [exists c; split; [lra|intros; lia]|]. exists (Rmax B (f k)). split; [apply Rle_trans with B; auto; apply Rmax_l|].
  intros i Hi. destruct (Nat.eq_dec i k) as [->|N]; [apply Rmax_r|]. apply Rle_trans with B; [apply H2; lia|apply Rmax_l].
Qed.
Lemma monic_pos_above a b k c : (forall i, (0 < i < k)%nat -> 0 <= b i) -> exists M, c < M /\ 0 < monic a b k M.
Proof.
  intros Hb. destruct (bound_exists (fun i => a i + b i + 1) k (c + 1)) as [B1 [P1 Q1]]. destruct (bound_exists (fun i => a i + 1) k B1) as [B [P2 Q2]].
  exists B. split; [lra|]. apply (monic_big a b k B); auto; [|lra]. intros i Hi. assert (A := Q1 i Hi). cbn beta in A. split; [lra|exact (Q2 i Hi)].
Qed.
Lemma monic_sign_below a b k c : (forall i, (0 < i < k)%nat -> 0 <= b i) -> exists m, m < c /\ 0 < (-1) ^ k * monic a b k m.
Proof.
  intros Hb. destruct (monic_pos_above (fun i => - a i) b k (- c) Hb) as [M [H1 H2]]. exists (- M). split; [lra|]. rewrite monic_neg, <- Rmult_assoc, <- Rpow_mult_distr. replace (-1 * -1) with 1 by ring. rewrite pow1. lra.
Qed.

(* ------------------------------------------------------------------ interlacing; lists in descending order *)
Fixpoint alt (s : R) (g : R -> R) (xs : list R) : Prop := match xs with [] => True | x :: xs' => 0 < s * g x /\ alt (- s) g xs' end.
Fixpoint interlace (M : R) (xs ys : list R) : Prop :=
  match xs, ys with [], [] => True | x :: xs', y :: ys' => x < y < M /\ interlace x xs' ys' | _, _ => False end.
Lemma interlace_exists g : continuity g -> forall xs M s, StronglySorted Rgt (M :: xs) -> 0 < s * g M -> alt (- s) g xs -> exists ys, interlace M xs ys /\ List.Forall (fun y => g y = 0) ys.
Proof.
  intros Hc xs. induction xs as [|x xs IH]; intros M s Hs HM HA; [exists []; split; [exact I|apply List.Forall_nil]|].
  inversion Hs as [|? ? Hs' HF]; subst. inversion HF as [|? ? HxM _]; subst. destruct HA as [Hx HA].
  destruct (IH x (- s) Hs' Hx HA) as [ys [I1 I2]].
  assert (Hp : g x * g M <= 0) by (destruct (Rle_or_lt (g x * g M) 0); auto; nra).
  destruct (IVT_cor g x M Hc ltac:(lra) Hp) as [y [[Hy1 Hy2] Hy]]. exists (y :: ys). split; [|apply List.Forall_cons; auto]. cbn [interlace]. split; auto.
  split; [destruct (Req_dec x y) as [->|]; [nra|lra]|destruct (Req_dec y M) as [->|]; [nra|lra]].
Qed.
Lemma interlace_below xs : forall M ys, interlace M xs ys -> List.Forall (fun y => y < M) ys.
Proof. induction xs as [|x xs IH]; intros M [|y ys] H; cbn in H; try tauto; [apply List.Forall_nil|]. destruct H as [H1 H2]. apply List.Forall_cons; [lra|]. eapply List.Forall_impl; [|apply (IH x ys H2)]. cbn. intros; lra. Qed.
Lemma interlace_sorted xs : forall M ys, interlace M xs ys -> StronglySorted Rgt ys.
Proof.
  induction xs as [|x xs IH]; intros M [|y ys] H; cbn in H; try tauto; [constructor|]. destruct H as [H1 H2]. constructor; [apply (IH x ys H2)|]. eapply List.Forall_impl; [|apply (interlace_below xs x ys H2)]. cbn. intros; lra.
Qed.
Lemma interlace_length xs : forall M ys, interlace M xs ys -> length ys = length xs.
Proof. induction xs as [|x xs IH]; intros M [|y ys] H; cbn in H; try tauto; auto. cbn. f_equal. apply (IH x). tauto. Qed.
Lemma alt_mul_neg g h s ys : List.Forall (fun y => h y < 0) ys -> alt s g ys -> alt (- s) (fun y => h y * g y) ys.
Proof.
  intros H. revert s. induction H as [|y ys Hy H IH]; intros s HA; cbn in *; auto. destruct HA as [H1 H2]. split; [|apply IH; auto]. replace (- s * (h y * g y)) with (- h y * (s * g y)) by ring. apply Rmult_lt_0_compat; lra.
Qed.
Lemma rprod_pos xs y : List.Forall (fun r => r < y) xs -> 0 < rprod xs y.
Proof. induction 1 as [|r xs H1 H2 IH]; unfold rprod; cbn [map fold_right]; [lra|]. fold (rprod xs y). apply Rmult_lt_0_compat; lra. Qed.
Lemma interlace_signs xs : forall m M ys, StronglySorted Rgt xs -> interlace M (xs ++ [m]) ys -> alt 1 (rprod xs) ys.
Proof.
  induction xs as [|x xs IH]; intros m M [|y ys] Hs H; cbn [app interlace] in H; try tauto.
  - destruct H as [_ H]. destruct ys; [|cbn in H; tauto]. cbn. unfold rprod. cbn. lra.
  - destruct H as [H1 H2]. inversion Hs as [|? ? Hs' HF]; subst. cbn [alt]. split.
    + rewrite Rmult_1_l. apply rprod_pos. apply List.Forall_cons; [lra|]. eapply List.Forall_impl; [|exact HF]. cbn. intros; lra.
    + apply (alt_mul_neg (rprod xs) (fun y => y - x) 1 ys); [|apply (IH m x); auto]. eapply List.Forall_impl; [|apply (interlace_below _ x ys H2)]. cbn. intros; lra.
Qed.
Lemma alt_app s g xs m : alt s g xs -> 0 < (-1) ^ length xs * s * g m -> alt s g (xs ++ [m]).
Proof.
  revert s. induction xs as [|x xs IH]; intros s HA Hm; cbn in *; [split; auto; lra|]. destruct HA as [H1 H2]. split; auto. apply IH; auto. replace ((-1) ^ length xs * - s * g m) with (-1 * (-1) ^ length xs * s * g m) by ring. auto.
Qed.
Lemma alt_opp c g h s xs : 0 < c -> (forall x, In x xs -> g x = - c * h x) -> alt s h xs -> alt (- s) g xs.
Proof.
  intros Hc. revert s. induction xs as [|x xs IH]; intros s E HA; cbn in *; auto. destruct HA as [H1 H2]. split; [|apply IH; auto]. rewrite E by auto. replace (- s * (- c * h x)) with (c * (s * h x)) by ring. apply Rmult_lt_0_compat; auto.
Qed.
Lemma desc_nodup xs : StronglySorted Rgt xs -> NoDup xs.
Proof. induction 1 as [|x xs Hs IH HF]; constructor; auto. intros Hi. rewrite List.Forall_forall in HF. specialize (HF x Hi). lra. Qed.
Lemma desc_app xs m : StronglySorted Rgt xs -> List.Forall (fun x => m < x) xs -> StronglySorted Rgt (xs ++ [m]).
Proof.
  induction 1 as [|x xs Hs IH HF]; intros H; cbn; [constructor; constructor|]. inversion H; subst. constructor; [apply IH; auto|]. apply Forall_app. split; auto.
Qed.
Lemma list_bounds (xs : list R) : exists l u, List.Forall (fun x => l < x < u) xs.
Proof.
  induction xs as [|x xs [l [u H]]]; [exists 0, 0; apply List.Forall_nil|]. exists (Rmin l (x - 1)), (Rmax u (x + 1)). pose proof (Rmin_l l (x - 1)). pose proof (Rmin_r l (x - 1)). pose proof (Rmax_l u (x + 1)). pose proof (Rmax_r u (x + 1)).
  apply List.Forall_cons; [lra|]. eapply List.Forall_impl; [|exact H]. cbn. intros; lra.
Qed.
(** Real, simple, interlaced zeros. *)
Theorem real_zeros a b k : (forall i, (0 < i <= k)%nat -> 0 < b i) ->
  exists xs, length xs = S k /\ StronglySorted Rgt xs /\ List.Forall (fun x => monic a b (S k) x = 0) xs /\ alt 1 (monic a b k) xs.
Proof.
  induction k as [|k IH]; intros Hb.
  - exists [a 0%nat]. split; [auto|]. split; [constructor; constructor|]. split; [apply List.Forall_cons; [cbn; ring|apply List.Forall_nil]|]. cbn. lra.
  - destruct (IH ltac:(intros; apply Hb; lia)) as [xs [HL [HS [HR HA]]]].
    destruct (list_bounds xs) as [l [u HB]].
    destruct (monic_pos_above a b (S (S k)) u ltac:(intros; apply Rlt_le, Hb; lia)) as [M [M1 M2]].
    destruct (monic_sign_below a b (S (S k)) (Rmin l M) ltac:(intros; apply Rlt_le, Hb; lia)) as [m [m1 m2]].
    assert (ml : m < l) by (pose proof (Rmin_l l M); lra). assert (mM : m < M) by (pose proof (Rmin_r l M); lra).
    assert (A1 : alt (- (1)) (monic a b (S (S k))) xs).
    { apply (alt_opp (b (S k)) _ (monic a b k)); [apply Hb; lia| |auto]. intros x Hx. rewrite List.Forall_forall in HR. rewrite monic_SS, HR by auto. ring. }
    assert (A2 : alt (- (1)) (monic a b (S (S k))) (xs ++ [m])).
    { apply alt_app; auto. rewrite HL. cbn [pow] in *. lra. }
    destruct (interlace_exists (monic a b (S (S k))) (monic_continuity a b _) (xs ++ [m]) M 1) as [ys [I1 I2]]; auto; [|lra|].
    + constructor; [apply desc_app; auto; eapply List.Forall_impl; [|exact HB]; cbn; intros; lra|]. apply Forall_app. split; [eapply List.Forall_impl; [|exact HB]; cbn; intros; lra|]. apply List.Forall_cons; [lra|apply List.Forall_nil].
    + exists ys. assert (L := interlace_length _ _ _ I1). rewrite app_length in L. cbn in L. split; [lia|]. split; [apply (interlace_sorted _ _ _ I1)|]. split; auto.
      assert (S1 := interlace_signs xs m M ys HS I1).
      assert (F : forall x, monic a b (S k) x = rprod xs x) by (rewrite <- HL; apply monic_factor; [apply desc_nodup; auto|]; rewrite List.Forall_forall in HR; rewrite HL; auto).
      clear - S1 F. revert S1. generalize 1. induction ys as [|y ys IHy]; intros s; cbn [alt]; auto. intros [H1 H2]. split; [rewrite F; auto|apply IHy; auto].
Qed.

(* ------------------------------------------------------------------ linear independence *)
Lemma pol_sumn m n f : (forall j, (j < n)%nat -> pol m (f j)) -> pol m (fun x => sumn n (fun j => f j x)).
Proof. intros H. apply (pol_sum m (seq 0 n) f). intros j Hj. apply in_seq in Hj. apply H. lia. Qed.
Lemma monic_independent a b k : (forall i, (0 < i <= k)%nat -> 0 < b i) -> forall c, (forall x, sumn (S k) (fun j => c j * monic a b j x) = 0) -> forall j, (j <= k)%nat -> c j = 0.
Proof.
  induction k as [|k IH]; intros Hb c H j Hj.
  - replace j with 0%nat by lia. specialize (H 0). unfold sumn in H. cbn in H. lra.
  - destruct (real_zeros a b k ltac:(intros; apply Hb; lia)) as [xs [HL [HS [HR _]]]]. rewrite List.Forall_forall in HR.
    assert (Z : forall x, sumn (S k) (fun j => c j * monic a b j x) = 0).
    { apply (pol_unique xs _ (fun _ => 0)); [apply desc_nodup; auto| |apply pol_zero|].
      - rewrite HL. apply (pol_sumn (S k) (S k) (fun j x => c j * monic a b j x)). intros i Hi. apply pol_scal. apply (pol_le (S i)); [lia|]. apply pol_monic.
      - intros x Hx. specialize (H x). rewrite sumn_S, HR in H by auto. lra. }
    assert (P := IH ltac:(intros; apply Hb; lia) c Z).
    destruct (Nat.eq_dec j (S k)) as [->|N]; [|apply P; lia].
    destruct (monic_pos_above a b (S k) 0 ltac:(intros; apply Rlt_le, Hb; lia)) as [M [_ HM]]. specialize (H M). rewrite sumn_S, Z in H. destruct (Rmult_integral (c (S k)) (monic a b (S k) M)); [lra|auto|lra].
Qed.

(* ------------------------------------------------------------------ the decomposition *)
Lemma entry_build n (f : nat -> nat -> R) i j : (i < n)%nat -> (j < n)%nat -> entry (map (fun i => map (f i) (seq 0 n)) (seq 0 n)) i j = f i j.
Proof.
  intros Hi Hj. unfold entry. rewrite (nth_indep _ [] (map (f 0%nat) (seq 0 n))) by (rewrite map_length, seq_length; auto). rewrite (map_nth (fun i => map (f i) (seq 0 n))), seq_nth by auto.
  rewrite (nth_indep _ 0 (f (0 + i)%nat 0%nat)) by (rewrite map_length, seq_length; auto). rewrite map_nth, seq_nth by auto. auto.
Qed.
Lemma rev_sorted xs : StronglySorted Rgt xs -> StronglySorted Rlt (rev xs).
Proof.
  induction 1 as [|x xs Hs IH HF]; cbn; [constructor|]. assert (G : forall l, StronglySorted Rlt l -> List.Forall (fun y => y < x) l -> StronglySorted Rlt (l ++ [x])).
  { clear. induction 1 as [|y l Hs IH HF]; intros H; cbn; [constructor; constructor|]. inversion H; subst. constructor; [apply IH; auto|]. apply Forall_app. split; auto. }
  apply G; auto. apply List.Forall_rev. eapply List.Forall_impl; [|exact HF]. cbn. intros; lra.
Qed.
Lemma sorted_nth_neq l : StronglySorted Rlt l -> forall i j, (i < length l)%nat -> (j < length l)%nat -> nth i l 0 = nth j l 0 -> i = j.
Proof.
  intros H i j Hi Hj E. apply (proj1 (NoDup_nth l 0)); auto. clear - H. induction H as [|x xs Hs IH HF]; constructor; auto. intros Hi. rewrite List.Forall_forall in HF. specialize (HF x Hi). lra.
Qed.
Lemma lt_sorted_le l : StronglySorted Rlt l -> Sorted Rle l.
Proof. induction 1 as [|x xs Hs IH HF]; constructor; auto. destruct xs; constructor. inversion HF; subst. lra. Qed.
Lemma tri_sym d e i j : tri d e i j = tri d e j i.
Proof.
  unfold tri. destruct (Nat.eqb_spec i j) as [->|]; [rewrite Nat.eqb_refl; auto|]. destruct (Nat.eqb_spec j i); [lia|].
  rewrite (Nat.eqb_sym (S i) j), (Nat.eqb_sym (S j) i). destruct (Nat.eqb_spec i (S j)); destruct (Nat.eqb_spec j (S i)); auto; lia.
Qed.
Theorem eigen_exists d e n : length d = S n -> length e = n -> (forall i, (i < n)%nat -> nth i e 0 <> 0) -> exists x V, eigen_decomposition d e x V /\ StronglySorted Rlt x.
Proof.
  intros Hd Hl He. assert (Hb : forall i, (0 < i <= n)%nat -> 0 < brec e i) by (intros i Hi; unfold brec; assert (nth (i - 1) e 0 <> 0) by (apply He; lia); nra).
  destruct (real_zeros (arec d) (brec e) n Hb) as [xs [HL [HS [HR _]]]]. rewrite List.Forall_forall in HR.
  set (x := rev xs). assert (Lx : length x = S n) by (unfold x; rewrite rev_length; auto). assert (Sx : StronglySorted Rlt x) by (apply rev_sorted; auto).
  assert (Rx : forall k, (k < S n)%nat -> monic (arec d) (brec e) (S n) (nth k x 0) = 0) by (intros k Hk; apply HR; apply in_rev; apply (nth_In x); rewrite Lx; exact Hk).
  set (v := fun k j => monic (arec d) (brec e) j (nth k x 0) / eprod e j).
  assert (Ev : forall k i, (k < S n)%nat -> (i < S n)%nat -> sumn (S n) (fun j => tri d e i j * v k j) = nth k x 0 * v k i).
  { intros k i Hk Hi. destruct (Nat.eq_dec i n) as [->|N]; [|apply (monic_rows d e (nth k x 0) (S n)); [intros; apply He|]; lia].
    unfold v. rewrite (monic_last_row d e (nth k x 0) n) by (intros; apply He; lia). rewrite Rx by auto. unfold Rdiv. ring. }
  set (N2 := fun k => sumn (S n) (fun j => v k j ^ 2)).
  assert (Np : forall k, 0 < N2 k).
  { intros k. unfold N2, sumn. cbn [seq map Rsum]. assert (0 <= Rsum (map (fun j => v k j ^ 2) (seq 1 n))) by (apply Rsum_nonneg; intros y Hy; apply in_map_iff in Hy; destruct Hy as [i [<- _]]; apply pow2_ge_0).
    unfold v at 1. cbn [monic eprod]. replace ((1 / 1) ^ 2) with 1 by field. lra. }
  assert (Or : forall k l, (k < S n)%nat -> (l < S n)%nat -> k <> l -> sumn (S n) (fun j => v k j * v l j) = 0).
  { intros k l Hk Hl' N. assert (E : sumn (S n) (fun i => v l i * (nth k x 0 * v k i)) = sumn (S n) (fun j => v k j * (nth l x 0 * v l j))).
    - rewrite (sumn_ext _ _ (fun i => sumn (S n) (fun j => v l i * (tri d e i j * v k j)))) by (intros i Hi; rewrite <- Ev by auto; rewrite sumn_scal; auto).
      rewrite sumn_swap. apply sumn_ext. intros j Hj. rewrite <- Ev by auto. rewrite (sumn_ext _ _ (fun i => v k j * (tri d e j i * v l i))) by (intros i _; rewrite (tri_sym d e i j); ring). apply sumn_scal.
    - rewrite (sumn_ext _ _ (fun i => nth k x 0 * (v k i * v l i))) in E by (intros; ring). rewrite (sumn_ext _ (fun j => v k j * (nth l x 0 * v l j)) (fun i => nth l x 0 * (v k i * v l i))) in E by (intros; ring). rewrite !sumn_scal in E.
      assert (T : (nth k x 0 - nth l x 0) * sumn (S n) (fun j => v k j * v l j) = 0) by lra. apply Rmult_integral in T. destruct T as [T|T]; auto. exfalso. apply N. apply (sorted_nth_neq x Sx); try lia. lra. }
  set (V := map (fun i => map (fun k => v k i / sqrt (N2 k)) (seq 0 (S n))) (seq 0 (S n))).
  assert (EV : forall i k, (i < S n)%nat -> (k < S n)%nat -> entry V i k = v k i / sqrt (N2 k)) by (intros i k Hi Hk; unfold V; exact (entry_build (S n) (fun i k => v k i / sqrt (N2 k)) i k Hi Hk)).
  assert (Sq : forall k, sqrt (N2 k) <> 0) by (intros k; apply Rgt_not_eq; apply sqrt_lt_R0; auto).
  assert (C : forall k l, (k < S n)%nat -> (l < S n)%nat -> sumn (S n) (fun j => entry V j k * entry V j l) = delta k l).
  { intros k l Hk Hl'. rewrite (sumn_ext _ _ (fun j => / sqrt (N2 k) * / sqrt (N2 l) * (v k j * v l j))) by (intros j Hj; rewrite !EV by auto; unfold Rdiv; ring). rewrite sumn_scal. unfold delta. destruct (Nat.eqb_spec k l) as [->|N].
    - rewrite (sumn_ext _ _ (fun j => v l j ^ 2)) by (intros; ring). fold (N2 l). replace (N2 l) with (sqrt (N2 l) * sqrt (N2 l)) at 3 by (apply sqrt_sqrt; apply Rlt_le; auto). field. auto.
    - rewrite Or by auto. ring. }
  exists x, V. split; auto. unfold eigen_decomposition. rewrite Hd. split; [auto|]. split; [unfold V; rewrite map_length, seq_length; auto|]. split.
  { apply List.Forall_forall. intros row Hr. unfold V in Hr. apply in_map_iff in Hr. destruct Hr as [i [<- _]]. rewrite map_length, seq_length. auto. }
  split; [apply lt_sorted_le; auto|]. split; [|split; [exact C|]].
  - intros i k Hi Hk. rewrite (sumn_ext _ _ (fun j => / sqrt (N2 k) * (tri d e i j * v k j))) by (intros j Hj; rewrite EV by auto; unfold Rdiv; ring). rewrite sumn_scal, Ev, EV by auto. unfold Rdiv. ring.
  - intros i j Hi Hj.
    (* the row (V V^T)_i - e_i annihilates all columns of V *)
    set (c := fun j => sumn (S n) (fun k => entry V i k * entry V j k) - delta i j).
    assert (Z0 : forall l, (l < S n)%nat -> sumn (S n) (fun j => c j * entry V j l) = 0).
    { intros l Hl'. unfold c. rewrite (sumn_ext _ _ (fun j => sumn (S n) (fun k => entry V i k * (entry V j k * entry V j l)) + (-1) * (if (i =? j)%nat then entry V j l else 0))).
      - rewrite sumn_add, sumn_scal, sumn_swap. rewrite (sumn_pick (S n) i (fun j => entry V j l)) by auto.
        rewrite (sumn_ext _ _ (fun k => if (l =? k)%nat then entry V i k else 0)) by (intros k Hk; rewrite sumn_scal, C by auto; unfold delta; rewrite Nat.eqb_sym; destruct (l =? k)%nat; ring).
        rewrite sumn_pick by auto. ring.
      - intros j0 Hj0. rewrite (sumn_ext _ (fun k => entry V i k * (entry V j0 k * entry V j0 l)) (fun k => entry V j0 l * (entry V i k * entry V j0 k))) by (intros; ring). rewrite sumn_scal. unfold delta. destruct (i =? j0)%nat; ring. }
    assert (Z1 : forall y, sumn (S n) (fun j => (c j / eprod e j) * monic (arec d) (brec e) j y) = 0).
    { apply (pol_unique x _ (fun _ => 0)).
      - apply NoDup_rev. apply desc_nodup. auto.
      - rewrite Lx. apply (pol_sumn (S n) (S n) (fun j y => c j / eprod e j * monic (arec d) (brec e) j y)). intros j0 Hj0. apply pol_scal. apply (pol_le (S j0)); [lia|]. apply pol_monic.
      - apply pol_zero.
      - intros y Hy. destruct (In_nth x y 0 Hy) as [l [Hl' <-]]. assert (Z := Z0 l ltac:(lia)).
        rewrite (sumn_ext _ _ (fun j => / sqrt (N2 l) * (c j / eprod e j * monic (arec d) (brec e) j (nth l x 0)))) in Z by (intros j0 Hj0; rewrite EV by lia; unfold v, Rdiv; ring).
        rewrite sumn_scal in Z. apply Rmult_integral in Z. destruct Z as [Z|Z]; auto. exfalso. revert Z. apply Rinv_neq_0_compat. auto. }
    assert (Z2 := monic_independent (arec d) (brec e) n Hb (fun j => c j / eprod e j) Z1 j ltac:(lia)). cbn beta in Z2.
    assert (eprod e j <> 0) by (apply eprod_neq; intros; apply He; lia).
    assert (c j = 0) by (apply (Rmult_eq_reg_r (/ eprod e j)); [unfold Rdiv in Z2; lra|apply Rinv_neq_0_compat; auto]). unfold c in H0. lra.
Qed.
