(** Recovering recurrence coefficients from a Gauss rule. *)
From Coq Require Import Reals List Arith ZArith Bool Lia Lra Sorted Permutation.
From Verif Require Import Spec Spec1 RsumLemmas AdaptModel PyBase UnModel C1Model Interp C1Proofs GwSpec GwModel GwProofs GwExist GwRc KronrodMain RcSpec RcModel.
Import ListNotations.
Set Bullet Behavior "Strict Subproofs".
Open Scope R_scope.

(* ------------------------------------------------------------------ orthonormal eigenvectors, in any order *)
Section Columns.
Context (d e : list R) (x : nat -> R) (v : nat -> nat -> R) (n : nat).
Context (HE : forall j i, (j < S n)%nat -> (i < S n)%nat -> sumn (S n) (fun k => tri d e j k * v k i) = x i * v j i).
Context (HR : forall j k, (j < S n)%nat -> (k < S n)%nat -> sumn (S n) (fun i => v j i * v k i) = delta j k).
Lemma c_power m : forall j, (m < j)%nat -> (j < S n)%nat -> sumn (S n) (fun i => v 0%nat i * x i ^ m * v j i) = 0.
Proof.
  induction m as [|m IH]; intros j Hm Lj.
  - rewrite (sumn_ext _ _ (fun i => v 0%nat i * v j i)) by (intros; cbn; ring). rewrite HR by lia. unfold delta. destruct (Nat.eqb_spec 0 j); [lia|auto].
  - rewrite (sumn_ext _ _ (fun i => (match j with O => 0 | S j' => nth j' e 0 * (v 0%nat i * x i ^ m * v j' i) end) + nth j d 0 * (v 0%nat i * x i ^ m * v j i)
      + (if (S j <? S n)%nat then nth j e 0 * (v 0%nat i * x i ^ m * v (S j) i) else 0))).
    + rewrite !sumn_add, sumn_scal, IH by lia. destruct j as [|j]; [lia|]. rewrite sumn_scal, IH by lia.
      destruct (Nat.ltb_spec (S (S j)) (S n)); [rewrite sumn_scal, IH by lia; ring|rewrite sumn_zero by auto; ring].
    + intros i Li. cbn [pow]. replace (v 0%nat i * (x i * x i ^ m) * v j i) with (v 0%nat i * x i ^ m * (x i * v j i)) by ring.
      rewrite <- (HE j i) by lia. rewrite (tri_row d e (fun k => v k i)) by auto. destruct j; destruct (S _ <? S n)%nat; ring.
Qed.
Context (Hx : forall i j, (i < S n)%nat -> (j < S n)%nat -> x i = x j -> i = j) (H0 : forall i, (i < S n)%nat -> v 0%nat i <> 0).
Lemma nodup_x : NoDup (map x (seq 0 (S n))).
Proof.
  apply (NoDup_nth _ (x 0%nat)). intros i j Hi Hj. rewrite map_length, seq_length in Hi, Hj. rewrite !map_nth, !seq_nth by auto. apply Hx; auto.
Qed.
Lemma no_small_zero a b k : (forall i, 0 <= b i) -> (k <= n)%nat -> ~ (forall i, (i < S n)%nat -> monic a b k (x i) = 0).
Proof.
  intros Hb Hk H. assert (Z : forall y, monic a b k y = 0).
  { apply (pol_unique (map x (seq 0 (S n))) _ (fun _ => 0)); [apply nodup_x| |apply pol_zero|].
    - rewrite map_length, seq_length. apply (pol_le (S k)); [lia|]. apply pol_monic.
    - intros y Hy. apply in_map_iff in Hy. destruct Hy as [i [<- Hi]]. apply in_seq in Hi. apply H. lia. }
  destruct (monic_pos_above a b k 0 ltac:(intros; apply Hb)) as [M [_ HM]]. rewrite Z in HM. lra.
Qed.
Lemma c_offdiag k : (k < n)%nat -> nth k e 0 <> 0.
Proof.
  induction k as [k IH] using lt_wf_ind. intros Hk E.
  apply (no_small_zero (arec d) (brec e) (S k)); [intros; unfold brec; apply pow2_ge_0|lia|]. intros i Hi.
  assert (G : v 0%nat i * monic (arec d) (brec e) (S k) (x i) = - 0 * eprod e k).
  { apply (last_row_monic d e (fun j => v j i) (x i) k 0).
    - intros j Hj. apply IH; lia.
    - intros j Hj. rewrite <- HE by lia. rewrite !(tri_row d e (fun k => v k i)) by lia. destruct (Nat.ltb_spec (S j) (S k)); [|lia]. destruct (Nat.ltb_spec (S j) (S n)); [|lia]. auto.
    - rewrite <- HE by lia. rewrite !(tri_row d e (fun k => v k i)) by lia. destruct (Nat.ltb_spec (S k) (S k)); [lia|]. destruct (Nat.ltb_spec (S k) (S n)); [|lia]. rewrite E. destruct k; ring. }
  rewrite Ropp_0, Rmult_0_l in G. apply Rmult_integral in G. destruct G as [G|G]; auto. exfalso. exact (H0 i Hi G).
Qed.
Lemma c_orthogonal c : forall k m, (m < k <= S n)%nat -> sumn (S n) (fun i => (c * v 0%nat i) ^ 2 * (x i ^ m * monic (arec d) (brec e) k (x i))) = 0.
Proof.
  intros k m [Hm Hk]. assert (NZ : forall i, (S i < S n)%nat -> nth i e 0 <> 0) by (intros i Hi; apply c_offdiag; lia). destruct (Nat.eq_dec k (S n)) as [->|N].
  - apply sumn_zero. intros i Hi. assert (G := last_row_monic d e (fun j => v j i) (x i) n 0 NZ ltac:(intros; apply HE; lia) ltac:(cbn beta; rewrite HE by lia; ring)).
    rewrite Ropp_0, Rmult_0_l in G. apply Rmult_integral in G. destruct G as [G|G]; [exfalso; exact (H0 i Hi G)|]. rewrite G. ring.
  - rewrite (sumn_ext _ _ (fun i => c ^ 2 * eprod e k * (v 0%nat i * x i ^ m * v k i))).
    + rewrite sumn_scal, c_power by lia. ring.
    + intros i Hi. assert (C := rows_monic d e (fun j => v j i) (x i) (S n) NZ ltac:(intros; apply HE; lia) k ltac:(lia)).
      replace ((c * v 0%nat i) ^ 2 * (x i ^ m * monic (arec d) (brec e) k (x i))) with (c ^ 2 * v 0%nat i * x i ^ m * (v 0%nat i * monic (arec d) (brec e) k (x i))) by ring. rewrite <- C. ring.
Qed.
End Columns.

(* ------------------------------------------------------------------ what the reduction says *)
Lemma reduce_AQ m (A Q T : nat -> nat -> R) : (forall i j, (i < m)%nat -> (j < m)%nat -> sumn m (fun k => Q i k * Q j k) = delta i j) ->
  (forall i j, (i < m)%nat -> (j < m)%nat -> sumn m (fun k => sumn m (fun l => Q k i * A k l * Q l j)) = T i j) ->
  forall i j, (i < m)%nat -> (j < m)%nat -> sumn m (fun l => A i l * Q l j) = sumn m (fun k => Q i k * T k j).
Proof.
  intros HQ HT i j Hi Hj.
  rewrite (sumn_ext m (fun k => Q i k * T k j) (fun k => sumn m (fun a => (Q i k * Q a k) * sumn m (fun l => A a l * Q l j)))).
  - rewrite sumn_swap. rewrite (sumn_ext m (fun a => sumn m (fun k => Q i k * Q a k * sumn m (fun l => A a l * Q l j))) (fun a => if (i =? a)%nat then sumn m (fun l => A a l * Q l j) else 0)).
    + rewrite (sumn_pick m i (fun a => sumn m (fun l => A a l * Q l j))) by auto. auto.
    + intros a Ha. rewrite (sumn_ext _ _ (fun k => sumn m (fun l => A a l * Q l j) * (Q i k * Q a k))) by (intros; ring). rewrite sumn_scal, HQ by auto. unfold delta. destruct (i =? a)%nat; ring.
  - intros k Hk. rewrite <- HT by auto. rewrite <- sumn_scal. apply sumn_ext. intros a Ha. rewrite (sumn_ext _ _ (fun l => Q a k * (A a l * Q l j))) by (intros; ring). rewrite sumn_scal. ring.
Qed.

Lemma nth_removelast (l : list R) k : (S k < length l)%nat -> nth k (removelast l) 0 = nth k l 0.
Proof. revert k. induction l as [|x l IH]; intros k H; [cbn in H; lia|]. destruct l as [|y l]; [cbn in H; lia|]. change (removelast (x :: y :: l)) with (x :: removelast (y :: l)). destruct k; auto. cbn [nth]. apply IH. cbn in *. lia. Qed.
Lemma length_removelast (l : list R) : length (removelast l) = (length l - 1)%nat.
Proof. induction l as [|x [|y l] IH]; auto. change (removelast (x :: y :: l)) with (x :: removelast (y :: l)). cbn [length] in *. rewrite IH. lia. Qed.
Lemma nth_tl (l : list R) k : nth k (tl l) 0 = nth (S k) l 0.
Proof. destruct l; cbn; auto. destruct k; auto. Qed.

(** The entries of the matrix. *)
Section Matrix.
Context (points sq : list R) (n : nat) (Lp : length points = n) (Ls : length sq = n).
Lemma gauss_matrix_length : length (gauss_matrix points sq) = S n.
Proof. unfold gauss_matrix. rewrite app_length, map_length, seq_length, Lp. cbn. lia. Qed.
Lemma gauss_matrix_row i : (i < n)%nat -> nth i (gauss_matrix points sq) [] = map (fun j => if (i =? j)%nat then nth i points 0 else 0) (seq 0 n) ++ [nth i sq 0].
Proof.
  intros Hi. unfold gauss_matrix. rewrite Lp. rewrite app_nth1 by (rewrite map_length, seq_length; auto).
  set (f := fun i => map (fun j => if (i =? j)%nat then nth i points 0 else 0) (seq 0 n) ++ [nth i sq 0]). rewrite (nth_indep _ [] (f 0%nat)) by (rewrite map_length, seq_length; auto).
  rewrite (map_nth f), seq_nth by auto. auto.
Qed.
Lemma gauss_matrix_last : nth n (gauss_matrix points sq) [] = sq ++ [1].
Proof. unfold gauss_matrix. rewrite Lp. rewrite app_nth2 by (rewrite map_length, seq_length; lia). rewrite map_length, seq_length, Nat.sub_diag. auto. Qed.
Lemma gauss_matrix_entry i j : (i < n)%nat -> (j < n)%nat -> entry (gauss_matrix points sq) i j = if (i =? j)%nat then nth i points 0 else 0.
Proof. intros Hi Hj. unfold entry. rewrite gauss_matrix_row by auto. rewrite app_nth1 by (rewrite map_length, seq_length; auto). apply (nth_seq (fun j => if (i =? j)%nat then nth i points 0 else 0)). auto. Qed.
Lemma gauss_matrix_col i : (i < n)%nat -> entry (gauss_matrix points sq) i n = nth i sq 0.
Proof. intros Hi. unfold entry. rewrite gauss_matrix_row by auto. rewrite app_nth2 by (rewrite map_length, seq_length; lia). rewrite map_length, seq_length, Nat.sub_diag. auto. Qed.
Lemma gauss_matrix_bottom j : (j < n)%nat -> entry (gauss_matrix points sq) n j = nth j sq 0.
Proof. intros Hi. unfold entry. rewrite gauss_matrix_last. rewrite app_nth1 by lia. auto. Qed.
Lemma gauss_matrix_corner : entry (gauss_matrix points sq) n n = 1.
Proof. unfold entry. rewrite gauss_matrix_last. rewrite app_nth2 by lia. rewrite Ls, Nat.sub_diag. auto. Qed.
Lemma gauss_matrix_square : square (S n) (gauss_matrix points sq).
Proof.
  split; [apply gauss_matrix_length|]. apply List.Forall_forall. intros row Hr. destruct (In_nth _ _ [] Hr) as [i [Hi <-]]. rewrite gauss_matrix_length in Hi.
  destruct (Nat.eq_dec i n) as [->|N]; [rewrite gauss_matrix_last, app_length; cbn; lia|]. rewrite gauss_matrix_row by lia. rewrite app_length, map_length, seq_length. cbn. lia.
Qed.
Lemma gauss_matrix_symmetric : symmetric (S n) (gauss_matrix points sq).
Proof.
  intros i j Hi Hj. destruct (Nat.eq_dec i n) as [->|Ni]; destruct (Nat.eq_dec j n) as [->|Nj]; auto.
  - rewrite gauss_matrix_bottom, gauss_matrix_col by lia. auto.
  - rewrite gauss_matrix_bottom, gauss_matrix_col by lia. auto.
  - rewrite !gauss_matrix_entry by lia. rewrite Nat.eqb_sym. destruct (Nat.eqb_spec j i) as [->|]; auto.
Qed.
End Matrix.

(** From the reduction to the eigenvector equations for the reversed diagonals. *)
Lemma reduction_columns points sq n d e : length points = S n -> length sq = S n -> tridiagonalises (gauss_matrix points sq) d e ->
  length d = S (S n) /\ length e = S n /\ exists v : nat -> nat -> R,
    (forall j i, (j < S n)%nat -> (i < S n)%nat -> sumn (S n) (fun k => tri (rev (removelast d)) (tl (rev e)) j k * v k i) = nth i points 0 * v j i) /\
    (forall j k, (j < S n)%nat -> (k < S n)%nat -> sumn (S n) (fun i => v j i * v k i) = delta j k) /\
    (forall i, (i < S n)%nat -> nth i sq 0 = nth 0 (rev e) 0 * v 0%nat i).
Proof.
  intros Lp Ls [Ld [Le [Q [HC [HR [HL HT]]]]]]. rewrite (gauss_matrix_length points sq (S n)) in * by auto. split; [lia|]. split; [lia|].
  assert (Le' : length e = S n) by lia. clear Le. replace (S (S n) - 1)%nat with (S n) in HL by lia.
  assert (AQ := reduce_AQ (S (S n)) (entry (gauss_matrix points sq)) Q (tri d e) HR HT).
  exists (fun j i => Q i (n - j)%nat).
  assert (Nal : forall j, (j < S n)%nat -> nth j (rev (removelast d)) 0 = nth (n - j) d 0).
  { intros j Hj. rewrite rev_nth by (rewrite length_removelast; lia). rewrite length_removelast, Ld. rewrite nth_removelast by lia. f_equal. }
  assert (Nel : forall j, (j < n)%nat -> nth j (tl (rev e)) 0 = nth (n - S j) e 0).
  { intros j Hj. rewrite nth_tl, rev_nth by lia. f_equal. lia. }
  assert (QL : forall i, (i < S n)%nat -> Q i (S n) = 0) by (intros i Hi; rewrite (proj1 (HL i ltac:(lia))); unfold delta; destruct (Nat.eqb_spec i (S n)); [lia|auto]).
  assert (QB : forall i, (i < S n)%nat -> Q (S n) i = 0) by (intros i Hi; rewrite (proj2 (HL i ltac:(lia))); unfold delta; destruct (Nat.eqb_spec i (S n)); [lia|auto]).
  assert (QC : Q (S n) (S n) = 1) by (rewrite (proj1 (HL (S n) ltac:(lia))); unfold delta; rewrite Nat.eqb_refl; auto).
  split; [|split].
  - intros j i Hj Hi. assert (E := AQ i (n - j)%nat ltac:(lia) ltac:(lia)).
    rewrite (sumn_ext _ (fun k => Q i k * tri d e k (n - j)) (fun k => tri d e (n - j) k * Q i k)) in E by (intros; rewrite tri_sym; ring).
    rewrite tri_row in E by lia. rewrite (tri_row (rev (removelast d)) (tl (rev e)) (fun k => Q i (n - k)%nat)) by auto.
    rewrite sumn_S in E. rewrite QB in E by lia. rewrite Rmult_0_r, Rplus_0_r in E.
    rewrite (sumn_ext _ _ (fun l => if (i =? l)%nat then nth i points 0 * Q l (n - j)%nat else 0)) in E.
    2:{ intros l Hl. rewrite (gauss_matrix_entry points sq (S n)) by lia. destruct (i =? l)%nat; ring. }
    rewrite (sumn_pick (S n) i (fun l => nth i points 0 * Q l (n - j)%nat)) in E by lia. rewrite E.
    rewrite Nal by lia. destruct (Nat.ltb_spec (S (n - j)) (S (S n))); [|lia].
    destruct j as [|j].
    + rewrite !Nat.sub_0_r in *. rewrite (QL i) by lia. destruct n as [|n'].
      * cbn. ring.
      * destruct (Nat.ltb_spec 1 (S (S n'))); [|lia]. rewrite Nel by lia. replace (S n' - 1)%nat with n' by lia. ring.
    + rewrite Nel by lia. replace (S (n - S j)) with (n - j)%nat by lia.
      destruct (n - S j)%nat as [|q] eqn:Eq.
      * destruct (Nat.ltb_spec (S (S j)) (S n)); [lia|]. ring.
      * destruct (Nat.ltb_spec (S (S j)) (S n)); [|lia]. rewrite Nel by lia. replace (n - S (S j))%nat with q by lia. ring.
  - intros j k Hj Hk. assert (E := HC (n - j)%nat (n - k)%nat ltac:(lia) ltac:(lia)). rewrite sumn_S, !QB in E by lia. rewrite Rmult_0_l, Rplus_0_r in E. rewrite E.
    unfold delta. destruct (Nat.eqb_spec (n - j) (n - k)); destruct (Nat.eqb_spec j k); auto; lia.
  - intros i Hi. assert (E := AQ i (S n) ltac:(lia) ltac:(lia)). rewrite sumn_S in E. rewrite (gauss_matrix_col points sq (S n)) in E by auto. rewrite QC in E.
    rewrite sumn_zero in E by (intros k Hk; rewrite QL by auto; ring).
    rewrite (sumn_ext _ _ (fun k => tri d e (S n) k * Q i k)) in E by (intros; rewrite tri_sym; ring). rewrite tri_row in E by lia. destruct (Nat.ltb_spec (S (S n)) (S (S n))); [lia|].
    rewrite QL in E by auto. rewrite Nat.sub_0_r. rewrite rev_nth by lia. rewrite Le'. replace (S n - 1)%nat with n by lia. lra.
Qed.

(** ... and back. *)
Lemma columns_reduction points sq n al el c (v : nat -> nat -> R) : length points = S n -> length sq = S n -> length al = S n -> length el = n ->
  (forall j i, (j < S n)%nat -> (i < S n)%nat -> sumn (S n) (fun k => tri al el j k * v k i) = nth i points 0 * v j i) ->
  (forall j k, (j < S n)%nat -> (k < S n)%nat -> sumn (S n) (fun i => v j i * v k i) = delta j k) ->
  (forall i l, (i < S n)%nat -> (l < S n)%nat -> sumn (S n) (fun j => v j i * v j l) = delta i l) ->
  (forall i, (i < S n)%nat -> nth i sq 0 = c * v 0%nat i) ->
  tridiagonalises (gauss_matrix points sq) (rev al ++ [1]) (rev (c :: el)).
Proof.
  intros Lp Ls La Le HE HR HC Hs. unfold tridiagonalises. rewrite (gauss_matrix_length points sq (S n)) by auto.
  split; [rewrite app_length, rev_length; cbn; lia|]. split; [rewrite rev_length; cbn; lia|].
  set (Q := fun i k => if (i =? S n)%nat then (if (k =? S n)%nat then 1 else 0) else if (k =? S n)%nat then 0 else v (n - k)%nat i).
  assert (QV : forall i k, (i < S n)%nat -> (k < S n)%nat -> Q i k = v (n - k)%nat i) by (intros i k Hi Hk; unfold Q; destruct (Nat.eqb_spec i (S n)); [lia|]; destruct (Nat.eqb_spec k (S n)); [lia|auto]).
  assert (QL : forall i, (i < S n)%nat -> Q i (S n) = 0) by (intros i Hi; unfold Q; destruct (Nat.eqb_spec i (S n)); [lia|]; rewrite Nat.eqb_refl; auto).
  assert (QB : forall k, (k < S n)%nat -> Q (S n) k = 0) by (intros k Hk; unfold Q; rewrite Nat.eqb_refl; destruct (Nat.eqb_spec k (S n)); [lia|auto]).
  assert (QC : Q (S n) (S n) = 1) by (unfold Q; rewrite Nat.eqb_refl; auto).
  assert (Rev : forall f, sumn (S n) (fun k => f (n - k)%nat) = sumn (S n) f).
  { intros f. unfold sumn. rewrite (Rsum_perm _ _ (Permutation_rev (map f (seq 0 (S n))))). f_equal. rewrite <- map_rev.
    apply (nth_ext _ _ 0 0); [rewrite !map_length, rev_length; auto|]. intros k Hk. rewrite map_length, seq_length in Hk. rewrite nth_seq by auto.
    rewrite (nth_indep _ 0 (f 0%nat)) by (rewrite map_length, rev_length, seq_length; auto). rewrite map_nth, rev_nth by (rewrite seq_length; auto). rewrite seq_length, seq_nth by lia. f_equal. }
  exists Q. replace (S (S n) - 1)%nat with (S n) by lia.
  assert (DN : delta (S n) (S n) = 1) by (unfold delta; rewrite Nat.eqb_refl; auto).
  assert (DL : forall i, (i < S n)%nat -> delta i (S n) = 0 /\ delta (S n) i = 0) by (intros i Hi; unfold delta; destruct (Nat.eqb_spec i (S n)); [lia|]; destruct (Nat.eqb_spec (S n) i); [lia|auto]).
  split; [|split; [|split]].
  - intros i j Hi Hj. rewrite sumn_S. destruct (Nat.eq_dec i (S n)) as [->|Ni]; destruct (Nat.eq_dec j (S n)) as [->|Nj].
    + rewrite QC, DN, sumn_zero; [ring|]. intros k Hk. rewrite QL by auto. ring.
    + rewrite (QB j) by lia. rewrite (proj2 (DL j ltac:(lia))). rewrite sumn_zero; [ring|]. intros k Hk. rewrite QL by auto. ring.
    + rewrite (QB i) by lia. rewrite (proj1 (DL i ltac:(lia))). rewrite sumn_zero; [ring|]. intros k Hk. rewrite (QL k) by auto. ring.
    + rewrite (QB i) by lia. rewrite (sumn_ext _ _ (fun k => v (n - i)%nat k * v (n - j)%nat k)) by (intros k Hk; rewrite !QV by lia; auto). rewrite HR by lia.
      unfold delta. destruct (Nat.eqb_spec (n - i) (n - j)); destruct (Nat.eqb_spec i j); try lia; ring.
  - intros i j Hi Hj. rewrite sumn_S. destruct (Nat.eq_dec i (S n)) as [->|Ni]; destruct (Nat.eq_dec j (S n)) as [->|Nj].
    + rewrite QC, DN, sumn_zero; [ring|]. intros k Hk. rewrite QB by auto. ring.
    + rewrite (QL j) by lia. rewrite (proj2 (DL j ltac:(lia))). rewrite sumn_zero; [ring|]. intros k Hk. rewrite QB by auto. ring.
    + rewrite (QL i) by lia. rewrite (proj1 (DL i ltac:(lia))). rewrite sumn_zero; [ring|]. intros k Hk. rewrite (QB k) by auto. ring.
    + rewrite (QL i) by lia. rewrite (sumn_ext _ _ (fun k => (fun k => v k i * v k j) (n - k)%nat)) by (intros k Hk; rewrite !QV by lia; auto). rewrite (Rev (fun k => v k i * v k j)), HC by lia. ring.
  - intros i Hi. destruct (Nat.eq_dec i (S n)) as [->|N]; [rewrite QC, DN; auto|]. rewrite QL, QB by lia. rewrite (proj1 (DL i ltac:(lia))). auto.
  - assert (Nd : forall k, (k < S n)%nat -> nth k (rev al ++ [1]) 0 = nth (n - k) al 0) by (intros k Hk; rewrite app_nth1 by (rewrite rev_length; lia); rewrite rev_nth by lia; f_equal; lia).
    assert (Ne : forall k, (k < n)%nat -> nth k (rev (c :: el)) 0 = nth (n - S k) el 0).
    { intros k Hk. cbn [rev]. rewrite app_nth1 by (rewrite rev_length; lia). rewrite rev_nth by lia. f_equal. lia. }
    assert (Nn : nth n (rev (c :: el)) 0 = c) by (cbn [rev]; rewrite app_nth2 by (rewrite rev_length; lia); rewrite rev_length, Le, Nat.sub_diag; auto).
    intros i j Hi Hj. rewrite sumn_S.
    (* inner sums *)
    assert (I1 : forall k, (k < S n)%nat -> sumn (S (S n)) (fun l => Q k i * entry (gauss_matrix points sq) k l * Q l j) = Q k i * (nth k points 0 * Q k j + nth k sq 0 * Q (S n) j)).
    { intros k Hk. rewrite sumn_S, (gauss_matrix_col points sq (S n)) by auto.
      rewrite (sumn_ext _ _ (fun l => if (k =? l)%nat then Q k i * nth k points 0 * Q l j else 0)) by (intros l Hl; rewrite (gauss_matrix_entry points sq (S n)) by auto; destruct (k =? l)%nat; ring).
      rewrite (sumn_pick (S n) k (fun l => Q k i * nth k points 0 * Q l j)) by auto. ring. }
    assert (I2 : sumn (S (S n)) (fun l => Q (S n) i * entry (gauss_matrix points sq) (S n) l * Q l j) = Q (S n) i * (sumn (S n) (fun l => nth l sq 0 * Q l j) + Q (S n) j)).
    { rewrite sumn_S, (gauss_matrix_corner points sq (S n)) by auto.
      rewrite (sumn_ext _ _ (fun l => Q (S n) i * (nth l sq 0 * Q l j))) by (intros l Hl; rewrite (gauss_matrix_bottom points sq (S n)) by auto; ring). rewrite sumn_scal. ring. }
    rewrite I2. rewrite (sumn_ext _ _ (fun k => Q k i * (nth k points 0 * Q k j + nth k sq 0 * Q (S n) j))) by auto. clear I1 I2.
    assert (SQ : forall j, (j < S n)%nat -> sumn (S n) (fun l => nth l sq 0 * Q l j) = if (j =? n)%nat then c else 0).
    { intros j' Hj'. rewrite (sumn_ext _ _ (fun l => c * (v 0%nat l * v (n - j')%nat l))) by (intros l Hl; rewrite Hs, QV by lia; ring). rewrite sumn_scal, HR by lia.
      unfold delta. destruct (Nat.eqb_spec 0 (n - j')); destruct (Nat.eqb_spec j' n); try lia; ring. }
    destruct (Nat.eq_dec i (S n)) as [->|Ni]; destruct (Nat.eq_dec j (S n)) as [->|Nj].
    + rewrite QC. rewrite !sumn_zero by (intros k Hk; rewrite QL by auto; ring). unfold tri. rewrite Nat.eqb_refl. rewrite app_nth2 by (rewrite rev_length; lia). rewrite rev_length, La, Nat.sub_diag. cbn. ring.
    + rewrite QC, (QB j), SQ by lia. rewrite sumn_zero by (intros k Hk; rewrite QL by auto; ring). unfold tri. destruct (Nat.eqb_spec (S n) j); [lia|]. destruct (Nat.eqb_spec (S n) (S j)) as [E|E].
      * replace j with n by lia. rewrite Nat.eqb_refl, Nn. ring.
      * destruct (Nat.eqb_spec j n); [lia|]. destruct (Nat.eqb_spec (S (S n)) j); [lia|]. ring.
    + rewrite QC, (QB i) by lia. rewrite (sumn_ext _ _ (fun k => nth k sq 0 * Q k i)) by (intros k Hk; rewrite (QL k) by auto; ring). rewrite SQ by lia. unfold tri. destruct (Nat.eqb_spec i (S n)); [lia|]. destruct (Nat.eqb_spec i (S (S n))); [lia|].
      destruct (Nat.eqb_spec (S i) (S n)) as [E|E]; destruct (Nat.eqb_spec i n) as [E2|E2]; try lia; [subst i; rewrite Nn|]; ring.
    + rewrite (QB i), (QB j) by lia. rewrite (sumn_ext _ _ (fun k => sumn (S n) (fun l => tri al el (n - j) l * (v (n - i)%nat k * v l k)))).
      2:{ intros k Hk. rewrite !QV by lia. rewrite Rmult_0_r, Rplus_0_r, <- HE by lia. rewrite <- sumn_scal. apply sumn_ext. intros; ring. }
      rewrite sumn_swap. rewrite (sumn_ext _ _ (fun l => if (n - i =? l)%nat then tri al el (n - j) l else 0)) by (intros l Hl; rewrite sumn_scal, HR by lia; unfold delta; destruct (n - i =? l)%nat; ring).
      rewrite (sumn_pick (S n) (n - i) (fun l => tri al el (n - j) l)) by lia. rewrite Rmult_0_l, Rplus_0_r. unfold tri.
      destruct (Nat.eqb_spec i j) as [->|Nij]; [rewrite Nat.eqb_refl, Nd by lia; auto|]. destruct (Nat.eqb_spec (n - j) (n - i)); [lia|].
      destruct (Nat.eqb_spec i (S j)) as [->|N1].
      * destruct (Nat.eqb_spec (n - j) (S (n - S j))); [|lia]. rewrite Ne by lia. f_equal. 
      * destruct (Nat.eqb_spec (S i) j) as [<-|N2].
        -- destruct (Nat.eqb_spec (n - S i) (S (n - i))); [lia|]. destruct (Nat.eqb_spec (S (n - S i)) (n - i)); [|lia]. rewrite Ne by lia. auto.
        -- destruct (Nat.eqb_spec (n - j) (S (n - i))); [lia|]. destruct (Nat.eqb_spec (S (n - j)) (n - i)); [lia|]. auto.
Qed.

(* ------------------------------------------------------------------ the recurrence of a discrete measure exists *)
Lemma apply1_monic_ortho a b q k f : (forall m, (m < k)%nat -> apply1 q (fun x => x ^ m * monic a b k x) = 0) -> pol k f -> apply1 q (fun x => f x * monic a b k x) = 0.
Proof.
  intros H [c [Lc Ec]]. rewrite (apply1_fext q _ (fun x => x ^ 0 * peval c x * monic a b k x)) by (intros; rewrite Ec; cbn [pow]; ring).
  assert (G : forall c m, (m + length c <= k)%nat -> apply1 q (fun x => x ^ m * peval c x * monic a b k x) = 0).
  { clear - H. induction c as [|u c IH]; intros m L.
    - unfold apply1. apply Rsum_map_zero. intros; cbn [peval]; ring.
    - cbn [length] in L. rewrite (apply1_fext q _ (fun x => u * (x ^ m * monic a b k x) + 1 * (x ^ S m * peval c x * monic a b k x) + 0 * 0)) by (intros; cbn [peval pow]; ring).
      rewrite (apply1_lin q u 1 0 (fun x => x ^ m * monic a b k x) (fun x => x ^ S m * peval c x * monic a b k x) (fun _ => 0)). rewrite H, IH by lia. ring. }
  apply G. lia.
Qed.
Lemma positive_norm a b q k : NoDup (map snd q) -> List.Forall (fun wx => 0 < fst wx) q -> (k < length q)%nat -> (forall i, (0 < i < k)%nat -> 0 <= b i) ->
  0 < apply1 q (fun x => monic a b k x * monic a b k x).
Proof.
  intros ND HW Hk Hb.
  destruct (Forall_Exists_dec (fun x => monic a b k x = 0) (fun x => Req_EM_T (monic a b k x) 0) (map snd q)) as [Z|E].
  - exfalso. rewrite List.Forall_forall in Z. assert (Z' : forall y, monic a b k y = 0).
    { apply (pol_unique (map snd q) _ (fun _ => 0)); auto; [|apply pol_zero]. rewrite map_length. apply (pol_le (S k)); [lia|]. apply pol_monic. }
    destruct (monic_pos_above a b k 0 Hb) as [M [_ HM]]. rewrite Z' in HM. lra.
  - clear ND Hk. induction q as [|[w x] q IH]; [inversion E|]. inversion HW as [|? ? Hw HW']; subst. cbn [fst] in Hw.
    assert (A : apply1 ((w, x) :: q) (fun x => monic a b k x * monic a b k x) = w * (monic a b k x * monic a b k x) + apply1 q (fun x => monic a b k x * monic a b k x)) by reflexivity. rewrite A.
    assert (P : 0 <= apply1 q (fun x => monic a b k x * monic a b k x)).
    { unfold apply1. apply Rsum_nonneg. intros y Hy. apply in_map_iff in Hy. destruct Hy as [[w' x'] [<- Hin]]. rewrite List.Forall_forall in HW'. specialize (HW' _ Hin). cbn [fst snd] in *. apply Rmult_le_pos; [lra|]. apply Rle_0_sqr. }
    cbn [map] in E. inversion E as [? ? Hx|? ? Hx]; subst.
    + cbn [snd] in Hx. assert (0 < monic a b k x * monic a b k x) by (apply Rsqr_pos_lt; auto). assert (0 < w * (monic a b k x * monic a b k x)) by (apply Rmult_lt_0_compat; auto). lra.
    + specialize (IH HW' Hx). assert (0 <= w * (monic a b k x * monic a b k x)) by (apply Rmult_le_pos; [lra|apply Rle_0_sqr]). lra.
Qed.
Definition moment (q : rule1) (j : nat) : R := apply1 q (fun x => x ^ j).
Lemma norm_pos a b q k : NoDup (map snd q) -> List.Forall (fun wx => 0 < fst wx) q -> (k < length q)%nat -> (forall i, (0 < i < k)%nat -> 0 <= b i) ->
  orthogonal a b (moment q) k -> apply1 q (fun x => monic a b k x * monic a b k x) = lmonic a b (moment q) k k /\ 0 < lmonic a b (moment q) k k.
Proof.
  intros ND HW Hk Hb HO. assert (E : apply1 q (fun x => monic a b k x * monic a b k x) = lmonic a b (moment q) k k).
  { unfold moment. rewrite lmonic_apply1. rewrite (apply1_fext q _ (fun x => 1 * (x ^ k * monic a b k x) + 1 * ((monic a b k x - x ^ k) * monic a b k x) + 0 * 0)) by (intros; ring).
    rewrite (apply1_lin q 1 1 0 (fun x => x ^ k * monic a b k x) (fun x => (monic a b k x - x ^ k) * monic a b k x) (fun _ => 0)).
    rewrite (apply1_monic_ortho a b q k (fun x => monic a b k x - x ^ k)); [ring| |apply pol_monic].
    intros m Hm. rewrite <- lmonic_apply1. apply HO. lia. }
  split; auto. rewrite <- E. apply positive_norm; auto.
Qed.
Lemma stieltjes q k : NoDup (map snd q) -> List.Forall (fun wx => 0 < fst wx) q -> (k <= length q)%nat ->
  exists a b, (forall i, 0 < b i) /\ orthogonal a b (moment q) k.
Proof.
  intros ND HW. induction k as [|k IH]; intros Hk.
  - exists (fun _ => 0), (fun _ => 1). split; [intros; lra|]. intros k m H. lia.
  - destruct (IH ltac:(lia)) as [a [b [Hb HO]]].
    assert (Nk : forall j, (j <= k)%nat -> 0 < lmonic a b (moment q) j j) by (intros j Hj; apply norm_pos; auto; [lia|intros; apply Rlt_le, Hb|intros i m Hi; apply HO; lia]).
    set (bk := match k with O => 1 | S k' => lmonic a b (moment q) k k / lmonic a b (moment q) k' k' end).
    set (ak := (lmonic a b (moment q) k (S k) - match k with O => 0 | S k' => bk * lmonic a b (moment q) k' k end) / lmonic a b (moment q) k k).
    assert (Bk : 0 < bk) by (unfold bk; destruct k as [|k']; [lra|]; apply Rdiv_lt_0_compat; apply Nk; lia).
    set (a' := fun i => if (i =? k)%nat then ak else a i). set (b' := fun i => if (i =? k)%nat then bk else b i).
    assert (Old : forall j m, (j <= k)%nat -> lmonic a' b' (moment q) j m = lmonic a b (moment q) j m).
    { intros j m Hj. apply lmonic_ext; intros i Hi; unfold a', b'; destruct (Nat.eqb_spec i k); auto; lia. }
    exists a', b'. split; [intros i; unfold b'; destruct (i =? k)%nat; auto|].
    intros j m [Hm Hj]. destruct (le_lt_dec j k) as [L|L]; [rewrite Old by auto; apply HO; lia|]. replace j with (S k) in * by lia. clear j Hj L.
    cbn [lmonic]. rewrite !Old by lia. assert (Ea : a' k = ak) by (unfold a'; rewrite Nat.eqb_refl; auto). assert (Eb : b' k = bk) by (unfold b'; rewrite Nat.eqb_refl; auto).
    rewrite Ea. assert (P := Nk k ltac:(lia)).
    destruct (Nat.eq_dec m k) as [->|N].
    + unfold ak. destruct k as [|k']; [field; lra|]. rewrite Old, Eb by lia. field. lra.
    + destruct k as [|k']; [lia|]. rewrite Old, Eb by lia. rewrite (HO (S k') m) by lia. destruct (Nat.eq_dec m k') as [->|N2].
      * unfold bk. assert (P' := Nk k' ltac:(lia)). field. lra.
      * rewrite (HO (S k') (S m)), (HO k' m) by lia. ring.
Qed.
