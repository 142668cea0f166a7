(** The rules built from recurrence coefficients: Gauss, Gauss-Radau and Gauss-Lobatto, for every recurrence. *)
From Coq Require Import Reals List Arith ZArith Lia Lra Sorted.
From Coquelicot Require Import Coquelicot.
From Verif Require Import Spec Spec1 RsumLemmas AdaptModel PyBase UnModel C1Tools Interp C1Model C1Proofs GwSpec GwProofs GwExist GwModel.
Import ListNotations.
Set Bullet Behavior "Strict Subproofs".
Open Scope R_scope.

Lemma opt_list_sqrt l : List.Forall (fun b => 0 < b) l -> opt_list rsqrt l = Some (map sqrt l).
Proof. intros H. apply opt_list_map. intros b Hb. rewrite List.Forall_forall in H. specialize (H b Hb). unfold rsqrt. destruct (Rle_dec 0 b); [auto|lra]. Qed.
(** scheme_from_rc on coefficients with positive betas. *)
Theorem scheme_from_rc_run eigh alpha beta int_1 n : eigen_solver eigh -> length alpha = S n -> length beta = S n -> List.Forall (fun b => 0 < b) (tl beta) ->
  exists x V, scheme_from_rc eigh alpha beta int_1 = Some (x, map (fun v => int_1 * v ^ 2) (nth 0 V [])) /\ eigen_decomposition alpha (map sqrt (tl beta)) x V /\
    (forall i, (i < n)%nat -> nth i (map sqrt (tl beta)) 0 <> 0) /\ (forall i, (i < n)%nat -> nth i (map sqrt (tl beta)) 0 ^ 2 = nth (S i) beta 0).
Proof.
  intros HE La Lb Hb. unfold scheme_from_rc. rewrite opt_list_sqrt by auto. cbn [bind].
  assert (Lt : length (tl beta) = n) by (destruct beta; cbn in *; lia).
  assert (Hs : forall i, (i < n)%nat -> 0 < nth (S i) beta 0) by (intros i Hi; destruct beta as [|b0 beta]; [cbn in Lb; lia|]; cbn in *; rewrite List.Forall_forall in Hb; apply Hb; apply nth_In; lia).
  assert (Hsq : forall i, (i < n)%nat -> nth i (map sqrt (tl beta)) 0 = sqrt (nth (S i) beta 0)) by (intros i Hi; rewrite <- sqrt_0 at 1; rewrite map_nth; destruct beta; [cbn in Lb; lia|auto]).
  assert (Hne : forall i, (i < n)%nat -> nth i (map sqrt (tl beta)) 0 <> 0) by (intros i Hi; rewrite Hsq by auto; apply Rgt_not_eq; apply sqrt_lt_R0; auto).
  destruct (eigen_exists alpha (map sqrt (tl beta)) n La ltac:(rewrite map_length; auto) Hne) as [x [V [HD _]]].
  assert (HS := HE alpha (map sqrt (tl beta)) ltac:(rewrite map_length; lia) (ex_intro _ x (ex_intro _ V HD))).
  destruct (eigh alpha (map sqrt (tl beta))) as [x' V']. cbn [fst snd] in HS. exists x', V'. split; auto. split; auto. split; auto.
  intros i Hi. rewrite Hsq by auto. rewrite pow2_sqrt by (apply Rlt_le; auto). auto.
Qed.
(** The result, in terms of a recurrence that need only agree up to some index. *)
Theorem scheme_from_rc_exact eigh alpha beta int_1 n a b mu N D ka kb : eigen_solver eigh -> length alpha = S n -> length beta = S n -> List.Forall (fun b => 0 < b) (tl beta) ->
  orthogonal a b mu N -> mu 0%nat = int_1 -> (forall i, (i < ka)%nat -> nth i alpha 0 = a i) -> (forall i, (0 < i < kb)%nat -> nth i beta 0 = b i) -> (kb <= S n)%nat ->
  (forall k, (2 * k <= D)%nat -> (k <= ka /\ k < kb /\ k < S n /\ k < N)%nat) -> (forall k, (2 * k + 1 <= D)%nat -> (S k <= ka /\ S k <= kb /\ S k <= S n /\ S k <= N)%nat) ->
  exists x w, scheme_from_rc eigh alpha beta int_1 = Some (x, w) /\ length x = S n /\ length w = S n /\ Sorted Rle x /\
    exact1_mu D mu (List.combine w x) /\ (0 <= int_1 -> List.Forall (fun v => 0 <= v) w) /\
    (forall r, monic (fun i => nth i alpha 0) (fun i => nth i beta 0) (S n) r = 0 -> In r x).
Proof.
  intros HE La Lb Hb HO Hm Ha Hbb Hkb H1 H2. destruct (scheme_from_rc_run eigh alpha beta int_1 n HE La Lb Hb) as [x [V [ER [HD [Hne Hsq]]]]].
  exists x, (map (fun v => int_1 * v ^ 2) (nth 0 V [])). split; auto.
  assert (HD' := HD). destruct HD' as [Lx [LV [HF [HSo _]]]]. rewrite La in Lx, LV, HF. split; auto. split.
  { rewrite map_length. rewrite List.Forall_forall in HF. apply HF. apply nth_In. lia. }
  split; auto. split; [|split].
  - apply (golub_welsch a b mu N alpha (map sqrt (tl beta)) x V n int_1 D ka kb); auto.
    intros i Hi. rewrite Hsq by lia. replace (S (i - 1)) with i by lia. auto.
  - intros Hi. apply List.Forall_forall. intros w Hw. apply in_map_iff in Hw. destruct Hw as [v [<- _]]. apply Rmult_le_pos; auto. apply pow2_ge_0.
  - intros r Hr. apply (gw_contains alpha (map sqrt (tl beta)) x V n La HD Hne). etransitivity; [|exact Hr]. apply monic_ext; auto. intros i Hi. unfold brec. rewrite Hsq by lia. f_equal. lia.
Qed.

(* ------------------------------------------------------------------ Gauss *)
Lemma combine_rule_points (w x : list R) : length w = length x -> map snd (List.combine w x) = x.
Proof. revert x. induction w as [|a w IH]; intros [|y x] H; try discriminate; auto. cbn. f_equal. apply IH. cbn in H. lia. Qed.
Lemma combine_rule_weights (w x : list R) : length w = length x -> map fst (List.combine w x) = w.
Proof. revert x. induction w as [|a w IH]; intros [|y x] H; try discriminate; auto. cbn. f_equal. apply IH. cbn in H. lia. Qed.
(** The hypotheses on the recurrence: positive betas, and orthogonality for the functional with moments [mu]. *)
Definition good_rc (rc : recurrence) (mu : nat -> R) : Prop :=
  (forall k, (0 < k)%nat -> 0 < rc_beta rc k) /\ mu 0%nat = rc_int rc /\ 0 < rc_int rc /\ forall n, orthogonal (rc_alpha rc) (rc_beta rc) mu n.
Lemma nth_seq (f : nat -> R) n i : (i < n)%nat -> nth i (map f (seq 0 n)) 0 = f i.
Proof. intros H. rewrite (nth_indep _ 0 (f 0%nat)) by (rewrite map_length, seq_length; auto). rewrite map_nth, seq_nth by auto. auto. Qed.
Lemma tl_seq (f : nat -> R) n : tl (map f (seq 0 (S n))) = map f (seq 1 n).
Proof. reflexivity. Qed.
Theorem gauss_exact eigh rc mu n : eigen_solver eigh -> good_rc rc mu -> (1 <= n)%nat ->
  exists s, gauss_from_rc eigh rc n = Some s /\ c1_degree s = (2 * Z.of_nat n - 1)%Z /\ length (c1_rule s) = n /\ exact1_mu (2 * n - 1) mu (c1_rule s) /\
    List.Forall (fun wx => 0 <= fst wx) (c1_rule s) /\ Sorted Rle (map snd (c1_rule s)) /\ (forall r, In r (map snd (c1_rule s)) <-> monic (rc_alpha rc) (rc_beta rc) n r = 0).
Proof.
  intros HE [Hb [Hm [Hi HO]]] Hn. unfold gauss_from_rc. destruct n as [|n]; [lia|]. cbn [Nat.eqb].
  assert (La : length (map (rc_alpha rc) (seq 0 (S n))) = S n) by (rewrite map_length, seq_length; auto). assert (Lb : length (map (rc_beta rc) (seq 0 (S n))) = S n) by (rewrite map_length, seq_length; auto).
  assert (Hpos : List.Forall (fun b => 0 < b) (tl (map (rc_beta rc) (seq 0 (S n))))) by (rewrite tl_seq; apply List.Forall_forall; intros b Hbb; apply in_map_iff in Hbb; destruct Hbb as [k [<- Hk]]; apply in_seq in Hk; apply Hb; lia).
  destruct (scheme_from_rc_exact eigh _ _ (rc_int rc) n (rc_alpha rc) (rc_beta rc) mu (S n) (2 * S n - 1) (S n) (S n) HE La Lb Hpos (HO (S n)) Hm) as [x [w [ER [Lx [Lw [HS [HX [HW HC]]]]]]]].
  - intros i L. apply nth_seq. auto.
  - intros i L. apply nth_seq. lia.
  - lia.
  - intros k Hk. lia.
  - intros k Hk. lia.
  - rewrite ER. cbn [bind]. eexists. split; [reflexivity|]. unfold c1_of, c1_scheme_of. cbn [c1_degree c1_rule fst snd]. split; [lia|]. split; [rewrite combine_length; lia|]. split; [auto|].
    rewrite combine_rule_points by lia. split; [|split; [auto|]].
    + apply List.Forall_forall. intros [w0 x0] Hin. cbn [fst]. apply in_combine_l in Hin. specialize (HW ltac:(lra)). rewrite List.Forall_forall in HW. auto.
    + intros r. rewrite (monic_ext _ _ (fun i => nth i (map (rc_alpha rc) (seq 0 (S n))) 0) (fun i => nth i (map (rc_beta rc) (seq 0 (S n))) 0)) by (intros i L; rewrite nth_seq by lia; auto). split; [|apply HC].
      intros Hr. destruct (scheme_from_rc_run eigh _ _ (rc_int rc) n HE La Lb Hpos) as [x' [V [ER' [HD [Hne Hsq]]]]]. rewrite ER in ER'. injection ER' as -> _.
      destruct (In_nth x' r 0 Hr) as [k [Hk <-]]. etransitivity; [|apply (gw_root _ _ x' V n La HD Hne k); lia]. apply monic_ext; auto. intros i L. unfold brec. rewrite Hsq by lia. f_equal. lia.
Qed.

(* ------------------------------------------------------------------ the shifted banded systems *)
Lemma banded_tri sb diag i j n : (j < n)%nat -> length diag = n -> length sb = S n ->
  banded [removelast sb; diag; tl sb] i j = tri diag (removelast (tl sb)) i j \/ (n <= i)%nat.
Proof.
  intros Hj Ld Ls. destruct (le_lt_dec n i) as [L|L]; [right; auto|left]. unfold banded, tri. cbn [nth].
  assert (RL : forall (l : list R) k, (S k < length l)%nat -> nth k (removelast l) 0 = nth k l 0).
  { clear. induction l as [|x l IH]; intros k H; [cbn in H; lia|]. destruct l as [|y l]; [cbn in H; lia|]. change (removelast (x :: y :: l)) with (x :: removelast (y :: l)). destruct k; auto. cbn [nth]. apply IH. cbn in *. lia. }
  assert (LT : length (tl sb) = n) by (destruct sb; cbn in *; lia).
  destruct (Nat.eqb_spec i j) as [->|N]; auto. destruct (Nat.eqb_spec i (S j)) as [->|N2].
  - destruct (Nat.eqb_spec (S (S j)) j); [lia|]. rewrite (RL (tl sb)) by lia. auto.
  - destruct (Nat.eqb_spec (S i) j) as [<-|N3]; auto. rewrite (RL sb) by lia. rewrite (RL (tl sb)) by lia. destruct sb; [cbn in Ls; lia|auto].
Qed.
(** (J - r) x = c e_last has exactly one solution, and its last entry is -c p_n(r) / p_{n+1}(r). *)
Lemma shifted_solve solve sb alpha beta n r c : banded_solver solve -> length alpha = S (S n) -> length beta = S (S n) -> sb = map sqrt beta -> List.Forall (fun b => 0 < b) beta ->
  monic (fun i => nth i alpha 0) (fun i => nth i beta 0) (S n) r <> 0 ->
  exists x, solve [removelast sb; removelast (map (fun a => a - r) alpha); tl sb] (repeat 0 n ++ [c]) = Some x /\
    last_of x = - c * monic (fun i => nth i alpha 0) (fun i => nth i beta 0) n r / monic (fun i => nth i alpha 0) (fun i => nth i beta 0) (S n) r.
Proof.
  intros HSo La Lb -> Hb Hr. set (a := fun i => nth i alpha 0) in *. set (b := fun i => nth i beta 0) in *.
  set (diag := removelast (map (fun a => a - r) alpha)). set (e := removelast (tl (map sqrt beta))).
  assert (RL : forall (l : list R) k, (S k < length l)%nat -> nth k (removelast l) 0 = nth k l 0).
  { clear. induction l as [|x l IH]; intros k H; [cbn in H; lia|]. destruct l as [|y l]; [cbn in H; lia|]. change (removelast (x :: y :: l)) with (x :: removelast (y :: l)). destruct k; auto. cbn [nth]. apply IH. cbn in *. lia. }
  assert (RLn : forall l : list R, length (removelast l) = (length l - 1)%nat).
  { clear. induction l as [|x l IH]; auto. destruct l as [|y l]; auto. change (removelast (x :: y :: l)) with (x :: removelast (y :: l)). cbn [length] in *. lia. }
  assert (Ld : length diag = S n) by (unfold diag; rewrite RLn, map_length; lia).
  assert (Ed : forall i, (i < S n)%nat -> nth i diag 0 = a i - r).
  { intros i Hi. unfold diag. rewrite RL by (rewrite map_length; lia). rewrite (nth_indep _ 0 ((fun a => a - r) 0)) by (rewrite map_length; lia). rewrite (map_nth (fun a => a - r)). auto. }
  assert (Lt : length (tl (map sqrt beta)) = S n) by (destruct beta; cbn in *; rewrite ?map_length; lia).
  assert (Ee : forall i, (i < n)%nat -> nth i e 0 = sqrt (b (S i))).
  { intros i Hi. unfold e. rewrite RL by lia. destruct beta as [|b0 beta]; [cbn in Lb; lia|]. cbn [map tl]. rewrite (nth_indep _ 0 (sqrt 0)) by (rewrite map_length; cbn in Lb; lia). rewrite map_nth. reflexivity. }
  assert (Hbp : forall i, (i < S (S n))%nat -> 0 < b i) by (intros i Hi; rewrite List.Forall_forall in Hb; apply Hb; apply nth_In; lia).
  assert (Hne : forall i, (i < n)%nat -> nth i e 0 <> 0) by (intros i Hi; rewrite Ee by auto; apply Rgt_not_eq; apply sqrt_lt_R0; apply Hbp; lia).
  (* the polynomials of the shifted matrix, at 0 *)
  assert (Mon : forall k, (k <= S n)%nat -> monic (arec diag) (brec e) k 0 = monic a b k r).
  { assert (G : forall k, (S k <= S n)%nat -> monic (arec diag) (brec e) k 0 = monic a b k r /\ monic (arec diag) (brec e) (S k) 0 = monic a b (S k) r).
    { induction k as [|k IH]; intros L.
      - cbn [monic]. unfold arec. rewrite Ed by lia. split; ring.
      - destruct (IH ltac:(lia)) as [E1 E2]. split; auto. rewrite !monic_SS, E1, E2. unfold arec, brec. replace (S k - 1)%nat with k by lia. rewrite Ed by lia. rewrite Ee by lia. rewrite pow2_sqrt by (apply Rlt_le, Hbp; lia). ring. }
    intros k L. destruct k as [|k]; auto. exact (proj2 (G k L)). }
  set (f := repeat 0 n ++ [c]). assert (Lf : length f = S n) by (unfold f; rewrite app_length, repeat_length; cbn; lia).
  assert (Ef : forall i, (i < S n)%nat -> nth i f 0 = if (i =? n)%nat then c else 0).
  { intros i Hi. unfold f. destruct (Nat.eqb_spec i n) as [->|N]; [rewrite app_nth2 by (rewrite repeat_length; lia); rewrite repeat_length, Nat.sub_diag; auto|]. rewrite app_nth1 by (rewrite repeat_length; lia). apply nth_repeat. }
  assert (Hsum : forall i v, (i < S n)%nat -> sumn (S n) (fun j => banded [removelast (map sqrt beta); diag; tl (map sqrt beta)] i j * v j) = sumn (S n) (fun j => tri diag e i j * v j)).
  { intros i v Hi. apply sumn_ext. intros j Hj. destruct (banded_tri (map sqrt beta) diag i j (S n) Hj Ld ltac:(rewrite map_length; lia)) as [E|E]; [rewrite E; auto|lia]. }
  set (P := monic a b (S n) r) in *.
  set (g := - c * eprod e n / P).
  set (v := fun j => g * (monic (arec diag) (brec e) j 0 / eprod e j)).
  set (x := map v (seq 0 (S n))).
  assert (Ex : forall j, (j < S n)%nat -> nth j x 0 = v j) by (intros j Hj; unfold x; apply nth_seq; auto).
  assert (En : eprod e n <> 0) by (apply eprod_neq; auto).
  assert (SX : solves_banded [removelast (map sqrt beta); diag; tl (map sqrt beta)] f x).
  { split; [unfold x; rewrite map_length, seq_length; auto|]. rewrite Lf. intros i Hi. rewrite (sumn_ext _ _ (fun j => banded [removelast (map sqrt beta); diag; tl (map sqrt beta)] i j * v j)) by (intros j Hj; rewrite Ex by auto; auto).
    rewrite Hsum by auto. unfold v. rewrite (sumn_ext _ _ (fun j => g * (tri diag e i j * (monic (arec diag) (brec e) j 0 / eprod e j)))) by (intros; ring). rewrite sumn_scal, Ef by auto.
    destruct (Nat.eqb_spec i n) as [->|N].
    - rewrite (monic_last_row diag e 0 n) by (intros; apply Hne; lia). rewrite (Mon (S n)) by lia. fold P. unfold g. field. auto.
    - rewrite (monic_rows diag e 0 (S n)); [ring|intros; apply Hne; lia|lia]. }
  exists x. split.
  - apply HSo; auto. intros y [Ly Hy]. rewrite Lf in *.
    set (z := fun j => nth j y 0 - nth j x 0).
    assert (Hz : forall i, (i < S n)%nat -> sumn (S n) (fun j => tri diag e i j * z j) = 0).
    { intros i Hi. rewrite <- Hsum by auto. unfold z. rewrite (sumn_ext _ _ (fun j => banded [removelast (map sqrt beta); diag; tl (map sqrt beta)] i j * nth j y 0 + -1 * (banded [removelast (map sqrt beta); diag; tl (map sqrt beta)] i j * nth j x 0))) by (intros; ring).
      rewrite sumn_add, sumn_scal, Hy by auto. destruct SX as [_ SX]. rewrite Lf in SX. rewrite SX by auto. ring. }
    assert (Z0 : z 0%nat = 0).
    { assert (Q := last_row_monic diag e z 0 n 0 ltac:(intros; apply Hne; lia) ltac:(intros i Hi; rewrite Hz by lia; ring) ltac:(rewrite Hz by lia; ring)).
      rewrite Mon in Q by lia. fold P in Q. rewrite Ropp_0, Rmult_0_l in Q. apply Rmult_integral in Q. destruct Q; auto. exfalso. auto. }
    assert (ZA : forall j, (j < S n)%nat -> z j = 0).
    { intros j Hj. assert (Q := rows_monic diag e z 0 (S n) ltac:(intros; apply Hne; lia) ltac:(intros i Hi; rewrite Hz by lia; ring) j Hj). rewrite Z0, Rmult_0_l in Q. apply Rmult_integral in Q. destruct Q as [Q|Q]; auto. exfalso. revert Q. apply eprod_neq. intros; apply Hne; lia. }
    apply nth_ext with (d := 0) (d' := 0); [rewrite Ly; unfold x; rewrite map_length, seq_length; auto|]. intros j Hj. specialize (ZA j ltac:(lia)). unfold z in ZA. lra.
  - unfold last_of, x. rewrite seq_S, map_app. cbn [map]. rewrite last_last. unfold v. rewrite Nat.add_0_l, Mon by lia. unfold g. field. auto.
Qed.
