(** Recovering recurrence coefficients: the reduction exists, and what it returns. *)
From Coq Require Import Reals List Arith ZArith Bool Lia Lra Sorted Permutation.
From Verif Require Import Spec Spec1 RsumLemmas AdaptModel PyBase UnModel C1Model Interp C1Proofs GwSpec GwModel GwProofs GwExist GwRc KronrodProofs KronrodMain RcSpec RcModel RcProofs.
Import ListNotations.
Set Bullet Behavior "Strict Subproofs".
Open Scope R_scope.

Lemma apply1_combine (w x : list R) n f : length w = n -> length x = n -> apply1 (List.combine w x) f = sumn n (fun i => nth i w 0 * f (nth i x 0)).
Proof.
  intros Lw Lx. unfold apply1. rewrite (combine_nth_seq w x 0 0) by lia. rewrite Lw, map_map. reflexivity.
Qed.
(** The last polynomial vanishes at the points. *)
Lemma last_monic_zero a b q n : length q = S n -> NoDup (map snd q) -> List.Forall (fun wx => 0 < fst wx) q -> orthogonal a b (moment q) (S n) -> forall w x, In (w, x) q -> monic a b (S n) x = 0.
Proof.
  intros Lq ND HW HO w z Hin. assert (Hw : 0 < w) by (rewrite List.Forall_forall in HW; apply (HW (w, z) Hin)).
  apply in_split in Hin. destruct Hin as [g1 [g2 Eg]]. subst q. set (others := map snd (g1 ++ g2)). rewrite map_app in ND. cbn [map snd] in ND. apply NoDup_remove_2 in ND. rewrite <- map_app in ND. fold others in ND.
  rewrite app_length in Lq. cbn [length] in Lq. assert (Lo : length others = n) by (unfold others; rewrite map_length, app_length; lia).
  assert (E : apply1 (g1 ++ (w, z) :: g2) (fun x => rprod others x * monic a b (S n) x) = 0).
  { apply apply1_monic_ortho; [intros m Hm; rewrite <- lmonic_apply1; apply HO; lia|]. rewrite <- Lo. apply pol_rprod. }
  assert (Z1 : forall h, (forall wx, In wx h -> In wx (g1 ++ g2)) -> apply1 h (fun x => rprod others x * monic a b (S n) x) = 0).
  { intros h Hh. unfold apply1. apply Rsum_map_zero. intros [w0 x0] Hx. cbn [fst snd]. rewrite (rprod_root others) by (apply (in_map snd (g1 ++ g2) (w0, x0)); auto). ring. }
  assert (E2 : forall f, apply1 (g1 ++ (w, z) :: g2) f = apply1 g1 f + (w * f z + apply1 g2 f)) by (intros f; unfold apply1; rewrite map_app, Rsum_app; reflexivity).
  rewrite E2, (Z1 g1), (Z1 g2) in E by (intros; apply in_or_app; auto).
  assert (F : w * (rprod others z * monic a b (S n) z) = 0) by lra. apply Rmult_integral in F. destruct F as [F|F]; [lra|]. apply Rmult_integral in F. destruct F as [F|F]; auto. apply rprod_zero in F. tauto.
Qed.
(** Vectors orthogonal to all powers below the number of (distinct) points vanish. *)
Lemma power_independent points n (c : nat -> R) : length points = n -> NoDup points -> (forall m, (m < n)%nat -> sumn n (fun i => c i * nth i points 0 ^ m) = 0) -> forall i, (i < n)%nat -> c i = 0.
Proof.
  intros Lp ND H i Hi.
  assert (G : forall p m, (m + length p <= n)%nat -> sumn n (fun i => c i * (nth i points 0 ^ m * peval p (nth i points 0))) = 0).
  { induction p as [|u p IH]; intros m L; [apply sumn_zero; intros; cbn [peval]; ring|]. cbn [length] in L.
    rewrite (sumn_ext _ _ (fun i => u * (c i * nth i points 0 ^ m) + c i * (nth i points 0 ^ S m * peval p (nth i points 0)))) by (intros; cbn [peval pow]; ring).
    rewrite sumn_add, sumn_scal, H, IH by lia. ring. }
  assert (Hin : In (nth i points 0) points) by (apply nth_In; lia). apply in_split in Hin. destruct Hin as [l1 [l2 El]].
  set (others := l1 ++ l2). assert (Lo : length others = (n - 1)%nat) by (unfold others; rewrite app_length; rewrite El, app_length in Lp; cbn [length] in Lp; lia).
  assert (NI : ~ In (nth i points 0) others) by (rewrite El in ND; apply NoDup_remove_2 in ND; exact ND).
  destruct (proj1 (pol_rprod others)) as [p [Lpp Ep]]. assert (Z := G p 0%nat ltac:(lia)).
  rewrite (sumn_ext _ _ (fun k => if (i =? k)%nat then c k * rprod others (nth k points 0) else 0)) in Z.
  - rewrite (sumn_pick n i (fun k => c k * rprod others (nth k points 0))) in Z by auto. apply Rmult_integral in Z. destruct Z as [Z|Z]; auto. apply rprod_zero in Z. tauto.
  - intros k Hk. cbn [pow]. rewrite <- Ep, Rmult_1_l. destruct (Nat.eqb_spec i k) as [->|N]; auto. rewrite rprod_root; [ring|].
    assert (Ik : In (nth k points 0) (l1 ++ nth i points 0 :: l2)) by (rewrite <- El; apply nth_In; lia). apply in_app_or in Ik. unfold others. apply in_or_app. destruct Ik as [Ik|[Ik|Ik]]; auto.
    exfalso. apply N. apply (proj1 (NoDup_nth points 0) ND); try lia. exact Ik.
Qed.

(** Every rule with distinct points and positive weights can be reduced. *)
Theorem reduction_exists points weights n : length points = S n -> length weights = S n -> NoDup points -> List.Forall (fun w => 0 < w) weights ->
  exists d e, tridiagonalises (gauss_matrix points (map sqrt weights)) d e.
Proof.
  intros Lp Lw ND HW. set (q := List.combine weights points).
  assert (Lq : length q = S n) by (unfold q; rewrite combine_length; lia). assert (Sq : map snd q = points) by (apply combine_rule_points; lia).
  assert (NDq : NoDup (map snd q)) by (rewrite Sq; auto).
  assert (HWq : List.Forall (fun wx => 0 < fst wx) q) by (apply List.Forall_forall; intros [w x] Hin; apply in_combine_l in Hin; rewrite List.Forall_forall in HW; apply HW; auto).
  destruct (stieltjes q (S n) NDq HWq ltac:(lia)) as [a [b [Hb HO]]].
  set (al := map a (seq 0 (S n))). set (el := map (fun i => sqrt (b (S i))) (seq 0 n)).
  assert (Ea : forall i, (i < S n)%nat -> arec al i = a i) by (intros i Hi; apply nth_seq; auto).
  assert (Ee : forall i, (i < n)%nat -> nth i el 0 = sqrt (b (S i))) by (intros i Hi; unfold el; apply (nth_seq (fun i => sqrt (b (S i)))); auto).
  assert (Eb : forall i, (0 < i < S n)%nat -> brec el i = b i) by (intros i Hi; unfold brec; rewrite Ee by lia; replace (S (i - 1)) with i by lia; apply pow2_sqrt; apply Rlt_le, Hb).
  assert (He : forall i, (i < n)%nat -> nth i el 0 <> 0) by (intros i Hi; rewrite Ee by auto; apply Rgt_not_eq, sqrt_lt_R0, Hb).
  assert (HO' : orthogonal (arec al) (brec el) (moment q) (S n)).
  { intros k m Hk. rewrite (lmonic_ext _ _ _ a b) by (intros i Hi; try apply Ea; try apply Eb; lia). apply HO. auto. }
  assert (Hbr : forall i, 0 <= brec el i) by (intros; unfold brec; apply pow2_ge_0).
  set (h0 := moment q 0).
  assert (H0 : 0 < h0). { destruct (norm_pos (arec al) (brec el) q 0 NDq HWq ltac:(lia) ltac:(intros; lia) ltac:(intros ? ? ?; lia)) as [_ P]. exact P. }
  assert (En : forall j, (j < S n)%nat -> eprod el j <> 0) by (intros j Hj; apply eprod_neq; intros; apply He; lia).
  assert (Hn : forall j, (j < S n)%nat -> apply1 q (fun x => monic (arec al) (brec el) j x * monic (arec al) (brec el) j x) = h0 * eprod el j ^ 2).
  { intros j Hj. destruct (norm_pos (arec al) (brec el) q j NDq HWq ltac:(lia) ltac:(intros; apply Hbr) ltac:(intros k m Hk; apply HO'; lia)) as [-> _].
    rewrite (lmonic_norm _ _ _ (S n) HO' j Hj). f_equal. clear. induction j as [|j IH]; [cbn; ring|]. change (bprod (brec el) (S j)) with (bprod (brec el) j * brec el (S j)). rewrite IH. cbn [eprod]. unfold brec. replace (S j - 1)%nat with j by lia. ring. }
  set (p := fun j i => monic (arec al) (brec el) j (nth i points 0)).
  set (v := fun j i => sqrt (nth i weights 0) / sqrt h0 * (p j i / eprod el j)).
  assert (Wp : forall i, (i < S n)%nat -> 0 < nth i weights 0) by (intros i Hi; rewrite List.Forall_forall in HW; apply HW, nth_In; lia).
  assert (S0 : sqrt h0 <> 0) by (apply Rgt_not_eq, sqrt_lt_R0; auto).
  assert (Root : forall i, (i < S n)%nat -> monic (arec al) (brec el) (S n) (nth i points 0) = 0).
  { intros i Hi. apply (last_monic_zero _ _ q n Lq NDq HWq HO' (nth i weights 0)). unfold q. rewrite (combine_nth_seq weights points 0 0) by lia. apply in_map_iff. exists i. split; auto. apply in_seq. lia. }
  assert (HE : forall j i, (j < S n)%nat -> (i < S n)%nat -> sumn (S n) (fun k => tri al el j k * v k i) = nth i points 0 * v j i).
  { intros j i Hj Hi. rewrite (sumn_ext _ _ (fun k => sqrt (nth i weights 0) / sqrt h0 * (tri al el j k * (p k i / eprod el k)))) by (intros; unfold v; ring). rewrite sumn_scal.
    assert (G : sumn (S n) (fun k => tri al el j k * (p k i / eprod el k)) = nth i points 0 * (p j i / eprod el j)).
    { destruct (Nat.eq_dec j n) as [->|N]; [|apply (monic_rows al el (nth i points 0) (S n)); [intros; apply He|]; lia].
      unfold p. rewrite (monic_last_row al el (nth i points 0) n) by (intros; apply He; lia). rewrite Root by auto. unfold Rdiv. ring. }
    rewrite G. unfold v. ring. }
  assert (Sw : forall i, (i < S n)%nat -> sqrt (nth i weights 0) * sqrt (nth i weights 0) = nth i weights 0) by (intros i Hi; apply sqrt_sqrt, Rlt_le, Wp; auto).
  assert (Sh : sqrt h0 * sqrt h0 = h0) by (apply sqrt_sqrt; lra).
  assert (Dot : forall j k, (j < S n)%nat -> (k < S n)%nat -> sumn (S n) (fun i => v j i * v k i) = apply1 q (fun x => monic (arec al) (brec el) j x * monic (arec al) (brec el) k x) / (h0 * (eprod el j * eprod el k))).
  { intros j k Hj Hk. unfold q. rewrite (apply1_combine weights points (S n)) by auto. unfold Rdiv. rewrite Rmult_comm, <- sumn_scal. apply sumn_ext. intros i Hi. unfold v.
    fold (p j i). fold (p k i). rewrite <- (Sw i Hi) at 3. rewrite <- Sh at 3. field. repeat split; auto. }
  assert (Low : forall j k, (j < k)%nat -> (k < S n)%nat -> apply1 q (fun x => monic (arec al) (brec el) j x * monic (arec al) (brec el) k x) = 0).
  { intros j k Hj Hk. apply apply1_monic_ortho; [intros m Hm; rewrite <- lmonic_apply1; apply HO'; lia|]. apply (pol_le (S j)); [lia|]. apply pol_monic. }
  assert (HR : forall j k, (j < S n)%nat -> (k < S n)%nat -> sumn (S n) (fun i => v j i * v k i) = delta j k).
  { intros j k Hj Hk. rewrite Dot by auto. unfold delta. destruct (Nat.eqb_spec j k) as [->|N].
    - rewrite Hn by auto. field. split; [apply En; auto|lra].
    - destruct (Nat.lt_ge_cases j k).
      + rewrite Low by auto. unfold Rdiv. ring.
      + rewrite (apply1_fext q _ (fun x => monic (arec al) (brec el) k x * monic (arec al) (brec el) j x)) by (intros; ring). rewrite Low by lia. unfold Rdiv. ring. }
  assert (HC : forall i l, (i < S n)%nat -> (l < S n)%nat -> sumn (S n) (fun j => v j i * v j l) = delta i l).
  { intros i l Hi Hl. set (c := fun l => sumn (S n) (fun j => v j i * v j l) - delta i l).
    assert (Z0 : forall k, (k < S n)%nat -> sumn (S n) (fun l => c l * v k l) = 0).
    { intros k Hk. unfold c. rewrite (sumn_ext _ _ (fun l => sumn (S n) (fun j => v j i * (v j l * v k l)) + (-1) * (if (i =? l)%nat then v k l else 0))).
      - rewrite sumn_add, sumn_scal, sumn_swap. rewrite (sumn_pick (S n) i (fun l => v k l)) by auto.
        rewrite (sumn_ext _ _ (fun j => if (k =? j)%nat then v j i else 0)) by (intros j Hj; rewrite sumn_scal, HR by auto; unfold delta; rewrite Nat.eqb_sym; destruct (k =? j)%nat; ring).
        rewrite (sumn_pick (S n) k (fun j => v j i)) by auto. ring.
      - intros l0 Hl0. rewrite (sumn_ext _ (fun j => v j i * (v j l0 * v k l0)) (fun j => v k l0 * (v j i * v j l0))) by (intros; ring). rewrite sumn_scal. unfold delta. destruct (i =? l0)%nat; ring. }
    assert (Z1 : forall k, (k < S n)%nat -> sumn (S n) (fun l => (c l * sqrt (nth l weights 0)) * p k l) = 0).
    { intros k Hk. assert (Z := Z0 k Hk). rewrite (sumn_ext _ _ (fun l => / (sqrt h0 * eprod el k) * (c l * sqrt (nth l weights 0) * p k l))) in Z by (intros; unfold v; field; split; auto).
      rewrite sumn_scal in Z. apply Rmult_integral in Z. destruct Z as [Z|Z]; auto. exfalso. revert Z. apply Rinv_neq_0_compat. apply Rmult_integral_contrapositive. auto. }
    assert (Z2 : forall m, (m < S n)%nat -> sumn (S n) (fun l => (c l * sqrt (nth l weights 0)) * nth l points 0 ^ m) = 0).
    { induction m as [m IH] using lt_wf_ind. intros Hm.
      assert (G : forall u r, (r + length u <= m)%nat -> sumn (S n) (fun l => (c l * sqrt (nth l weights 0)) * (nth l points 0 ^ r * peval u (nth l points 0))) = 0).
      { induction u as [|u0 u IHu]; intros r L; [apply sumn_zero; intros; cbn [peval]; ring|]. cbn [length] in L.
        rewrite (sumn_ext _ _ (fun l => u0 * ((c l * sqrt (nth l weights 0)) * nth l points 0 ^ r) + (c l * sqrt (nth l weights 0)) * (nth l points 0 ^ S r * peval u (nth l points 0)))) by (intros; cbn [peval pow]; ring).
        rewrite sumn_add, sumn_scal, IH, IHu by lia. ring. }
      destruct (proj2 (pol_monic (arec al) (brec el) m)) as [u [Lu Eu]]. assert (Gu := G u 0%nat ltac:(lia)). assert (Zm := Z1 m Hm).
      rewrite (sumn_ext _ (fun l => c l * sqrt (nth l weights 0) * p m l) (fun l => c l * sqrt (nth l weights 0) * nth l points 0 ^ m + (c l * sqrt (nth l weights 0)) * (nth l points 0 ^ 0 * peval u (nth l points 0)))) in Zm.
      - rewrite sumn_add, Gu in Zm. lra.
      - intros l0 Hl0. unfold p. rewrite <- Eu. cbn [pow]. ring. }
    assert (Z3 := power_independent points (S n) (fun l => c l * sqrt (nth l weights 0)) Lp ND Z2 l Hl). cbn beta in Z3. apply Rmult_integral in Z3.
    destruct Z3 as [Z3|Z3]; [unfold c in Z3; lra|]. exfalso. revert Z3. apply Rgt_not_eq, sqrt_lt_R0, Wp. auto. }
  exists (rev al ++ [1]), (rev (sqrt h0 :: el)).
  apply (columns_reduction points (map sqrt weights) n al el (sqrt h0) v); auto.
  - rewrite map_length; auto.
  - unfold al. rewrite map_length, seq_length. auto.
  - unfold el. rewrite map_length, seq_length. auto.
  - intros i Hi. rewrite (nth_indep (map sqrt weights) 0 (sqrt 0)) by (rewrite map_length; lia). rewrite map_nth. unfold v, p. cbn [monic eprod]. field. auto.
Qed.

(* ------------------------------------------------------------------ what coefficients_from_gauss returns *)
Theorem coefficients_run sytrd points weights n : tridiagonal_reducer sytrd -> length points = S n -> length weights = S n -> NoDup points -> List.Forall (fun w => 0 < w) weights ->
  exists alpha b int_1, coefficients_from_gauss sytrd points weights = Some (alpha, None :: map Some b, int_1) /\ length alpha = S n /\ length b = n /\ int_1 = Rsum weights /\
    List.Forall (fun v => 0 < v) b /\ orthogonal (fun i => nth i alpha 0) (fun i => nth (i - 1) b 0) (moment (List.combine weights points)) (S n).
Proof.
  intros HS Lp Lw ND HW. unfold coefficients_from_gauss. rewrite Lp, Lw, Nat.eqb_refl. cbn [guard]. rewrite opt_list_sqrt by auto. cbn [bind].
  assert (Ls : length (map sqrt weights) = S n) by (rewrite map_length; auto).
  destruct (HS (S (S n)) (gauss_matrix points (map sqrt weights)) ltac:(lia) (gauss_matrix_square _ _ _ Lp Ls) (gauss_matrix_symmetric _ _ _ Lp Ls) (reduction_exists points weights n Lp Lw ND HW)) as [d [e [ER HT]]].
  rewrite ER. cbn [bind]. destruct (reduction_columns points (map sqrt weights) n d e Lp Ls HT) as [Ld [Le [v [HE [HR Hs]]]]].
  destruct (rev e) as [|c el] eqn:Er; [exfalso; assert (length (rev e) = 0%nat) by (rewrite Er; auto); rewrite rev_length in *; lia|]. cbn [map tl nth] in *.
  assert (Lel : length el = n) by (assert (length (rev e) = S (length el)) by (rewrite Er; auto); rewrite rev_length in *; lia).
  exists (rev (removelast d)), (map (fun v => v ^ 2) el), (c ^ 2). split; auto. split; [rewrite rev_length, length_removelast; lia|]. split; [rewrite map_length; auto|].
  assert (Hsq : forall i, (i < S n)%nat -> nth i weights 0 = (c * v 0%nat i) ^ 2).
  { intros i Hi. rewrite <- Hs by auto. rewrite (nth_indep (map sqrt weights) 0 (sqrt 0)) by lia. rewrite map_nth, pow2_sqrt; auto. apply Rlt_le. rewrite List.Forall_forall in HW. apply HW, nth_In. lia. }
  assert (Hx : forall i j, (i < S n)%nat -> (j < S n)%nat -> nth i points 0 = nth j points 0 -> i = j) by (intros i j Hi Hj E; apply (proj1 (NoDup_nth points 0) ND); try lia; auto).
  assert (H0 : forall i, (i < S n)%nat -> v 0%nat i <> 0).
  { intros i Hi E. assert (P : 0 < nth i weights 0) by (rewrite List.Forall_forall in HW; apply HW, nth_In; lia). rewrite Hsq, E in P by auto. nra. }
  split; [|split].
  - assert (E1 : Rsum weights = sumn (S n) (fun i => nth i weights 0)).
    { unfold sumn. rewrite <- Lw. clear. f_equal. induction weights as [|w l IH]; auto. cbn [length seq map nth]. f_equal. rewrite <- seq_shift, map_map. exact IH. }
    rewrite E1, (sumn_ext _ _ (fun i => c ^ 2 * (v 0%nat i * v 0%nat i))) by (intros i Hi; rewrite Hsq by auto; ring). rewrite sumn_scal, HR by lia. unfold delta. cbn. ring.
  - apply List.Forall_forall. intros y Hy. apply in_map_iff in Hy. destruct Hy as [u [<- Hu]]. destruct (In_nth _ _ 0 Hu) as [k [Hk <-]].
    assert (N := c_offdiag (rev (removelast d)) el (fun i => nth i points 0) v n HE Hx H0 k ltac:(lia)). nra.
  - intros k m Hk. unfold moment.
    rewrite (lmonic_ext _ _ _ (arec (rev (removelast d))) (brec el)).
    + rewrite lmonic_apply1. rewrite (apply1_combine weights points (S n)) by auto.
      rewrite (sumn_ext _ _ (fun i => (c * v 0%nat i) ^ 2 * (nth i points 0 ^ m * monic (arec (rev (removelast d))) (brec el) k (nth i points 0)))) by (intros i Hi; rewrite <- Hsq by auto; auto).
      apply (c_orthogonal (rev (removelast d)) el (fun i => nth i points 0) v n HE HR Hx H0 c k m Hk).
    + auto.
    + intros i Hi. unfold brec. rewrite (nth_indep (map (fun v => v ^ 2) el) 0 (0 ^ 2)) by (rewrite map_length; lia). rewrite (map_nth (fun v => v ^ 2)). auto.
Qed.

(** The coefficients are determined by the functional. *)
Lemma recurrence_unique a b a' b' mu mu' n : (forall j, (j <= 2 * n - 1)%nat -> mu j = mu' j) -> (forall i, (0 < i < n)%nat -> 0 < b i) -> 0 < mu 0%nat ->
  orthogonal a b mu n -> orthogonal a' b' mu' n -> forall k, (k < n)%nat -> a k = a' k /\ ((0 < k)%nat -> b k = b' k).
Proof.
  intros Hmu Hb H0 HO HO'.
  assert (Mu : forall k m, (k + m <= 2 * n - 1)%nat -> lmonic a' b' mu' k m = lmonic a' b' mu k m).
  { assert (G : forall k, (forall m, (k + m <= 2 * n - 1)%nat -> lmonic a' b' mu' k m = lmonic a' b' mu k m) /\ (forall m, (S k + m <= 2 * n - 1)%nat -> lmonic a' b' mu' (S k) m = lmonic a' b' mu (S k) m)).
    { induction k as [|k [I1 I2]].
      - split; intros m Hm; cbn [lmonic]; rewrite !Hmu by lia; auto.
      - split; [exact I2|]. intros m Hm. rewrite !lmonic_SS. rewrite !I2, I1 by lia. auto. }
    intros k. exact (proj1 (G k)). }
  assert (Pos : forall k, (k < n)%nat -> 0 < lmonic a b mu k k).
  { intros k Hk. rewrite (lmonic_norm a b mu n HO k Hk). apply Rmult_lt_0_compat; auto. revert Hk. clear - Hb. induction k as [|k IH]; intros Hk; [cbn; lra|].
    change (bprod b (S k)) with (bprod b k * b (S k)). apply Rmult_lt_0_compat; [apply IH; lia|apply Hb; lia]. }
  induction k as [k IH] using lt_wf_ind. intros Hk.
  assert (Same : forall j m, (j <= k)%nat -> lmonic a' b' mu j m = lmonic a b mu j m).
  { intros j m Hj. apply lmonic_ext; intros i Hi; symmetry; apply IH; lia. }
  assert (EB : (0 < k)%nat -> b k = b' k).
  { intros Kp. destruct k as [|k]; [lia|]. assert (E1 := HO (S (S k)) k ltac:(lia)). assert (E2 := HO' (S (S k)) k ltac:(lia)). rewrite Mu in E2 by lia. rewrite lmonic_SS in E1, E2. rewrite !Same in E2 by lia.
    rewrite (HO (S k) k) in E1, E2 by lia. assert (P := Pos k ltac:(lia)). apply (Rmult_eq_reg_r (lmonic a b mu k k)); lra. }
  split; auto. assert (P := Pos k Hk). assert (E1 := HO (S k) k ltac:(lia)). assert (E2 := HO' (S k) k ltac:(lia)). rewrite Mu in E2 by lia. cbn [lmonic] in E1, E2. rewrite !Same in E2 by lia.
  apply (Rmult_eq_reg_r (lmonic a b mu k k)); [|lra]. destruct k as [|k]; [lra|]. rewrite (Same k) in E2 by lia. rewrite <- EB in E2 by lia. lra.
Qed.
