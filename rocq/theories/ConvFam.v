(** Which families of rules converge. *)
From Coq Require Import Reals List Arith ZArith Lia Lra Permutation.
From Coquelicot Require Import Coquelicot.
From Verif Require Import Spec Spec1 RsumLemmas NearProofs AdaptModel PyBase UnModel C1Tools TrigPoly Interp C1Model C1Proofs C1Cc C1Cc2 C1Fej GwSpec GwProofs GwModel GwInt GwInt2 GwBound WeightSpec
  RoundModel RoundSpec ConvSpec Weier ConvProofs.
Import ListNotations.
Set Bullet Behavior "Strict Subproofs".
Open Scope R_scope.

(** *** Clenshaw-Curtis and Fejer weights are not negative *)
Lemma ccoef_neg i : (1 <= i)%nat -> ccoef i <= 0.
Proof.
  intros H. apply (le_INR 1) in H. cbn in H. unfold ccoef. unfold Rdiv. assert (/ (1 - 4 * INR i * INR i) < 0) by (apply Rinv_lt_0_compat; nra). lra.
Qed.
Lemma wcos_ge N a k : (1 <= N)%nat -> (forall m, (0 < m < N)%nat -> a m <= 0) -> wcos N a 0 <= wcos N a k.
Proof.
  intros H A. unfold wcos. apply Rmult_le_compat_l; [left; apply Rinv_0_lt_compat, lt_0_INR; lia|]. apply Rsum_le. intros m Hm. apply in_seq in Hm.
  replace (2 * PI * INR m * INR 0 / INR N) with 0 by (cbn [INR]; field; apply not_0_INR; lia). rewrite cos_0.
  destruct m as [|m]; [replace (2 * PI * INR 0 * INR k / INR N) with 0 by (cbn [INR]; field; apply not_0_INR; lia); rewrite cos_0; lra|].
  specialize (A (S m) ltac:(lia)). assert (C := COS_bound (2 * PI * INR (S m) * INR k / INR N)). nra.
Qed.
Lemma wald_u_ge0 N i : (2 <= N)%nat -> (1 <= i)%nat -> 0 <= wald_u N i.
Proof.
  intros H Hi. destruct (half_ge N H) as (H1 & _). destruct (Nat.lt_trichotomy i (N / 2)) as [L|[-> |L]].
  - rewrite wald_u_small by auto. assert (C := ccoef_neg i Hi). lra.
  - rewrite wald_u_mid by auto. apply (le_INR 1) in H1. change (INR 1) with 1 in H1. apply Rdiv_le_0_compat; lra.
  - rewrite wald_u_big by auto. lra.
Qed.
Lemma fejer2_nonneg n : (1 <= n)%nat -> List.Forall (fun wx => 0 <= fst wx) (map (fun wt => (fst wt, - cos (snd wt))) (fejer2_q n)).
Proof.
  intros H. apply List.Forall_forall. intros wx Hw. apply in_map_iff in Hw. destruct Hw as (wt & <- & Hw). cbn [fst]. unfold fejer2_q in Hw. apply in_map_iff in Hw. destruct Hw as (k & <- & _). cbn [fst].
  rewrite <- (fejer2_w0 (n + 1)) by lia. apply wcos_ge; [lia|]. intros m Hm. unfold wald_v.
  assert (A := wald_u_ge0 (n + 1) m ltac:(lia) ltac:(lia)). assert (B := wald_u_ge0 (n + 1) (n + 1 - m) ltac:(lia) ltac:(lia)). lra.
Qed.
Lemma cc_nonneg N : (2 <= N)%nat -> List.Forall (fun wx => 0 <= fst wx) (map (fun wt => (fst wt, - cos (snd wt))) (cc_q N)).
Proof.
  intros H. assert (D := cc_den_pos N H). assert (I : 0 < / cc_den N) by (apply Rinv_0_lt_compat; auto).
  apply List.Forall_forall. intros wx Hw. apply in_map_iff in Hw. destruct Hw as (wt & <- & Hw). cbn [fst]. unfold cc_q in Hw. apply in_map_iff in Hw. destruct Hw as (k & <- & _). cbn [fst].
  apply Rle_trans with (wcos N (cc_a N) 0); [rewrite cc_w0 by auto; lra|]. apply wcos_ge; [lia|].
  assert (K : forall m, (0 < m <= N / 2)%nat -> cc_a N m <= 0) by (intros m Hm; assert (V := cc_a_val N m H ltac:(lia)); assert (C := ccoef_neg m ltac:(lia)); lra).
  intros m Hm. destruct (half_ge N H) as (_ & _ & H3). destruct (le_lt_dec m (N / 2)) as [L|L]; [apply K; lia|].
  rewrite <- (cc_a_sym N H m ltac:(lia)). apply K. lia.
Qed.
Lemma fejer1_nonneg n : (1 <= n)%nat -> List.Forall (fun wx => 0 <= fst wx) (map (fun wt => (fst wt, - cos (snd wt))) (fejer1_q n)).
Proof.
  intros H. apply List.Forall_forall. intros wx Hw. apply in_map_iff in Hw. destruct Hw as (wt & <- & Hw). cbn [fst]. unfold fejer1_q in Hw. apply in_map_iff in Hw. destruct Hw as (k & <- & _). cbn [fst].
  unfold fej_w. apply Rmult_le_pos; [left; apply Rinv_0_lt_compat, lt_0_INR; lia|]. destruct (fej_half n H) as (H1 & H2 & H3).
  assert (S : Rsum (map (fej_c n) (seq 0 n)) <= Rsum (map (fun m => fej_c n m * cos (INR (2 * m) * fej_angle n k)) (seq 0 n))).
  { apply Rsum_le. intros m _. destruct m as [|m]; [replace (INR (2 * 0) * fej_angle n k) with 0 by (cbn; ring); rewrite cos_0; lra|].
    assert (C := COS_bound (INR (2 * S m) * fej_angle n k)). assert (fej_c n (S m) <= 0); [|nra]. unfold fej_c. destruct (_ <? _)%nat; [apply ccoef_neg; lia|lra]. }
  assert (T : Rsum (map (fej_c n) (seq 0 n)) = 1 + 1 / (2 * INR (n - n / 2) - 1)).
  { rewrite <- (telescope (n - n / 2)) by lia. replace (seq 0 n) with (seq 0 ((n - n / 2) + n / 2)) by (f_equal; lia). rewrite seq_app, map_app, Rsum_app.
    replace (Rsum (map (fej_c n) (seq (0 + (n - n / 2)) (n / 2)))) with 0.
    - rewrite Rplus_0_r. apply Rsum_map_ext. intros m Hm. apply in_seq in Hm. unfold fej_c. destruct (Nat.ltb_spec m (n - n / 2)); [auto|lia].
    - symmetry. rewrite (Rsum_map_ext _ (fun _ => 0 * 1)); [rewrite Rsum_map_scal; ring|]. intros m Hm. apply in_seq in Hm. unfold fej_c. destruct (Nat.ltb_spec m (n - n / 2)); [lia|ring]. }
  assert (P : 1 <= INR (n - n / 2)) by (apply (le_INR 1); lia). assert (0 < 1 / (2 * INR (n - n / 2) - 1)) by (apply Rdiv_lt_0_compat; lra). lra.
Qed.
Lemma cos_within q : points_within (map (fun wt => (fst wt, - cos (snd wt))) q).
Proof. apply List.Forall_forall. intros wx Hw. apply in_map_iff in Hw. destruct Hw as (wt & <- & _). cbn [snd]. assert (C := COS_bound (snd wt)). lra. Qed.
Lemma positive_within q : positive_inside q -> points_within q /\ List.Forall (fun wx => 0 <= fst wx) q.
Proof. intros H. split; eapply List.Forall_impl; [|exact H| |exact H]; intros [w x]; cbn; lra. Qed.

(** *** Weighted integrals *)
Section Weighted.
Context (Int : (R -> R) -> R -> Prop).
Context (bound : forall f g e If Ig I1, (forall x, -1 <= x <= 1 -> Rabs (f x - g x) <= e) -> Int f If -> Int g Ig -> Int (fun _ => 1) I1 -> Rabs (If - Ig) <= e * I1).
Theorem weighted_converges (q : nat -> option rule1) (d : nat -> nat) f I I1 : continuous_on (-1) 1 f -> Int f I -> Int (fun _ => 1) I1 ->
  (forall m, exists N, forall n, (N <= n)%nat -> (m <= d n)%nat /\ exists r, q n = Some r /\
     (forall c, (length c <= d n)%nat -> Int (peval c) (apply1 r (peval c))) /\ points_within r /\ List.Forall (fun wx => 0 <= fst wx) r) ->
  converges_to (fun n => option_map (fun r => c1_integrate r f (-1, 1)) (q n)) I.
Proof.
  intros C HI H1 Q eps He.
  assert (P1 : 0 <= I1).
  { destruct (Q 1%nat) as (N & HN). destruct (HN N (le_n N)) as (Hd & r & Er & X & P & W). assert (Z := X [1] Hd).
    assert (B := bound (peval [1]) (fun _ => 1) 0 _ _ _ ltac:(intros x _; cbn; replace (1 + x * 0 - 1) with 0 by ring; rewrite Rabs_R0; lra) Z H1 H1).
    rewrite Rmult_0_l in B. assert (apply1 r (peval [1]) = weight_sum r) by (rewrite weight_sum_pos by auto; apply apply1_ext'; intros; cbn; ring).
    assert (G := weight_sum_ge0 r). apply Rabs_le_between in B. lra. }
  set (e := eps / (2 * I1 + 1)). assert (He' : 0 < e) by (apply Rdiv_lt_0_compat; lra).
  destruct (weierstrass (-1) 1 f ltac:(lra) C e He') as (m & p & (c & Lc & Ec) & A).
  destruct (Q (S m)) as (N & HN). exists N. intros n Hn. destruct (HN n Hn) as (Hd & r & Er & X & P & W). exists (c1_integrate r f (-1, 1)). rewrite Er. split; [reflexivity|].
  assert (Ap : forall x, -1 <= x <= 1 -> Rabs (f x - peval c x) <= e) by (intros x Hx; rewrite <- Ec; left; apply A; auto).
  rewrite c1_integrate_apply. replace (Rabs (1 - -1) / 2) with 1 by (rewrite Rabs_right; lra). rewrite Rmult_1_l.
  rewrite (apply1_ext' r _ f) by (intros x; f_equal; field).
  assert (S : weight_sum r = I1).
  { assert (Z := X [1] ltac:(cbn; lia)). assert (B := bound (peval [1]) (fun _ => 1) 0 _ _ _ ltac:(intros x _; cbn; replace (1 + x * 0 - 1) with 0 by ring; rewrite Rabs_R0; lra) Z H1 H1).
    rewrite Rmult_0_l in B. rewrite weight_sum_pos by auto. rewrite (apply1_ext' r (fun _ => 1) (peval [1])) by (intros; cbn; ring). apply Rabs_le_between in B. lra. }
  assert (B1 : Rabs (apply1 r f - apply1 r (peval c)) <= I1 * e).
  { rewrite <- apply1_minus, <- S. apply apply1_bound. intros wx Hw. apply Ap. unfold points_within in P. rewrite List.Forall_forall in P. apply P; auto. }
  assert (B2 := bound f (peval c) e I (apply1 r (peval c)) I1 Ap HI (X c ltac:(lia)) H1).
  replace (apply1 r f - I) with ((apply1 r f - apply1 r (peval c)) - (I - apply1 r (peval c))) by ring.
  eapply Rle_lt_trans; [apply Rabs_triang|]. rewrite Rabs_Ropp. apply Rle_lt_trans with (e * (2 * I1)); [lra|].
  assert (e * (2 * I1 + 1) = eps) by (unfold e; field; lra). lra.
Qed.
End Weighted.
Lemma gen_bound (w f g : R -> R) e If Ig I1 : (forall x, -1 < x < 1 -> 0 <= w x) -> (forall x, -1 <= x <= 1 -> Rabs (f x - g x) <= e) ->
  is_RInt_gen (fun x => w x * f x) (at_right (-1)) (at_left 1) If -> is_RInt_gen (fun x => w x * g x) (at_right (-1)) (at_left 1) Ig ->
  is_RInt_gen (fun x => w x * 1) (at_right (-1)) (at_left 1) I1 -> Rabs (If - Ig) <= e * I1.
Proof.
  intros W A HF HG H1.
  assert (HD : is_RInt_gen (fun x => 1 * (w x * f x) + -1 * (w x * g x)) (at_right (-1)) (at_left 1) (1 * If + -1 * Ig)) by (apply gen_lin; auto; typeclasses eauto).
  assert (HE : is_RInt_gen (fun x => e * (w x * 1)) (at_right (-1)) (at_left 1) (e * I1)) by (apply gen_scal; auto; typeclasses eauto).
  replace (If - Ig) with (1 * If + -1 * Ig) by ring. change (norm (1 * If + -1 * Ig) <= e * I1).
  assert (half : at_right (-1) (fun x => -1 < x < 0) /\ at_left 1 (fun x => 0 < x < 1)).
  { split; exists (mkposreal 1 Rlt_0_1); intros y Hy Hl; [change (Rabs (y - -1) < 1) in Hy|change (Rabs (y - 1) < 1) in Hy]; apply Rabs_def2 in Hy; lra. }
  destruct half as [Ha Hb].
  apply (RInt_gen_norm (Fa := at_right (-1)) (Fb := at_left 1) (fun x => 1 * (w x * f x) + -1 * (w x * g x)) (fun x => e * (w x * 1)) (1 * If + -1 * Ig) (e * I1)); auto.
  - econstructor; [exact Ha|exact Hb|]. intros x y Hx Hy. cbn. lra.
  - econstructor; [exact Ha|exact Hb|]. intros x y Hx Hy z Hz. cbn in Hz. change (Rabs (1 * (w z * f z) + -1 * (w z * g z)) <= e * (w z * 1)).
    replace (1 * (w z * f z) + -1 * (w z * g z)) with (w z * (f z - g z)) by ring. assert (Wz := W z ltac:(lra)). rewrite Rabs_mult, (Rabs_right (w z)) by lra. assert (Az := A z ltac:(lra)). nra.
Qed.
Lemma jacobi_bound a b f g e If Ig I1 : (forall x, -1 <= x <= 1 -> Rabs (f x - g x) <= e) -> jacobi_int a b f If -> jacobi_int a b g Ig -> jacobi_int a b (fun _ => 1) I1 -> Rabs (If - Ig) <= e * I1.
Proof. intros A. apply (gen_bound (jw a b)); auto. intros x _. left. apply jw_pos. Qed.
Definition cheb1_int (f : R -> R) (I : R) : Prop := is_RInt_gen (fun x => f x / sqrt (1 - x * x)) (at_right (-1)) (at_left 1) I.
Definition cheb2_int (f : R -> R) (I : R) : Prop := is_RInt (fun x => f x * sqrt (1 - x * x)) (-1) 1 I.
Lemma cheb1_bound f g e If Ig I1 : (forall x, -1 <= x <= 1 -> Rabs (f x - g x) <= e) -> cheb1_int f If -> cheb1_int g Ig -> cheb1_int (fun _ => 1) I1 -> Rabs (If - Ig) <= e * I1.
Proof.
  intros A HF HG H1. apply (gen_bound (fun x => / sqrt (1 - x * x)) f g); auto.
  - intros x Hx. left. apply Rinv_0_lt_compat, sqrt_lt_R0. nra.
  - eapply j_ext; [|exact HF]. intros x _. cbn beta. unfold Rdiv. ring.
  - eapply j_ext; [|exact HG]. intros x _. cbn beta. unfold Rdiv. ring.
  - eapply j_ext; [|exact H1]. intros x _. cbn beta. unfold Rdiv. ring.
Qed.
Lemma cheb2_bound f g e If Ig I1 : (forall x, -1 <= x <= 1 -> Rabs (f x - g x) <= e) -> cheb2_int f If -> cheb2_int g Ig -> cheb2_int (fun _ => 1) I1 -> Rabs (If - Ig) <= e * I1.
Proof.
  intros A HF HG H1. assert (HD := is_RInt_minus (V := R_NormedModule) _ _ _ _ _ _ HF HG). assert (HE := is_RInt_scal (V := R_NormedModule) _ _ _ e _ H1).
  apply (norm_RInt_le (V := R_NormedModule) (fun x => minus (f x * sqrt (1 - x * x)) (g x * sqrt (1 - x * x))) (fun x => scal e (1 * sqrt (1 - x * x))) (-1) 1 (minus If Ig) (scal e I1)); auto; [lra|].
  intros x Hx. change (Rabs (f x * sqrt (1 - x * x) - g x * sqrt (1 - x * x)) <= e * (1 * sqrt (1 - x * x))).
  replace (f x * sqrt (1 - x * x) - g x * sqrt (1 - x * x)) with (sqrt (1 - x * x) * (f x - g x)) by ring. assert (Q := sqrt_pos (1 - x * x)). rewrite Rabs_mult, (Rabs_right (sqrt _)) by lra. assert (B := A x Hx). nra.
Qed.

(** *** Where the points of Gauss-Radau and Gauss-Lobatto rules lie *)
Lemma inside_by a b l1 l2 w x c0 l : (forall y, In y (map snd (l1 ++ l2)) -> peval c0 y = 0) ->
  (forall y, -1 < y < 1 -> 0 <= peval c0 y) -> (forall y, -1 < y < 1 -> ~ In y l -> 0 < peval c0 y) ->
  (forall c, (length c <= S (length c0))%nat -> jacobi_int a b (peval c) (apply1 (l1 ++ (w, x) :: l2) (peval c))) -> -1 < x < 1.
Proof.
  intros Z N P X. split; apply Rnot_le_lt; intros B.
  - assert (T := X (pmul_lin (- x) 1 c0) (pmul_lin_length (- x) 1 c0)). apply (jacobi_pos_poly a b _ l) in T.
    + rewrite apply1_single, peval_pmul_lin in T; [ring_simplify in T; lra|]. intros y Hy. rewrite peval_pmul_lin, Z by auto. ring.
    + intros y Hy. rewrite peval_pmul_lin. apply Rmult_le_pos; [lra|auto].
    + intros y Hy Hn. rewrite peval_pmul_lin. apply Rmult_lt_0_compat; [lra|auto].
  - assert (T := X (pmul_lin x (-1) c0) (pmul_lin_length x (-1) c0)). apply (jacobi_pos_poly a b _ l) in T.
    + rewrite apply1_single, peval_pmul_lin in T; [ring_simplify in T; lra|]. intros y Hy. rewrite peval_pmul_lin, Z by auto. ring.
    + intros y Hy. rewrite peval_pmul_lin. apply Rmult_le_pos; [lra|auto].
    + intros y Hy Hn. rewrite peval_pmul_lin. apply Rmult_lt_0_compat; [lra|auto].
Qed.
Lemma in_others (l1 l2 : rule1) w x y : In y (map snd (l1 ++ (w, x) :: l2)) -> y <> x -> In y (map snd (l1 ++ l2)).
Proof. rewrite !map_app. intros H N. apply in_app_or in H. apply in_or_app. destruct H as [H|[H|H]]; auto. cbn in H. congruence. Qed.
Theorem radau_within a b q : In (-1) (map snd q) -> (forall c, (length c <= 2 * length q - 1)%nat -> jacobi_int a b (peval c) (apply1 q (peval c))) ->
  List.Forall (fun wx => -1 <= snd wx < 1) q.
Proof.
  intros E X. apply List.Forall_forall. intros [w x] Hin. cbn [snd]. destruct (Req_EM_T x (-1)) as [-> | Nx]; [lra|].
  destruct (in_split_others q _ Hin) as (l1 & l2 & -> & L). assert (H := in_others l1 l2 w x (-1) E ltac:(auto)). apply in_split in H. destruct H as (u & v & Ho).
  set (o := map snd (l1 ++ l2)) in *. assert (Lo : length o = S (length (u ++ v))) by (rewrite Ho, !app_length; cbn; lia).
  assert (LP := psq_length (u ++ v)). assert (LQ := pmul_lin_length 1 1 (psq (u ++ v))). assert (-1 < x < 1); [|lra].
  apply (inside_by a b l1 l2 w x (pmul_lin 1 1 (psq (u ++ v))) (u ++ v)).
  - intros y Hy. fold o in Hy. rewrite peval_pmul_lin. rewrite Ho in Hy. apply in_app_or in Hy. destruct Hy as [Hy|[<- |Hy]]; [|ring|]; rewrite psq_0; try ring; apply in_or_app; auto.
  - intros y Hy. rewrite peval_pmul_lin. apply Rmult_le_pos; [lra|apply psq_ge].
  - intros y Hy Hn. rewrite peval_pmul_lin. apply Rmult_lt_0_compat; [lra|apply psq_pos; auto].
  - intros c Hc. apply X. lia.
Qed.
Theorem lobatto_within a b q : In (-1) (map snd q) -> In 1 (map snd q) -> (forall c, (length c <= 2 * length q - 2)%nat -> jacobi_int a b (peval c) (apply1 q (peval c))) ->
  points_within q.
Proof.
  intros E E' X. apply List.Forall_forall. intros [w x] Hin. cbn [snd]. destruct (Req_EM_T x (-1)) as [-> | Nx]; [lra|]. destruct (Req_EM_T x 1) as [-> | Mx]; [lra|].
  destruct (in_split_others q _ Hin) as (l1 & l2 & -> & L). assert (H := in_others l1 l2 w x (-1) E ltac:(auto)). assert (H' := in_others l1 l2 w x 1 E' ltac:(auto)). apply in_split in H. destruct H as (u & v & Ho).
  set (o := map snd (l1 ++ l2)) in *. assert (K : In 1 (u ++ v)) by (rewrite Ho in H'; apply in_app_or in H'; apply in_or_app; destruct H' as [H'|[H'|H']]; [auto|lra|auto]).
  apply in_split in K. destruct K as (u' & v' & Ko).
  assert (Lo : length o = S (S (length (u' ++ v')))) by (rewrite Ho, app_length; cbn; rewrite Nat.add_succ_r, <- app_length, Ko, !app_length; cbn; lia).
  set (c0 := pmul_lin 1 1 (pmul_lin 1 (-1) (psq (u' ++ v')))).
  assert (L0 : (length c0 <= 2 * length (u' ++ v') + 3)%nat).
  { assert (LP := psq_length (u' ++ v')). assert (LQ := pmul_lin_length 1 (-1) (psq (u' ++ v'))). assert (LR := pmul_lin_length 1 1 (pmul_lin 1 (-1) (psq (u' ++ v')))). unfold c0. lia. }
  assert (V0 : forall y, peval c0 y = (1 + y) * (1 - y) * peval (psq (u' ++ v')) y) by (intros y; unfold c0; rewrite !peval_pmul_lin; ring).
  assert (-1 < x < 1); [|lra]. apply (inside_by a b l1 l2 w x c0 (u' ++ v')).
  - intros y Hy. fold o in Hy. rewrite V0. rewrite Ho in Hy. assert (C : y = -1 \/ In y (u ++ v)) by (apply in_app_or in Hy; destruct Hy as [Hy|[Hy|Hy]]; [right; apply in_or_app; auto|left; auto|right; apply in_or_app; auto]).
    destruct C as [-> |C]; [ring|]. rewrite Ko in C. apply in_app_or in C. destruct C as [C|[<- |C]]; [|ring|]; rewrite psq_0; try ring; apply in_or_app; auto.
  - intros y Hy. rewrite V0. apply Rmult_le_pos; [apply Rmult_le_pos; lra|apply psq_ge].
  - intros y Hy Hn. rewrite V0. apply Rmult_lt_0_compat; [apply Rmult_lt_0_compat; lra|apply psq_pos; auto].
  - intros c Hc. apply X. lia.
Qed.

(** *** Krylov's rule on circles: the rectangle rule in the angle *)
Lemma arcs_chain n m k : (1 <= n)%nat -> (m + k = n)%nat -> chain (2 * PI * INR k / INR n) (2 * PI) (map (fun j => (2 * PI * INR j / INR n, 2 * PI * INR (S j) / INR n)) (seq k m)).
Proof.
  intros H. revert k. assert (P : 0 < INR n) by (apply lt_0_INR; lia). assert (Q := PI_RGT_0). induction m as [|m IH]; intros k E; cbn [seq map chain].
  - replace k with n by lia. field. lra.
  - split; [reflexivity|]. split; [|apply IH; lia]. rewrite S_INR. apply Rmult_le_compat_r; [left; apply Rinv_0_lt_compat; auto|]. nra.
Qed.
Lemma left_rule_exact : exact1 0 [(2, -1)].
Proof.
  intros c Hc. destruct c as [|c0 [|? ?]]; [| |cbn in Hc; lia].
  - rewrite (RInt_ext _ (fun _ => 0)) by (intros; cbn; ring). rewrite RInt_const. unfold apply1, scal. cbn. unfold mult. cbn. ring.
  - rewrite (RInt_ext _ (fun _ => c0)) by (intros; cbn; ring). rewrite RInt_const. unfold apply1, scal. cbn. unfold mult. cbn. ring.
Qed.
Theorem krylov_converges f a b r : continuous_on 0 (2 * PI) (fun t => f [a + r * cos t; b + r * sin t]) ->
  converges_to (fun n => option_map (fun s => u2_integrate (u2_rule s) f [a; b] r) (krylov n)) (circle_int_at a b r f).
Proof.
  intros C eps He. set (g := fun t => f [a + r * cos t; b + r * sin t]) in *. assert (Q := PI_RGT_0).
  assert (Hr : 0 < Rabs r + 1) by (assert (0 <= Rabs r) by apply Rabs_pos; lra).
  destruct (composite_converges [(2, -1)] 0 (2 * PI) g left_rule_exact ltac:(repeat constructor; cbn; lra) C (eps / (Rabs r + 1))) as (h & Hh & K); [apply Rdiv_lt_0_compat; auto|].
  destruct (nfloor_ex (2 * PI / h)) as (N & HN); [left; apply Rdiv_lt_0_compat; lra|]. exists (S N). intros n Hn. assert (H : (1 <= n)%nat) by lia. assert (P : 0 < INR n) by (apply lt_0_INR; lia).
  exists (u2_integrate (krylov_rule n) f [a; b] r). rewrite krylov_run by auto. split; [reflexivity|].
  set (l := map (fun j => (2 * PI * INR j / INR n, 2 * PI * INR (S j) / INR n)) (seq 0 n)).
  assert (T : tiling 0 (2 * PI) l).
  { exists l. split; [apply Permutation_refl|]. assert (X := arcs_chain n n 0 H ltac:(lia)). replace (2 * PI * INR 0 / INR n) with 0 in X by (cbn [INR]; field; lra). exact X. }
  assert (M : forall iv, In iv l -> snd iv - fst iv < h).
  { intros iv Hi. apply in_map_iff in Hi. destruct Hi as (j & <- & _). cbn [fst snd]. rewrite S_INR. replace (2 * PI * (INR j + 1) / INR n - 2 * PI * INR j / INR n) with (2 * PI / INR n) by (field; lra).
    apply (le_INR (S N)) in Hn. rewrite S_INR in Hn. apply Rmult_lt_reg_r with (INR n); auto. replace (2 * PI / INR n * INR n) with (2 * PI / h * h) by (field; lra). rewrite Rmult_comm. apply Rmult_lt_compat_l; lra. }
  assert (B := K l T M).
  assert (E1 : u2_integrate (krylov_rule n) f [a; b] r = r * Rsum (map (c1_integrate [(2, -1)] g) l)).
  { unfold u2_integrate, round_dot, krylov_rule, l. rewrite !map_map. cbn [fst snd]. rewrite <- !Rsum_map_scal. apply Rsum_map_ext. intros j _.
    rewrite c1_integrate_apply. unfold apply1. cbn [map Rsum fst snd]. rewrite S_INR.
    replace (2 * PI * (INR j + 1) / INR n - 2 * PI * INR j / INR n) with (2 * PI / INR n) by (field; lra). rewrite Rabs_right by (left; apply Rdiv_lt_0_compat; lra).
    replace ((2 * PI * INR j / INR n + 2 * PI * (INR j + 1) / INR n) / 2 + 2 * PI / INR n / 2 * -1) with (2 * INR j * PI / INR n) by (field; lra).
    unfold g. match goal with |- context [f (GeomModel.vadd ?u ?v)] => replace (GeomModel.vadd u v) with [a + r * cos (2 * INR j * PI / INR n); b + r * sin (2 * INR j * PI / INR n)] by reflexivity end. field. lra. }
  assert (E2 : circle_int_at a b r f = r * RInt g 0 (2 * PI)).
  { unfold circle_int_at. apply is_RInt_unique. apply (is_RInt_scal (V := R_NormedModule) g). apply (RInt_correct (V := R_CompleteNormedModule)). apply continuous_on_ex_RInt; auto. lra. }
  rewrite E1, E2, <- Rmult_minus_distr_l, Rabs_mult. apply Rle_lt_trans with (Rabs r * (eps / (Rabs r + 1))); [apply Rmult_le_compat_l; [apply Rabs_pos|lra]|].
  assert (eps / (Rabs r + 1) * (Rabs r + 1) = eps) by (field; lra). assert (0 < eps / (Rabs r + 1)) by (apply Rdiv_lt_0_compat; auto). lra.
Qed.
