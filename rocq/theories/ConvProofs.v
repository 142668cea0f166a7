(** Error bounds and convergence of one-dimensional rules. *)
From Coq Require Import Reals List Arith Lia Lra Permutation.
From Coquelicot Require Import Coquelicot.
From Verif Require Import Spec Spec1 RsumLemmas AdaptModel C1Tools Interp ConvSpec Weier GwBound.
Import ListNotations.
Set Bullet Behavior "Strict Subproofs".
Open Scope R_scope.

Lemma weight_sum_ge0 q : 0 <= weight_sum q.
Proof. induction q as [|[w x] q IH]; unfold weight_sum in *; cbn [map Rsum fst]; [lra|]. assert (0 <= Rabs w) by apply Rabs_pos. lra. Qed.
Lemma weight_sum_pos q : List.Forall (fun wx => 0 <= fst wx) q -> weight_sum q = apply1 q (fun _ => 1).
Proof. induction 1 as [|[w x] q H _ IH]; unfold weight_sum, apply1 in *; cbn [map Rsum fst snd] in *; [auto|]. rewrite Rabs_right, IH by lra. ring. Qed.
Lemma apply1_bound q f e : (forall wx, In wx q -> Rabs (f (snd wx)) <= e) -> Rabs (apply1 q f) <= weight_sum q * e.
Proof.
  induction q as [|[w x] q IH]; intros H; unfold weight_sum, apply1 in *; cbn [map Rsum fst snd] in *; [rewrite Rabs_R0; lra|].
  eapply Rle_trans; [apply Rabs_triang|]. rewrite Rabs_mult. assert (A := H (w, x) (or_introl eq_refl)). cbn in A. assert (B := IH (fun wx Hw => H wx (or_intror Hw))).
  assert (0 <= Rabs w) by apply Rabs_pos. nra.
Qed.
Lemma apply1_minus q f g : apply1 q (fun x => f x - g x) = apply1 q f - apply1 q g.
Proof. unfold apply1. rewrite <- Rsum_map_minus. apply Rsum_map_ext. intros; ring. Qed.
Lemma within_interval q a b : a <= b -> points_within q -> forall wx, In wx q -> a <= (a + b) / 2 + (b - a) / 2 * snd wx <= b.
Proof. intros H P wx Hw. unfold points_within in P. rewrite List.Forall_forall in P. specialize (P wx Hw). nra. Qed.
Lemma pol_ex_RInt m p a b : pol m p -> ex_RInt p a b.
Proof. intros (c & _ & E). apply (ex_RInt_ext (peval c)); [intros x _; auto|apply peval_ex_RInt]. Qed.

Theorem integrate_error d q a b f p e : exact1 d q -> points_within q -> a <= b -> ex_RInt f a b -> pol (S d) p ->
  (forall x, a <= x <= b -> Rabs (f x - p x) <= e) ->
  Rabs (c1_integrate q f (a, b) - RInt f a b) <= (b - a) / 2 * (2 + weight_sum q) * e.
Proof.
  intros X P H F Pp A. assert (Ep : c1_integrate q p (a, b) = RInt p a b).
  { destruct Pp as (c & L & E). transitivity (c1_integrate q (peval c) (a, b)).
    - rewrite !c1_integrate_apply. f_equal. apply apply1_ext'. auto.
    - rewrite (c1_integrate_exact d) by auto. rewrite Rmin_left, Rmax_right by auto. apply RInt_ext. intros x _. auto. }
  assert (Q : Rabs (c1_integrate q f (a, b) - c1_integrate q p (a, b)) <= (b - a) / 2 * (weight_sum q * e)).
  { rewrite !c1_integrate_apply, <- Rmult_minus_distr_l, <- apply1_minus, Rabs_mult. rewrite (Rabs_right (Rabs (b - a) / 2)), (Rabs_right (b - a)) by (try lra; assert (0 <= Rabs (b - a)) by apply Rabs_pos; lra).
    apply Rmult_le_compat_l; [lra|]. apply apply1_bound. intros wx Hw. apply A. apply (within_interval q); auto. }
  assert (I : Rabs (RInt p a b - RInt f a b) <= (b - a) * e).
  { assert (EP := pol_ex_RInt _ _ a b Pp). assert (M : RInt (fun x => p x - f x) a b = RInt p a b - RInt f a b) by exact (RInt_minus (V := R_CompleteNormedModule) p f a b EP F). rewrite <- M.
    apply abs_RInt_le_const; auto.
    - apply (ex_RInt_minus (V := R_NormedModule) p f); auto.
    - intros t Ht. replace (p t - f t) with (- (f t - p t)) by ring. rewrite Rabs_Ropp. auto. }
  rewrite Ep in Q. replace (c1_integrate q f (a, b) - RInt f a b) with ((c1_integrate q f (a, b) - RInt p a b) + (RInt p a b - RInt f a b)) by ring.
  eapply Rle_trans; [apply Rabs_triang|]. lra.
Qed.

(** *** Composite rules *)
Lemma chain_bounds a b l : chain a b l -> a <= b /\ forall iv, In iv l -> a <= fst iv /\ fst iv <= snd iv /\ snd iv <= b.
Proof.
  revert a. induction l as [|[u v] l IH]; intros a H; cbn in H.
  - subst. split; [lra|]. intros iv [].
  - destruct H as (-> & Huv & H). destruct (IH v H) as [L K]. split; [lra|]. intros iv [<- | Hi]; [cbn; lra|]. specialize (K iv Hi). lra.
Qed.
Lemma chain_total a b l : chain a b l -> Rsum (map (fun iv => snd iv - fst iv) l) = b - a.
Proof.
  revert a. induction l as [|[u v] l IH]; intros a H; cbn in H; cbn [map Rsum fst snd]; [subst; ring|].
  destruct H as (-> & Huv & H). rewrite (IH v H). ring.
Qed.
Lemma tiling_bounds a b l : tiling a b l -> a <= b /\ (forall iv, In iv l -> a <= fst iv /\ fst iv <= snd iv /\ snd iv <= b) /\ Rsum (map (fun iv => snd iv - fst iv) l) = b - a.
Proof.
  intros (l' & P & C). destruct (chain_bounds a b l' C) as [H K]. split; [auto|]. split.
  - intros iv Hi. apply K. apply (Permutation_in iv (Permutation_sym P)). auto.
  - rewrite <- (chain_total a b l' C). apply Rsum_map_perm. apply Permutation_sym; auto.
Qed.
Lemma sum_bound (l : list (R * R)) (g h : R * R -> R) : (forall iv, In iv l -> Rabs (g iv) <= h iv) -> Rabs (Rsum (map g l)) <= Rsum (map h l).
Proof.
  induction l as [|iv l IH]; intros H; cbn [map Rsum]; [rewrite Rabs_R0; lra|]. eapply Rle_trans; [apply Rabs_triang|].
  assert (A := H iv (or_introl eq_refl)). assert (B := IH (fun i Hi => H i (or_intror Hi))). lra.
Qed.
Lemma clamp_ex_RInt a b f : a <= b -> continuous_on a b f -> forall u v, ex_RInt (fun t => f (clamp a b t)) u v.
Proof. intros H C u v. apply (ex_RInt_continuous (V := R_CompleteNormedModule)). intros z _. apply continuity_pt_filterlim. apply clamp_continuity; auto. Qed.
Lemma tiling_split a b f l : continuous_on a b f -> tiling a b l -> RInt f a b = Rsum (map (fun iv => RInt f (fst iv) (snd iv)) l).
Proof.
  intros C T. destruct (tiling_bounds a b l T) as (H & K & _).
  rewrite (RInt_ext f (fun t => f (clamp a b t))) by (intros x Hx; rewrite Rmin_left, Rmax_right in Hx by auto; rewrite clamp_id; auto; lra).
  rewrite (tiling_RInt (fun t => f (clamp a b t)) a b l) by (auto; intros; apply clamp_ex_RInt; auto).
  apply Rsum_map_ext. intros iv Hi. destruct (K iv Hi) as (K1 & K2 & K3). apply RInt_ext. intros x Hx. rewrite Rmin_left, Rmax_right in Hx by auto. rewrite clamp_id; auto. lra.
Qed.
Lemma continuous_on_sub a b u v f : continuous_on a b f -> a <= u -> v <= b -> continuous_on u v f.
Proof.
  intros C Hu Hv x Hx eps He. destruct (C x ltac:(lra) eps He) as (d & Hd & D). exists d. split; auto. intros y Hy Hxy. apply D; auto. lra.
Qed.
Lemma composite_error d q a b f l e : exact1 d q -> points_within q -> continuous_on a b f -> tiling a b l ->
  (forall iv, In iv l -> exists p, pol (S d) p /\ forall x, fst iv <= x <= snd iv -> Rabs (f x - p x) <= e) ->
  Rabs (Rsum (map (c1_integrate q f) l) - RInt f a b) <= (b - a) / 2 * (2 + weight_sum q) * e.
Proof.
  intros X P C T A. destruct (tiling_bounds a b l T) as (H & K & S). rewrite (tiling_split a b f l C T), <- Rsum_map_minus.
  eapply Rle_trans; [apply (sum_bound l _ (fun iv => (2 + weight_sum q) * e / 2 * (snd iv - fst iv)))|].
  - intros [u v] Hi. destruct (K _ Hi) as (K1 & K2 & K3). destruct (A _ Hi) as (p & Pp & Ap). cbn [fst snd] in *.
    eapply Rle_trans; [apply (integrate_error d q u v f p e); auto|lra].
    apply continuous_on_ex_RInt; auto. apply (continuous_on_sub a b); auto.
  - rewrite Rsum_map_scal, S. lra.
Qed.
Theorem composite_converges q a b f : exact1 0 q -> points_within q -> continuous_on a b f -> forall eps, 0 < eps -> exists h, 0 < h /\
  forall l, tiling a b l -> (forall iv, In iv l -> snd iv - fst iv < h) -> Rabs (Rsum (map (c1_integrate q f) l) - RInt f a b) < eps.
Proof.
  intros X P C eps He. destruct (Rle_lt_dec a b) as [H|H].
  - assert (W := weight_sum_ge0 q). set (B := (b - a) / 2 * (2 + weight_sum q) + 1).
    assert (HB : 0 < B) by (unfold B; assert (0 <= (b - a) / 2 * (2 + weight_sum q)) by (apply Rmult_le_pos; lra); lra).
    destruct (continuous_on_uniform a b f H C (eps / 2 / B)) as (h & Hh & U); [apply Rdiv_lt_0_compat; lra|]. exists h. split; auto. intros l T L.
    eapply Rle_lt_trans; [apply (composite_error 0 q a b f l (eps / 2 / B)); auto|].
    + intros [u v] Hi. destruct (tiling_bounds a b l T) as (_ & K & _). destruct (K _ Hi) as (K1 & K2 & K3). specialize (L _ Hi). cbn [fst snd] in *.
      exists (fun _ => f u). split; [apply pol_const; lia|]. intros x Hx. left. apply U; [lra|lra|]. rewrite Rabs_right by lra. lra.
    + apply Rle_lt_trans with (B * (eps / 2 / B)); [|replace (B * (eps / 2 / B)) with (eps / 2) by (field; lra); lra].
      apply Rmult_le_compat_r; [left; apply Rdiv_lt_0_compat; lra|unfold B; lra].
  - exists 1. split; [lra|]. intros l T. destruct (tiling_bounds a b l T) as (L & _). lra.
Qed.

(** *** Smooth integrands *)
Lemma taylor_pol f n a : pol (S n) (fun y => sum_f_R0 (fun m => (y - a) ^ m / INR (fact m) * Derive_n f m a) n).
Proof.
  assert (Pw : forall m, pol (S m) (fun y => (y - a) ^ m)).
  { intros m. induction m as [|m IH]; [exact (pol_const 1 1 (le_n 1))|]. apply (pol_ext (S (S m)) (fun y => (- a + 1 * y) * (y - a) ^ m)); [intros x; cbn [pow]; ring|]. apply pol_lin; auto. }
  induction n as [|n IH]; cbn [sum_f_R0].
  - apply (pol_ext 1 (fun y => (Derive_n f 0 a / INR (fact 0)) * (y - a) ^ 0)); [intros x; field; apply INR_fact_neq_0|]. apply pol_scal. apply Pw.
  - apply pol_add; [apply (pol_le (S n)); auto|].
    apply (pol_ext _ (fun y => (Derive_n f (S n) a / INR (fact (S n))) * (y - a) ^ S n)); [intros x; field; apply INR_fact_neq_0|]. apply pol_scal. apply Pw.
Qed.
Lemma taylor_near d f u v M : u <= v -> 0 <= M -> (forall x, u <= x <= v -> forall k, (k <= S d)%nat -> ex_derive_n f k x) ->
  (forall x, u <= x <= v -> Rabs (Derive_n f (S d) x) <= M) ->
  forall x, u <= x <= v -> Rabs (f x - sum_f_R0 (fun m => (x - u) ^ m / INR (fact m) * Derive_n f m u) d) <= (v - u) ^ S d / INR (fact (S d)) * M.
Proof.
  intros H HM D B x Hx. assert (F := INR_fact_lt_0 (S d)).
  destruct (Rle_lt_or_eq_dec u x) as [L| <- ]; [lra| |].
  - destruct (Taylor_Lagrange f d u x L) as (z & Hz & E); [intros t Ht k Hk; apply D; auto; lra|]. rewrite E.
    replace (sum_f_R0 (fun m => (x - u) ^ m / INR (fact m) * Derive_n f m u) d + (x - u) ^ S d / INR (fact (S d)) * Derive_n f (S d) z - sum_f_R0 (fun m => (x - u) ^ m / INR (fact m) * Derive_n f m u) d)
      with ((x - u) ^ S d / INR (fact (S d)) * Derive_n f (S d) z) by ring.
    rewrite Rabs_mult. apply Rmult_le_compat; try apply Rabs_pos.
    + assert (0 <= (x - u) ^ S d) by (apply pow_le; lra). rewrite Rabs_right by (apply Rle_ge, Rdiv_le_0_compat; auto).
      apply Rmult_le_compat_r; [left; apply Rinv_0_lt_compat; auto|]. apply pow_incr. lra.
    + apply B. lra.
  - replace (sum_f_R0 (fun m => (u - u) ^ m / INR (fact m) * Derive_n f m u) d) with (f u).
    + rewrite Rminus_eq_0, Rabs_R0. apply Rmult_le_pos; [|auto]. apply Rdiv_le_0_compat; auto. apply pow_le. lra.
    + clear. induction d as [|d IH]; cbn [sum_f_R0]; [cbn; field|]. rewrite <- IH, Rminus_eq_0, pow_i by lia. unfold Rdiv. ring.
Qed.
Theorem composite_order d q a b f M h l : exact1 d q -> points_within q -> 0 <= M ->
  (forall x, a <= x <= b -> forall k, (k <= S d)%nat -> ex_derive_n f k x) -> (forall x, a <= x <= b -> Rabs (Derive_n f (S d) x) <= M) ->
  tiling a b l -> (forall iv, In iv l -> snd iv - fst iv <= h) ->
  Rabs (Rsum (map (c1_integrate q f) l) - RInt f a b) <= (b - a) / 2 * (2 + weight_sum q) * (M / INR (fact (S d))) * h ^ S d.
Proof.
  intros X P HM D B T L. destruct (tiling_bounds a b l T) as (H & K & _). assert (F := INR_fact_lt_0 (S d)).
  assert (C : continuous_on a b f).
  { intros x Hx eps He. assert (Q := D x Hx 1%nat ltac:(lia)). cbn in Q. apply (ex_derive_continuous (V := R_NormedModule)) in Q.
    apply continuity_pt_filterlim in Q. destruct (Q eps He) as (dl & Hd & G). exists dl. split; [auto|]. intros y Hy Hxy.
    destruct (Req_dec x y) as [<- | N]; [rewrite Rminus_eq_0, Rabs_R0; auto|]. apply (G y). split; [split; [exact I|auto]|exact Hxy]. }
  replace ((b - a) / 2 * (2 + weight_sum q) * (M / INR (fact (S d))) * h ^ S d) with ((b - a) / 2 * (2 + weight_sum q) * (h ^ S d / INR (fact (S d)) * M)) by (field; lra).
  apply (composite_error d); auto. intros [u v] Hi. destruct (K _ Hi) as (K1 & K2 & K3). specialize (L _ Hi). cbn [fst snd] in *.
  eexists. split; [apply (taylor_pol f d u)|]. intros x Hx. eapply Rle_trans; [apply (taylor_near d f u v M)|]; auto; try lra.
  - intros y Hy. apply D. lra.
  - intros y Hy. apply B. lra.
  - apply Rmult_le_compat_r; auto. apply Rmult_le_compat_r; [left; apply Rinv_0_lt_compat; auto|]. apply pow_incr. lra.
Qed.

(** *** Rules of growing degree *)
Theorem degree_converges (q : nat -> option rule1) (d : nat -> nat) a b f : a <= b -> continuous_on a b f ->
  (forall m, exists N, forall n, (N <= n)%nat -> (m <= d n)%nat /\ exists r, q n = Some r /\ exact1 (d n) r /\ points_within r /\ List.Forall (fun wx => 0 <= fst wx) r) ->
  converges_to (fun n => option_map (fun r => c1_integrate r f (a, b)) (q n)) (RInt f a b).
Proof.
  intros H C Q eps He. destruct (Rle_lt_or_eq_dec a b H) as [L| <- ].
  - destruct (weierstrass a b f L C (eps / (2 * (b - a + 1)))) as (m & p & Pp & A); [apply Rdiv_lt_0_compat; lra|].
    destruct (Q m) as (N & HN). exists N. intros n Hn. destruct (HN n Hn) as (Hd & r & Er & X & P & W). exists (c1_integrate r f (a, b)). rewrite Er. split; [reflexivity|].
    assert (S : weight_sum r = 2).
    { rewrite weight_sum_pos by auto. rewrite (exact1_pol (d n) r (fun _ => 1) X) by (apply pol_const; lia). rewrite RInt_const. unfold scal. cbn. unfold mult. cbn. lra. }
    eapply Rle_lt_trans; [apply (integrate_error (d n) r a b f p (eps / (2 * (b - a + 1)))); auto|].
    + apply continuous_on_ex_RInt; auto.
    + apply (pol_le m); [lia|auto].
    + intros x Hx. left. apply A. auto.
    + rewrite S. replace ((b - a) / 2 * (2 + 2) * (eps / (2 * (b - a + 1)))) with (eps * ((b - a) / (b - a + 1))) by (field; lra).
      assert ((b - a) / (b - a + 1) < 1) by (apply Rmult_lt_reg_r with (b - a + 1); [lra|]; unfold Rdiv; rewrite Rmult_assoc, Rinv_l by lra; lra). nra.
  - destruct (Q 0%nat) as (N & HN). exists N. intros n Hn. destruct (HN n Hn) as (Hd & r & Er & X & P & W). exists (c1_integrate r f (a, a)). rewrite Er. split; [reflexivity|].
    rewrite RInt_point. unfold zero. cbn. rewrite c1_integrate_apply, Rminus_eq_0, Rabs_R0. unfold Rdiv. rewrite !Rmult_0_l, Rminus_0_r, Rabs_R0. auto.
Qed.

(** *** An n-point rule of degree 2n-1 has positive weights and its points inside *)
Section Positive.
Context (Int : (R -> R) -> R -> Prop).
Context (pos : forall c l I, (forall x, -1 < x < 1 -> 0 <= peval c x) -> (forall x, -1 < x < 1 -> ~ In x l -> 0 < peval c x) -> Int (peval c) I -> 0 < I).
Lemma in_split_others (q : rule1) wx : In wx q -> exists l1 l2, q = l1 ++ wx :: l2 /\ length q = S (length (map snd (l1 ++ l2))).
Proof. intros H. apply in_split in H. destruct H as (l1 & l2 & ->). exists l1, l2. split; auto. rewrite map_length, !app_length. cbn. lia. Qed.
Lemma apply1_single l1 l2 w x f : (forall y, In y (map snd (l1 ++ l2)) -> f y = 0) -> apply1 (l1 ++ (w, x) :: l2) f = w * f x.
Proof.
  intros H. rewrite apply1_app. change (apply1 ((w, x) :: l2) f) with (w * f x + apply1 l2 f).
  rewrite (apply1_0 l1), (apply1_0 l2); [ring| |]; intros y Hy; apply H; rewrite map_app; apply in_or_app; auto.
Qed.
Theorem gauss_positive q : (forall c, (length c <= 2 * length q)%nat -> Int (peval c) (apply1 q (peval c))) -> positive_inside q.
Proof.
  intros X. apply List.Forall_forall. intros [w x] Hin. destruct (in_split_others q _ Hin) as (l1 & l2 & E & L). set (o := map snd (l1 ++ l2)) in *. cbn [fst snd].
  assert (LP := psq_length o). assert (Z : forall y, In y o -> peval (psq o) y = 0) by (intros; apply psq_0; auto).
  split.
  - assert (T := X (psq o) ltac:(lia)). apply (pos _ o) in T; [|intros; apply psq_ge|intros; apply psq_pos; auto].
    rewrite E, apply1_single in T by auto. assert (G := psq_ge o x). destruct (Rle_lt_dec w 0); [nra|auto].
  - split; apply Rnot_le_lt; intros B.
    + assert (T := X (pmul_lin (- x) 1 (psq o)) ltac:(assert (Q := pmul_lin_length (- x) 1 (psq o)); lia)). apply (pos _ o) in T.
      * rewrite E, apply1_single, peval_pmul_lin in T; [ring_simplify in T; lra|]. intros y Hy. rewrite peval_pmul_lin, Z by auto. ring.
      * intros y Hy. rewrite peval_pmul_lin. apply Rmult_le_pos; [lra|apply psq_ge].
      * intros y Hy Hn. rewrite peval_pmul_lin. apply Rmult_lt_0_compat; [lra|apply psq_pos; auto].
    + assert (T := X (pmul_lin x (-1) (psq o)) ltac:(assert (Q := pmul_lin_length x (-1) (psq o)); lia)). apply (pos _ o) in T.
      * rewrite E, apply1_single, peval_pmul_lin in T; [ring_simplify in T; lra|]. intros y Hy. rewrite peval_pmul_lin, Z by auto. ring.
      * intros y Hy. rewrite peval_pmul_lin. apply Rmult_le_pos; [lra|apply psq_ge].
      * intros y Hy Hn. rewrite peval_pmul_lin. apply Rmult_lt_0_compat; [lra|apply psq_pos; auto].
Qed.
End Positive.
Lemma RInt_pos_poly c l I : (forall x, -1 < x < 1 -> 0 <= peval c x) -> (forall x, -1 < x < 1 -> ~ In x l -> 0 < peval c x) -> RInt (peval c) (-1) 1 = I -> 0 < I.
Proof.
  intros H1 H2 <-. destruct (avoid l (-1 / 2) (1 / 2) ltac:(lra)) as (u & v & Hu & Huv & Hv & Ha).
  assert (EX : forall s t, ex_RInt (peval c) s t) by (intros; apply peval_ex_RInt).
  assert (A : 0 <= RInt (peval c) (-1) u) by (apply RInt_ge_0; [lra|auto|intros; apply H1; lra]).
  assert (B : 0 < RInt (peval c) u v).
  { apply RInt_gt_0; [auto| |intros; apply peval_continuous]. intros x Hx. apply H2; [lra|]. intros Q. apply (Ha x Q). auto. }
  assert (D : 0 <= RInt (peval c) v 1) by (apply RInt_ge_0; [lra|auto|intros; apply H1; lra]).
  rewrite <- (RInt_Chasles (peval c) (-1) u 1), <- (RInt_Chasles (peval c) u v 1) by auto.
  change (0 < RInt (peval c) (-1) u + (RInt (peval c) u v + RInt (peval c) v 1)). lra.
Qed.
Theorem legendre_positive q : (1 <= length q)%nat -> exact1 (2 * length q - 1) q -> positive_inside q.
Proof.
  intros H X. apply (gauss_positive (fun f I => RInt f (-1) 1 = I)); [intros c l I; apply RInt_pos_poly|].
  intros c Hc. symmetry. apply X. lia.
Qed.
