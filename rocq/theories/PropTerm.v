(** C81: does integrate_adaptive stop?
    [integrate_adaptive gk gl m f ivs eps_abs eps_rel connection min_len max_num fuel]: AdaptModel.v; the outcome [StillRunning] for
    every fuel means that the loop never ends. *)
From Coq Require Import Reals List Arith ZArith Bool Lia Lra Sorted.
From Coquelicot Require Import Coquelicot.
From Verif Require Import Spec Spec1 RsumLemmas IntegralProofs PyBase AdaptModel AdaptProofs C1Tools C1Model C1Proofs GwSpec GwRc GwModel GwInt2 KronrodModel KronrodMain ConvSpec Weier ConvProofs AdaptTerm PropAdapt PropGw PropKronrod.
Import ListNotations.
Set Bullet Behavior "Strict Subproofs".
Open Scope R_scope.

(** The claim "stops for every continuous integrand and all positive tolerances" is true when only an absolute tolerance is
    given: for every number m of components, every interval, both ways to combine the criteria, all rules used by the code
    (kronrod_degree 1 to 12) and whatever the Gauss weights are; the error returned is below the tolerance. *)
Theorem C81_terminates_partial : forall eigh n s gl m f a b ea conn, eigen_solver eigh -> (1 <= n <= 12)%nat -> gauss_kronrod eigh legendre_rc n = Some s ->
  a <= b -> 0 < ea -> (forall j, (j < m)%nat -> continuous_on a b (fun x => f x j)) ->
  exists fuel v e, integrate_adaptive (c1_rule s) gl m f [(a, b)] (Some ea) None conn 0 None fuel = Returned v e /\ forall j, (j < m)%nat -> e j < ea.
Proof.
  intros eigh n s gl m f a b ea conn HE Hn E H He C. destruct (C69_legendre eigh n HE Hn) as (s' & E' & _ & X & W & _). rewrite E in E'. injection E' as <-.
  destruct (adaptive_terminates (c1_rule s) gl m f a b ea conn) as (fuel & v & e & R); auto.
  - eapply List.Forall_impl; [|exact W]. intros [w x]; cbn; lra.
  - eapply List.Forall_impl; [|exact W]. intros [w x]; cbn; lra.
  - intros c Hc. apply X. lia.
  - exists fuel, v, e. split; auto. intros j Hj. apply (C46_absolute _ _ _ _ _ _ _ _ _ _ _ _ j Hj R).
Qed.
Print Assumptions C81_terminates_partial.
(** It is false when a relative tolerance is given as well, as in the default call: an interval accepted while a spike makes the
    tentative total huge uses up more error than the final tolerances allow, and no interval is accepted after that. *)
Lemma one_point gl : length gl = 1%nat -> exact1 1 gl -> gl = gl1.
Proof.
  intros L X. destruct gl as [|[w x] [|? ?]]; try discriminate. assert (P0 := exact1_powers 1 _ 0 X ltac:(lia)). assert (P1 := exact1_powers 1 _ 1 X ltac:(lia)).
  unfold apply1, pow_int in *. cbn in P0, P1. assert (w = 2) by lra. subst. replace x with 0 by lra. reflexivity.
Qed.
Lemma kronrod_1 eigh s : eigen_solver eigh -> gauss_kronrod eigh legendre_rc 1 = Some s -> c1_rule s = gk1.
Proof.
  intros HE E. destruct (C69_legendre eigh 1 HE ltac:(lia)) as (s' & E' & L & X & W & N). rewrite E in E'. injection E' as <-. cbn in X.
  destruct (kronrod_exact eigh _ _ 1 s HE legendre_good E) as [_ [_ [_ [_ [So _]]]]].
  assert (X1 : exact1 (2 * 1 - 1) [(2, 0)]). { apply exact1_of_powers. intros k Hk. unfold apply1, pow_int. destruct k as [|[|k]]; [| |lia]; cbn; lra. }
  specialize (N [(2, 0)] eq_refl ltac:(repeat constructor) X1). destruct (c1_rule s) as [|[w1 x1] [|[w2 x2] [|[w3 x3] [|? ?]]]]; try discriminate.
  assert (x2 = 0). { unfold second_points in N. specialize (N 0%nat ltac:(cbn; lia)). cbn in N. auto. } subst x2.
  assert (Q := fun k Hk => exact1_powers 5 _ k X Hk). assert (Q0 := Q 0%nat ltac:(lia)). assert (Q1 := Q 1%nat ltac:(lia)). assert (Q2 := Q 2%nat ltac:(lia)). assert (Q3 := Q 3%nat ltac:(lia)). assert (Q4 := Q 4%nat ltac:(lia)). clear Q X N X1.
  unfold apply1, pow_int in *. cbn [map Rsum fst snd Nat.even pow INR] in *.
  inversion W as [|? ? [W1 _] W']. inversion W' as [|? ? [W2 _] W'']. inversion W'' as [|? ? [W3 _] _]. cbn [fst snd] in *. clear W W' W''. subst.
  inversion So as [|? ? So' Ho]. inversion So' as [|? ? So'' Ho']. inversion Ho. inversion Ho'. subst. clear So So' So'' Ho Ho'.
  assert (X3 : x3 <> 0). { intros ->. assert (w1 * x1 = 0) by lra. assert (x1 = 0) by (apply Rmult_eq_reg_l with w1; lra). subst. lra. }
  assert (E1 : w1 * x1 * ((x1 - x3) * (x1 + x3)) = 0). { assert (w1 * x1 = - (w3 * x3)) by lra. nra. }
  assert (x1 = - x3).
  { destruct (Req_dec (x1 + x3) 0); [lra|]. exfalso. assert (w1 * x1 = - (w3 * x3)) by lra. assert (w3 * x3 <> 0) by (apply Rmult_integral_contrapositive_currified; lra).
    assert ((x1 - x3) * (x1 + x3) = 0) by (apply Rmult_eq_reg_l with (w1 * x1); lra). assert (x1 - x3 = 0) by (apply Rmult_eq_reg_r with (x1 + x3); lra). lra. }
  subst x1. assert (w1 = w3) by (apply Rmult_eq_reg_r with x3; lra). subst w3.
  assert (M2 : w1 * (x3 * x3) = 1 / 3) by lra. assert (M4 : w1 * (x3 * x3) * (x3 * x3) = 1 / 5) by lra. rewrite M2 in M4. assert (S : x3 * x3 = 3 / 5) by lra. rewrite S in M2.
  assert (x3 = sqrt (3 / 5)) by (symmetry; apply sqrt_lem_1; lra). subst x3. unfold gk1. replace w1 with (5 / 9) by lra. replace w2 with (8 / 9) by lra. reflexivity.
Qed.
Lemma trap_continuous A d : 0 < d -> continuous_on 0 1 (trap_fun A d).
Proof.
  intros Hd x _ eps He. assert (KA := Rabs_pos A). exists (eps / (1 + Rabs A / d + 1)). assert (0 <= Rabs A / d) by (apply Rmult_le_pos; [auto|left; apply Rinv_0_lt_compat; auto]).
  split; [apply Rdiv_lt_0_compat; lra|]. intros y _ Hy. unfold trap_fun.
  assert (E1 : Rabs (Rmin (Rabs (y - 1 / 4)) (1 / 4) - Rmin (Rabs (x - 1 / 4)) (1 / 4)) <= Rabs (y - x)).
  { unfold Rmin. repeat destruct (Rle_dec _ _); unfold Rabs in *; repeat destruct (Rcase_abs _); lra. }
  assert (E2 : Rabs (spike d y - spike d x) <= Rabs (y - x) / d).
  { assert (T : Rabs (Rabs (y - 3 / 4) / d - Rabs (x - 3 / 4) / d) <= Rabs (y - x) / d).
    { unfold Rdiv. rewrite <- Rmult_minus_distr_r, Rabs_mult, (Rabs_right (/ d)) by (left; apply Rinv_0_lt_compat; auto). apply Rmult_le_compat_r; [left; apply Rinv_0_lt_compat; auto|]. eapply Rle_trans; [apply Rabs_triang_inv2|]. right. f_equal. ring. }
    unfold spike. set (u := Rabs (y - 3 / 4) / d) in *. set (v := Rabs (x - 3 / 4) / d) in *. unfold Rmax. repeat destruct (Rle_dec _ _); unfold Rabs in *; repeat destruct (Rcase_abs _); lra. }
  replace (_ - _) with ((Rmin (Rabs (y - 1 / 4)) (1 / 4) - Rmin (Rabs (x - 1 / 4)) (1 / 4)) + A * (spike d y - spike d x)) by ring. eapply Rle_lt_trans; [apply Rabs_triang|]. rewrite Rabs_mult.
  assert (Rabs A * Rabs (spike d y - spike d x) <= Rabs A / d * Rabs (y - x)). { eapply Rle_trans; [apply Rmult_le_compat_l; [auto|exact E2]|]. right. field. lra. }
  assert (P := Rabs_pos (y - x)). apply Rle_lt_trans with ((1 + Rabs A / d) * Rabs (y - x)); [lra|].
  apply Rle_lt_trans with ((1 + Rabs A / d + 1) * Rabs (y - x)); [apply Rmult_le_compat_r; lra|]. replace eps with ((1 + Rabs A / d + 1) * (eps / (1 + Rabs A / d + 1))) by (field; lra). apply Rmult_lt_compat_l; lra.
Qed.
(** For all tolerances below 1/100 there is a continuous function on [0, 1] for which the call with kronrod_degree=1 and the
    default criteria_connection neither returns nor raises, however long it runs; a limit on the number of subintervals (two or
    more) does not help, because the accepted intervals are all that is counted. *)
Theorem C81_terminates_refuted : forall ea er, 0 < ea < 1 / 100 -> 0 < er < 1 / 100 ->
  exists f, continuous_on 0 1 f /\
    forall eigh gk gl limit fuel, eigen_solver eigh -> gauss_kronrod eigh legendre_rc 1 = Some gk -> gauss_legendre eigh 1 = Some gl -> (match limit with Some l => (2 <= l)%nat | None => True end) ->
      integrate_adaptive (c1_rule gk) (c1_rule gl) 1 (fun x _ => f x) [(0, 1)] (Some ea) (Some er) Any 0 limit fuel = StillRunning.
Proof.
  intros ea er Ha Hr. exists (trap_fun (100 / er) (er / 800)). split; [apply trap_continuous; lra|]. intros eigh gk gl limit fuel HE EK EL HL.
  rewrite (kronrod_1 eigh gk HE EK). destruct (C33_gauss_legendre eigh 1 HE (le_n 1)) as (s & Es & _ & HL1 & _ & X). rewrite EL in Es. injection Es as <-. rewrite (one_point (c1_rule gl)) by auto.
  apply (trap ea er Ha Hr limit fuel HL).
Qed.
Print Assumptions C81_terminates_refuted.
(** ... while the same call with the absolute tolerance alone returns for that function. *)
Theorem C81_refuted_absolute_returns : forall ea er, 0 < ea < 1 / 100 -> 0 < er < 1 / 100 ->
  exists f, continuous_on 0 1 f /\ forall eigh gk gl, eigen_solver eigh -> gauss_kronrod eigh legendre_rc 1 = Some gk -> gauss_legendre eigh 1 = Some gl ->
    (forall fuel, integrate_adaptive (c1_rule gk) (c1_rule gl) 1 (fun x _ => f x) [(0, 1)] (Some ea) (Some er) Any 0 None fuel = StillRunning) /\
    exists fuel v e, integrate_adaptive (c1_rule gk) (c1_rule gl) 1 (fun x _ => f x) [(0, 1)] (Some ea) None Any 0 None fuel = Returned v e /\ e 0%nat < ea.
Proof.
  intros ea er Ha Hr. destruct (C81_terminates_refuted ea er Ha Hr) as (f & C & L). exists f. split; auto. intros eigh gk gl HE EK EL. split; [intros fuel; apply (L eigh); auto|].
  destruct (C81_terminates_partial eigh 1 gk (c1_rule gl) 1 (fun x _ => f x) 0 1 ea Any HE ltac:(lia) EK ltac:(lra) ltac:(lra)) as (fuel & v & e & R & B); [intros j _; exact C|]. exists fuel, v, e. split; auto.
Qed.
Print Assumptions C81_refuted_absolute_returns.
(** The hypotheses are met: there is a solver, the rules exist for it, and |x - 1/3| is an integrand. *)
Example C81_solver_case : exists eigh, eigen_solver eigh /\ (exists gk, gauss_kronrod eigh legendre_rc 1 = Some gk) /\ exists gl, gauss_legendre eigh 1 = Some gl.
Proof.
  destruct C33_solver_exists as (eigh & HE). exists eigh. split; auto. split; [destruct (C69_legendre eigh 1 HE ltac:(lia)) as (s & E & _)|destruct (C33_gauss_legendre eigh 1 HE (le_n 1)) as (s & E & _)]; exists s; exact E.
Qed.
Example C81_integrand_case : continuous_on (-1) 2 (fun x => Rabs (x - 1 / 3)).
Proof. intros x _ eps He. exists eps. split; auto. intros y _ Hy. eapply Rle_lt_trans; [apply Rabs_triang_inv2|]. replace (y - 1 / 3 - (x - 1 / 3)) with (y - x) by ring. auto. Qed.
