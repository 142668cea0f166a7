(** C80: error bounds and convergence for integrands that are not polynomials.
    ConvSpec.v: [continuous_on a b f], [converges_to r l] (for all large n the call r n returns a number, and these numbers tend
    to l), [weight_sum q] (sum of the |w_i|), [points_within q] (points in [-1, 1]), [positive_inside q] (weights > 0, points in
    ]-1, 1[).  Spec1.v: [exact1 d q] (exact on [-1, 1] for all polynomials of degree at most d), [tiling a b l].
    [c1_integrate q f (a, b)] models scheme.integrate(f, [a, b]). *)
From Coq Require Import Reals List Arith ZArith Lia Lra.
From Coquelicot Require Import Coquelicot.
From Verif Require Import Spec Spec1 RsumLemmas AdaptModel PyBase UnModel C1Tools TrigPoly Interp C1Model C1Proofs C1Cc C1Cc2 C1Fej GwSpec GwModel GwInt GwBound WeightSpec LegSpec
  RoundModel RoundSpec ConvSpec Weier ConvProofs ConvFam ConvModel PropC1 PropGw PropS2S3.
Import ListNotations.
Set Bullet Behavior "Strict Subproofs".
Open Scope R_scope.

(** *** One call *)
(** If a polynomial of degree at most d is within e of the integrand, a scheme of degree d is within (b-a)/2 (2 + sum |w_i|) e. *)
Theorem C80_error_bound : forall d q a b f c e, exact1 d q -> points_within q -> a <= b -> ex_RInt f a b -> (length c <= S d)%nat ->
  (forall x, a <= x <= b -> Rabs (f x - peval c x) <= e) ->
  Rabs (c1_integrate q f (a, b) - RInt f a b) <= (b - a) / 2 * (2 + weight_sum q) * e.
Proof. intros d q a b f c e X P H E L A. apply (integrate_error d q a b f (peval c) e X P H E); auto. exists c. auto. Qed.
Print Assumptions C80_error_bound.
(** *** Refining the intervals *)
(** Every scheme of degree at least 0 with points in [-1, 1]: the sum over the intervals of a tiling of [a, b] tends to the
    integral of every continuous function as the longest interval shrinks ... *)
Theorem C80_composite : forall q a b f, exact1 0 q -> points_within q -> continuous_on a b f -> forall eps, 0 < eps -> exists h, 0 < h /\
  forall l, tiling a b l -> (forall iv, In iv l -> snd iv - fst iv < h) -> Rabs (Rsum (map (c1_integrate q f) l) - RInt f a b) < eps.
Proof. exact composite_converges. Qed.
Print Assumptions C80_composite.
(** ... and for a scheme of degree d and an integrand with d + 1 derivatives the error is of order h^(d+1). *)
Theorem C80_composite_order : forall d q a b f M h l, exact1 d q -> points_within q -> 0 <= M ->
  (forall x, a <= x <= b -> forall k, (k <= S d)%nat -> ex_derive_n f k x) -> (forall x, a <= x <= b -> Rabs (Derive_n f (S d) x) <= M) ->
  tiling a b l -> (forall iv, In iv l -> snd iv - fst iv <= h) ->
  Rabs (Rsum (map (c1_integrate q f) l) - RInt f a b) <= (b - a) / 2 * (2 + weight_sum q) * (M / INR (fact (S d))) * h ^ S d.
Proof. exact composite_order. Qed.
Print Assumptions C80_composite_order.

(** *** Positivity *)
(** Every rule with n points and degree 2n - 1 has positive weights and points inside the interval ... *)
Theorem C80_gauss_positive : forall q, (1 <= length q)%nat -> exact1 (2 * length q - 1) q -> positive_inside q.
Proof. exact legendre_positive. Qed.
Print Assumptions C80_gauss_positive.
(** ... so has gauss_legendre in both modes, and Gauss-Jacobi; Gauss-Radau and Gauss-Lobatto keep their points in [-1, 1]. *)
Theorem C80_legendre_positive : forall eigh leggauss n, eigen_solver eigh -> leggauss_ok leggauss -> (1 <= n)%nat ->
  exists s t, gauss_legendre eigh n = Some s /\ gauss_legendre_numpy leggauss n = Some t /\ positive_inside (c1_rule s) /\ positive_inside (c1_rule t) /\
    length (c1_rule t) = n /\ exact1 (2 * n - 1) (c1_rule t) /\ c1_degree t = (2 * Z.of_nat n - 1)%Z.
Proof.
  intros eigh leggauss n HE HL Hn. destruct (C33_gauss_legendre eigh n HE Hn) as (s & E & _ & L & _ & X). destruct (HL n Hn) as (L1 & L2 & X').
  unfold gauss_legendre_numpy. destruct (leggauss n) as [p w] eqn:En. cbn [fst snd] in *. replace (n <? 1)%nat with false by (symmetry; apply Nat.ltb_ge; auto).
  exists s. eexists. split; [exact E|]. split; [reflexivity|]. cbn [c1_rule c1_degree].
  assert (Lq : length (List.combine w p) = n) by (rewrite combine_length; lia).
  split; [apply legendre_positive; rewrite L; auto|]. split; [apply legendre_positive; rewrite Lq; auto|]. auto.
Qed.
Print Assumptions C80_legendre_positive.
Theorem C80_jacobi_points : forall eigh solve a b int_1 n, eigen_solver eigh -> banded_solver solve -> -1 < a -> -1 < b -> jacobi_int a b (fun _ => 1) int_1 -> (2 <= n)%nat ->
  exists g r l, gauss_jacobi eigh a b int_1 n = Some g /\ gauss_radau eigh solve (jacobi_rc a b int_1) n = Some r /\ gauss_lobatto eigh solve (jacobi_rc a b int_1) n = Some l /\
    positive_inside (c1_rule g) /\ List.Forall (fun wx => -1 <= snd wx < 1) (c1_rule r) /\ points_within (c1_rule l).
Proof.
  intros eigh solve a b I n HE HB Ha Hb HI Hn.
  destruct (C33_gauss_jacobi eigh a b I n HE Ha Hb HI ltac:(lia)) as (g & Eg & _ & Lg & _ & Xg).
  destruct (C34_radau_jacobi eigh solve a b I n HE HB Ha Hb HI Hn) as (r & Er & Lr & Ir & _ & Xr).
  destruct (C34_lobatto_jacobi eigh solve a b I n HE HB Ha Hb HI Hn) as (l & El & _ & Ll & Il & Il' & _ & Xl).
  exists g, r, l. split; [auto|]. split; [auto|]. split; [auto|]. split; [|split].
  - apply (gauss_positive (jacobi_int a b)); [intros c q J; apply jacobi_pos_poly|]. rewrite Lg. exact Xg.
  - apply (radau_within a b); auto. rewrite Lr. exact Xr.
  - apply (lobatto_within a b); auto. rewrite Ll. exact Xl.
Qed.
Print Assumptions C80_jacobi_points.
(** Clenshaw-Curtis and Fejer weights are not negative. *)
Theorem C80_clenshaw_curtis_weights : forall n, (3 <= n)%nat -> exists s1 s2 s3, clenshaw_curtis n = Some s1 /\ fejer_1 n = Some s2 /\ fejer_2 n = Some s3 /\
  List.Forall (fun s => List.Forall (fun wx => 0 <= fst wx) (c1_rule s) /\ points_within (c1_rule s)) [s1; s2; s3].
Proof.
  intros n H. eexists. eexists. eexists. split; [apply cc_run; lia|]. split; [apply fejer1_run; lia|]. split; [apply fejer2_run; lia|]. cbn [c1_rule].
  repeat constructor; cbn [c1_rule]; try apply cos_within; [apply cc_nonneg; lia|apply fejer1_nonneg; lia|apply fejer2_nonneg; lia].
Qed.
Print Assumptions C80_clenshaw_curtis_weights.

(** *** More points *)
Theorem C80_gauss_legendre : forall eigh a b f, eigen_solver eigh -> a <= b -> continuous_on a b f ->
  converges_to (fun n => option_map (fun s => c1_integrate (c1_rule s) f (a, b)) (gauss_legendre eigh n)) (RInt f a b).
Proof.
  intros eigh a b f HE H C. destruct (C33_solver_exists) as (_ & _). destruct C57_leggauss_exists as (lg & HL).
  assert (K := degree_converges (fun n => option_map c1_rule (gauss_legendre eigh n)) (fun n => (2 * n - 1)%nat) a b f H C).
  intros eps He. destruct (K) with (eps := eps) as (N & HN); auto.
  - intros m. exists (S m). intros n Hn. split; [lia|]. destruct (C80_legendre_positive eigh lg n HE HL ltac:(lia)) as (s & _ & E & _ & P & _). destruct (C33_gauss_legendre eigh n HE ltac:(lia)) as (s' & E' & _ & _ & _ & X).
    rewrite E in *. injection E' as <-. exists (c1_rule s). destruct (positive_within _ P). auto.
  - exists N. intros n Hn. destruct (HN n Hn) as (v & Ev & Bv). exists v. split; auto. destruct (gauss_legendre eigh n); auto.
Qed.
Print Assumptions C80_gauss_legendre.
Theorem C80_gauss_legendre_numpy : forall leggauss a b f, leggauss_ok leggauss -> a <= b -> continuous_on a b f ->
  converges_to (fun n => option_map (fun s => c1_integrate (c1_rule s) f (a, b)) (gauss_legendre_numpy leggauss n)) (RInt f a b).
Proof.
  intros leggauss a b f HL H C. destruct (C33_solver_exists) as (eigh & HE).
  assert (K := degree_converges (fun n => option_map c1_rule (gauss_legendre_numpy leggauss n)) (fun n => (2 * n - 1)%nat) a b f H C).
  intros eps He. destruct (K) with (eps := eps) as (N & HN); auto.
  - intros m. exists (S m). intros n Hn. split; [lia|]. destruct (C80_legendre_positive eigh leggauss n HE HL ltac:(lia)) as (_ & t & _ & E & _ & P & _ & X & _).
    rewrite E. exists (c1_rule t). destruct (positive_within _ P). auto.
  - exists N. intros n Hn. destruct (HN n Hn) as (v & Ev & Bv). exists v. split; auto. destruct (gauss_legendre_numpy leggauss n); auto.
Qed.
Print Assumptions C80_gauss_legendre_numpy.
Theorem C80_clenshaw_curtis : forall a b f, a <= b -> continuous_on a b f -> List.Forall (fun rule_of : nat -> option c1_scheme =>
  converges_to (fun n => option_map (fun s => c1_integrate (c1_rule s) f (a, b)) (rule_of n)) (RInt f a b)) [clenshaw_curtis; fejer_1; fejer_2].
Proof.
  intros a b f H C.
  assert (G : forall fam : nat -> option c1_scheme, (forall n, (3 <= n)%nat -> exists s, fam n = Some s /\ exact1 (n - 1) (c1_rule s) /\ points_within (c1_rule s) /\ List.Forall (fun wx => 0 <= fst wx) (c1_rule s)) ->
    converges_to (fun n => option_map (fun s => c1_integrate (c1_rule s) f (a, b)) (fam n)) (RInt f a b)).
  { intros fam F. assert (K := degree_converges (fun n => option_map c1_rule (fam n)) (fun n => (n - 1)%nat) a b f H C).
    intros eps He. destruct (K) with (eps := eps) as (N & HN); auto.
    - intros m. exists (m + 3)%nat. intros n Hn. split; [lia|]. destruct (F n ltac:(lia)) as (s & E & X & P & W). exists (c1_rule s). rewrite E. auto.
    - exists N. intros n Hn. destruct (HN n Hn) as (v & Ev & Bv). exists v. split; auto. destruct (fam n); auto. }
  repeat constructor; apply G; intros n Hn; destruct (C30_interpolatory n ltac:(lia)) as (s1 & s2 & s3 & E1 & E2 & E3 & X1 & X2 & X3);
    destruct (C80_clenshaw_curtis_weights n Hn) as (t1 & t2 & t3 & F1 & F2 & F3 & W); rewrite E1 in F1; rewrite E2 in F2; rewrite E3 in F3; injection F1 as <-; injection F2 as <-; injection F3 as <-;
    inversion W as [|? ? W1 V1]; inversion V1 as [|? ? W2 V2]; inversion V2 as [|? ? W3 V3]; subst;
    [exists s1|exists s2|exists s3]; intuition.
Qed.
Print Assumptions C80_clenshaw_curtis.
(** Weighted integrals over ]-1, 1[: whenever the integral of f with the weight exists. *)
Theorem C80_gauss_jacobi : forall eigh solve a b int_1 f I, eigen_solver eigh -> banded_solver solve -> -1 < a -> -1 < b -> jacobi_int a b (fun _ => 1) int_1 ->
  continuous_on (-1) 1 f -> jacobi_int a b f I -> List.Forall (fun rule_of : nat -> option c1_scheme =>
  converges_to (fun n => option_map (fun s => c1_integrate (c1_rule s) f (-1, 1)) (rule_of n)) I)
  [gauss_jacobi eigh a b int_1; gauss_radau eigh solve (jacobi_rc a b int_1); gauss_lobatto eigh solve (jacobi_rc a b int_1)].
Proof.
  intros eigh solve a b I1 f I HE HB Ha Hb HI C HF.
  assert (G : forall fam : nat -> option c1_scheme, (forall n, (2 <= n)%nat -> exists s, fam n = Some s /\ (forall c, (length c <= 2 * n - 2)%nat -> jacobi_int a b (peval c) (apply1 (c1_rule s) (peval c))) /\ points_within (c1_rule s) /\ List.Forall (fun wx => 0 <= fst wx) (c1_rule s)) ->
    converges_to (fun n => option_map (fun s => c1_integrate (c1_rule s) f (-1, 1)) (fam n)) I).
  { intros fam F. assert (K := weighted_converges (jacobi_int a b) (jacobi_bound a b) (fun n => option_map c1_rule (fam n)) (fun n => (2 * n - 2)%nat) f I I1 C HF HI).
    intros eps He. destruct (K) with (eps := eps) as (N & HN); auto.
    - intros m. exists (m + 3)%nat. intros n Hn. split; [lia|]. destruct (F n ltac:(lia)) as (s & E & X & P & W). exists (c1_rule s). rewrite E. auto.
    - exists N. intros n Hn. destruct (HN n Hn) as (v & Ev & Bv). exists v. split; auto. destruct (fam n); auto. }
  repeat constructor; apply G; intros n Hn;
    destruct (C33_gauss_jacobi eigh a b I1 n HE Ha Hb HI ltac:(lia)) as (g & Eg & _ & Lg & Wg & Xg);
    destruct (C34_radau_jacobi eigh solve a b I1 n HE HB Ha Hb HI Hn) as (r & Er & Lr & Ir & Wr & Xr);
    destruct (C34_lobatto_jacobi eigh solve a b I1 n HE HB Ha Hb HI Hn) as (l & El & _ & Ll & Il & Il' & Wl & Xl);
    destruct (C80_jacobi_points eigh solve a b I1 n HE HB Ha Hb HI Hn) as (g' & r' & l' & Eg' & Er' & El' & Pg & Pr & Pl);
    rewrite Eg in Eg'; rewrite Er in Er'; rewrite El in El'; injection Eg' as <-; injection Er' as <-; injection El' as <-.
  - exists g. split; auto. split; [intros c Hc; apply Xg; lia|]. apply positive_within in Pg. tauto.
  - exists r. split; auto. split; [intros c Hc; apply Xr; lia|]. split; auto. eapply List.Forall_impl; [|exact Pr]. cbn. intros; lra.
  - exists l. split; auto.
Qed.
Print Assumptions C80_gauss_jacobi.
Theorem C80_chebyshev_gauss_1 : forall f I, continuous_on (-1) 1 f -> is_RInt_gen (fun x => f x / sqrt (1 - x * x)) (at_right (-1)) (at_left 1) I ->
  converges_to (fun n => option_map (fun s => c1_integrate (c1_rule s) f (-1, 1)) (chebyshev_gauss_1 n)) I.
Proof.
  intros f I C HF.
  assert (H1 : cheb1_int (fun _ => 1) PI). { unfold cheb1_int. eapply j_ext; [|exact (proj1 C31_ex)]. intros x _. cbn. unfold Rdiv. ring. }
  assert (K := weighted_converges cheb1_int cheb1_bound (fun n => option_map c1_rule (chebyshev_gauss_1 n)) (fun n => (2 * n)%nat) f I PI C HF H1).
  intros eps He. destruct (K) with (eps := eps) as (N & HN); auto.
  - intros m. exists (m + 1)%nat. intros n Hn. split; [lia|]. destruct (C31_chebyshev_gauss_1 n ltac:(lia)) as (s & E & _ & X). assert (E' := cg1_run n ltac:(lia)). rewrite E in *. injection E' as ->.
    eexists. split; [reflexivity|]. split; [exact X|]. cbn [c1_rule]. assert (0 < INR n) by (apply lt_0_INR; lia). assert (Q := PI_RGT_0).
    split; apply List.Forall_forall; intros wx Hw; apply in_map_iff in Hw; destruct Hw as (k & <- & _); cbn [fst snd]; [apply COS_bound|]. left. apply Rdiv_lt_0_compat; lra.
  - exists N. intros n Hn. destruct (HN n Hn) as (v & Ev & Bv). exists v. split; auto. destruct (chebyshev_gauss_1 n); auto.
Qed.
Print Assumptions C80_chebyshev_gauss_1.
Theorem C80_chebyshev_gauss_2 : forall f I, continuous_on (-1) 1 f -> is_RInt (fun x => f x * sqrt (1 - x * x)) (-1) 1 I ->
  converges_to (fun n => option_map (fun s => c1_integrate (c1_rule s) f (-1, 1)) (chebyshev_gauss_2 n)) I.
Proof.
  intros f I C HF.
  assert (H1 : cheb2_int (fun _ => 1) (PI / 2)). { unfold cheb2_int. eapply is_RInt_ext; [|exact (proj2 C31_ex)]. intros x _. cbn. ring. }
  assert (K := weighted_converges cheb2_int cheb2_bound (fun n => option_map c1_rule (chebyshev_gauss_2 n)) (fun n => (2 * n)%nat) f I (PI / 2) C HF H1).
  intros eps He. destruct (K) with (eps := eps) as (N & HN); auto.
  - intros m. exists (m + 1)%nat. intros n Hn. split; [lia|]. destruct (C31_chebyshev_gauss_2 n ltac:(lia)) as (s & E & _ & X). assert (E' := cg2_run n). rewrite E in *. injection E' as ->.
    eexists. split; [reflexivity|]. split; [exact X|]. cbn [c1_rule]. assert (0 <= INR n) by apply pos_INR. assert (Q := PI_RGT_0).
    split; apply List.Forall_forall; intros wx Hw; apply in_map_iff in Hw; destruct Hw as (k & <- & _); cbn [fst snd]; [apply COS_bound|]. apply Rmult_le_pos; [left; apply Rdiv_lt_0_compat; lra|apply pow2_ge_0].
  - exists N. intros n Hn. destruct (HN n Hn) as (v & Ev & Bv). exists v. split; auto. destruct (chebyshev_gauss_2 n); auto.
Qed.
Print Assumptions C80_chebyshev_gauss_2.
(** Krylov's rule on every circle, for every integrand that is continuous along the circle. *)
Theorem C80_krylov : forall f a b r, continuous_on 0 (2 * PI) (fun t => f [a + r * cos t; b + r * sin t]) ->
  converges_to (fun n => option_map (fun s => u2_integrate (u2_rule s) f [a; b] r) (krylov n)) (circle_int_at a b r f).
Proof. exact krylov_converges. Qed.
Print Assumptions C80_krylov.

(** The hypotheses can be met: |x - 1/3| is continuous and not a polynomial; the midpoint rule has degree 0 and its points in
    [-1, 1]; eigenvalue solvers and Gauss rules exist (C33_solver_exists, C34_banded_solver_exists, C57_leggauss_exists). *)
Example C80_continuous_case : forall a b, continuous_on a b (fun x => Rabs (x - 1 / 3)).
Proof.
  intros a b x _ eps He. exists eps. split; auto. intros y _ Hy. eapply Rle_lt_trans; [apply Rabs_triang_inv2|]. replace (y - 1 / 3 - (x - 1 / 3)) with (y - x) by ring. auto.
Qed.
Example C80_composite_case : exact1 0 [(2, -1)] /\ points_within [(2, -1)] /\ tiling 0 2 [(1, 2); (0, 1)].
Proof.
  split; [exact left_rule_exact|]. split; [repeat constructor; cbn; lra|]. exists [(0, 1); (1, 2)]. split; [apply Permutation.perm_swap|cbn; lra].
Qed.
Example C80_legendre_case : exists eigh, converges_to (fun n => option_map (fun s => c1_integrate (c1_rule s) (fun x => Rabs (x - 1 / 3)) (-1, 1)) (gauss_legendre eigh n)) (RInt (fun x => Rabs (x - 1 / 3)) (-1) 1).
Proof. destruct C33_solver_exists as (eigh & HE). exists eigh. apply C80_gauss_legendre; auto; [lra|apply C80_continuous_case]. Qed.
Example C80_order_case : forall x, Rabs (Derive_n exp 2 x) = exp x.
Proof. intros x. cbn [Derive_n]. rewrite (Derive_ext (Derive exp) exp) by (intros t; apply is_derive_unique, is_derive_exp). rewrite (is_derive_unique _ _ _ (is_derive_exp x)). apply Rabs_right. left. apply exp_pos. Qed.
