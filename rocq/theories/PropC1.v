(** C29-C31, C35, C36: Newton-Cotes, Clenshaw-Curtis, Fejer and Chebyshev-Gauss rules, and Krylov's rule for the circle.
    All theorems are for every number of points; "exact" is against Riemann integrals of arbitrary polynomials. *)
From Coq Require Import Reals List Arith ZArith Lia Lra.
From Coquelicot Require Import Coquelicot.
From Verif Require Import Spec Spec1 RsumLemmas IntegralSpec SphereSpec RoundSpec C1Tools IntegralProofs PyBase UnModel C1Model C1Proofs C1Cheb Interp C1Nc C1Cc C1Cc2 C1Fej RoundModel RoundProofs.
Import ListNotations.
Set Bullet Behavior "Strict Subproofs".
Open Scope R_scope.

(** The constructor call [r] returns a scheme that declares degree [d] and integrates every polynomial of degree at most [d]
    exactly over [-1, 1]. *)
Definition builds_c1 (d : nat) (r : option c1_scheme) : Prop :=
  exists s, r = Some s /\ c1_degree s = Z.of_nat d /\ exact1 d (c1_rule s).
(** The constructor call returns a scheme that declares degree [claimed] and is exact to degree [d]. *)
Definition builds_c1_claiming (claimed d : nat) (r : option c1_scheme) : Prop :=
  exists s, r = Some s /\ c1_degree s = Z.of_nat claimed /\ exact1 d (c1_rule s).
(** The constructor call returns a scheme that declares degree [claimed] and misses some polynomial of that degree. *)
Definition overclaims_c1 (claimed : nat) (r : option c1_scheme) : Prop :=
  exists s, r = Some s /\ c1_degree s = Z.of_nat claimed /\ ~ exact1 claimed (c1_rule s).

(* ------------------------------------------------------------------ C29 *)
Theorem C29_newton_cotes_closed : forall n, (1 <= n)%nat -> builds_c1 (if Nat.even n then n + 1 else n) (newton_cotes_closed n).
Proof. intros n H. destruct (nc_closed_run n H) as [d [E ->]]. eexists. split; [exact E|]. split; [reflexivity|]. exact (nc_closed_exact n H). Qed.
Theorem C29_newton_cotes_open : forall n, (1 <= n)%nat -> builds_c1 (if Nat.odd n then n else n - 1) (newton_cotes_open n).
Proof.
  intros n H. eexists. split; [apply nc_open_run|]. cbn [c1_degree c1_rule]. replace (Nat.odd n) with (Nat.even (n + 1)) by (rewrite Nat.add_1_r; apply Nat.even_succ). split; [|exact (nc_open_exact n H)].
  destruct (Nat.even (n + 1)); auto. lia.
Qed.
(** The points are the n + 1 equidistant points -1 + 2k/n, with or without the ends. *)
Theorem C29_points : forall n, (1 <= n)%nat -> exists s t, newton_cotes_closed n = Some s /\ newton_cotes_open n = Some t /\
  map snd (c1_rule s) = map (fun k => -1 + INR k * (2 / INR n)) (seq 0 (n + 1)) /\
  map snd (c1_rule t) = map (fun k => -1 + INR k * (2 / INR (n + 1))) (seq 1 n).
Proof.
  intros n H. destruct (nc_closed_run n H) as [d [E _]]. eexists. eexists. split; [exact E|]. split; [apply nc_open_run|]. cbn [c1_rule]. unfold nc_rule. rewrite !map_map. auto.
Qed.
(** The index 0 is accepted by neither: division by zero, and a rule without points that declares degree -1. *)
Theorem C29_index_zero : newton_cotes_closed 0 = None /\ newton_cotes_open 0 = Some (mk_c1 (-1) []).
Proof.
  split; [|rewrite nc_open_run; reflexivity]. unfold newton_cotes_closed. cbn [Nat.add seq opt_list]. unfold rdiv. destruct (Req_EM_T (INR 0) 0) as [_|N]; [reflexivity|exfalso; apply N; reflexivity].
Qed.
Print Assumptions C29_newton_cotes_closed.
Print Assumptions C29_newton_cotes_open.
(** Simpson's rule is the case n = 2: exact to degree 3 *)
Example C29_ex : builds_c1 3 (newton_cotes_closed 2).
Proof. exact (C29_newton_cotes_closed 2 ltac:(lia)). Qed.
Example C29_ex2 : builds_c1 7 (newton_cotes_open 7).
Proof. exact (C29_newton_cotes_open 7 ltac:(lia)). Qed.

(* ------------------------------------------------------------------ C30 *)
Definition true_degree (n : nat) : nat := if Nat.odd n then n else n - 1.
Lemma trapezoid_exact : exact1 1 [(1, -1); (1, 1)].
Proof. apply exact1_of_powers. intros [|[|k]] H; [cbn; field|cbn; field|lia]. Qed.
Lemma cc_2_run : clenshaw_curtis 2 = Some (mk_c1 2 [(1, -1); (1, 1)]).
Proof.
  unfold clenshaw_curtis. rewrite (opt_list_map _ (fun k => - cos (PI * INR k / (INR 2 - 1)))) by (intros k _; rewrite rdiv_ok by (cbn; lra); reflexivity).
  cbn [bind Nat.eqb seq map]. unfold c1_scheme_of. cbn [List.combine]. do 2 f_equal. repeat f_equal.
  - cbn [INR]. rewrite Rmult_0_r. unfold Rdiv. rewrite Rmult_0_l, cos_0. auto.
  - cbn [INR]. replace (PI * 1 / (1 + 1 - 1)) with PI by field. rewrite cos_PI. ring.
Qed.
Theorem C30_clenshaw_curtis : forall n, (2 <= n)%nat -> builds_c1_claiming n (true_degree n) (clenshaw_curtis n).
Proof.
  intros n H. destruct (Nat.eq_dec n 2) as [-> | Hn]; [eexists; split; [apply cc_2_run|]; split; [reflexivity|exact trapezoid_exact]|].
  eexists. split; [apply cc_run; lia|]. split; [reflexivity|]. cbn [c1_rule]. assert (E := cc_exact (n - 1) ltac:(lia)). unfold true_degree.
  replace (Nat.odd n) with (Nat.even (n - 1)); [|replace n with (S (n - 1)) at 2 by lia; symmetry; apply Nat.odd_succ]. replace (n - 1 + 1)%nat with n in E by lia. exact E.
Qed.
Theorem C30_fejer_1 : forall n, (1 <= n)%nat -> builds_c1_claiming n (true_degree n) (fejer_1 n).
Proof. intros n H. eexists. split; [apply fejer1_run; auto|]. split; [reflexivity|]. apply fejer1_exact; auto. Qed.
Theorem C30_fejer_2 : forall n, (1 <= n)%nat -> builds_c1_claiming n (true_degree n) (fejer_2 n).
Proof. intros n H. eexists. split; [apply fejer2_run; auto|]. split; [reflexivity|]. apply fejer2_exact; auto. Qed.
(** Every polynomial of degree < n is integrated exactly. *)
Theorem C30_interpolatory : forall n, (2 <= n)%nat -> exists s1 s2 s3, clenshaw_curtis n = Some s1 /\ fejer_1 n = Some s2 /\ fejer_2 n = Some s3 /\
  exact1 (n - 1) (c1_rule s1) /\ exact1 (n - 1) (c1_rule s2) /\ exact1 (n - 1) (c1_rule s3).
Proof.
  intros n H. destruct (C30_clenshaw_curtis n H) as [s1 [E1 [_ X1]]], (C30_fejer_1 n ltac:(lia)) as [s2 [E2 [_ X2]]], (C30_fejer_2 n ltac:(lia)) as [s3 [E3 [_ X3]]]. exists s1, s2, s3.
  assert (W : forall q, exact1 (true_degree n) q -> exact1 (n - 1) q) by (intros q X c Hc; apply X; unfold true_degree; destruct (Nat.odd n); lia). auto 10.
Qed.
(** The points are minus the cosines of equidistant angles. *)
Theorem C30_points : forall n, (3 <= n)%nat -> exists s1 s2 s3, clenshaw_curtis n = Some s1 /\ fejer_1 n = Some s2 /\ fejer_2 n = Some s3 /\
  map snd (c1_rule s1) = map (fun k => - cos (PI * INR k / INR (n - 1))) (seq 0 n) /\
  map snd (c1_rule s2) = map (fun k => - cos (PI * (INR k + 0.5) / INR n)) (seq 0 n) /\
  map snd (c1_rule s3) = map (fun k => - cos (PI * INR k / INR (n + 1))) (seq 1 n).
Proof.
  intros n H. eexists. eexists. eexists. split; [apply cc_run; lia|]. split; [apply fejer1_run; lia|]. split; [apply fejer2_run; lia|]. cbn [c1_rule]. unfold cc_q, fejer1_q, fejer2_q. rewrite !map_map. cbn [snd].
  replace (n - 1 + 1)%nat with n by lia. auto.
Qed.
(** For an even number of points the declared degree n is one too many. *)
Theorem C30_declared_degree_refuted : forall n, (2 <= n)%nat -> Nat.even n = true ->
  overclaims_c1 n (clenshaw_curtis n) /\ overclaims_c1 n (fejer_1 n) /\ overclaims_c1 n (fejer_2 n).
Proof.
  intros n H He. split; [|split].
  - destruct (Nat.eq_dec n 2) as [-> | Hn].
    + eexists. split; [apply cc_2_run|]. split; [reflexivity|]. intros X. specialize (X [0; 0; 1] ltac:(cbn; lia)). rewrite (is_RInt_unique _ _ _ _ (is_RInt_peval [0; 0; 1] (-1) 1)) in X. cbn in X. lra.
    + eexists. split; [apply cc_run; lia|]. split; [reflexivity|]. cbn [c1_rule]. replace n with (n - 1 + 1)%nat at 1 by lia. apply cc_not_exact; [lia|]. replace n with (S (n - 1)) in He by lia. rewrite Nat.even_succ in He. auto.
  - eexists. split; [apply fejer1_run; lia|]. split; [reflexivity|]. apply fejer1_not_exact; auto.
  - eexists. split; [apply fejer2_run; lia|]. split; [reflexivity|]. apply fejer2_not_exact; auto.
Qed.
Theorem C30_too_few_points : clenshaw_curtis 0 = None /\ clenshaw_curtis 1 = None /\ fejer_1 0 = None /\ fejer_2 0 = None.
Proof.
  split; [reflexivity|]. split; [|split].
  - unfold clenshaw_curtis. cbn [seq opt_list]. unfold rdiv. destruct (Req_EM_T (INR 1 - 1) 0) as [_|N]; [reflexivity|exfalso; apply N; cbn; ring].
  - unfold fejer_1. cbn. reflexivity.
  - unfold fejer_2. cbn. reflexivity.
Qed.
Print Assumptions C30_interpolatory.
Print Assumptions C30_declared_degree_refuted.
Example C30_ex : builds_c1_claiming 5 5 (clenshaw_curtis 5) /\ builds_c1_claiming 6 5 (clenshaw_curtis 6).
Proof. split; [exact (C30_clenshaw_curtis 5 ltac:(lia))|exact (C30_clenshaw_curtis 6 ltac:(lia))]. Qed.

(* ------------------------------------------------------------------ C31 *)
(** n points are exact to degree 2n - 1, as improper integrals over ]-1, 1[ for the singular weight. *)
Theorem C31_chebyshev_gauss_1 : forall n, (1 <= n)%nat -> exists s, chebyshev_gauss_1 n = Some s /\ (c1_degree s <= 2 * Z.of_nat n - 1)%Z /\
  forall c, (length c <= 2 * n)%nat ->
    is_RInt_gen (fun x => peval c x / sqrt (1 - x * x)) (at_right (-1)) (at_left 1) (apply1 (c1_rule s) (peval c)).
Proof.
  intros n H. eexists. split; [apply cg1_run; auto|]. cbn [c1_degree c1_rule]. split.
  - unfold cg_degree. destruct (Nat.odd n) eqn:E; [lia|]. assert (n <> 1)%nat by (intros ->; discriminate). lia.
  - intros c Hc. rewrite cg1_exact by auto. apply cheb1_integral.
Qed.
Theorem C31_chebyshev_gauss_2 : forall n, (1 <= n)%nat -> exists s, chebyshev_gauss_2 n = Some s /\ (c1_degree s <= 2 * Z.of_nat n - 1)%Z /\
  forall c, (length c <= 2 * n)%nat ->
    is_RInt (fun x => peval c x * sqrt (1 - x * x)) (-1) 1 (apply1 (c1_rule s) (peval c)).
Proof.
  intros n H. eexists. split; [apply cg2_run|]. cbn [c1_degree c1_rule]. split.
  - unfold cg_degree. destruct (Nat.odd n) eqn:E; [lia|]. assert (n <> 1)%nat by (intros ->; discriminate). lia.
  - intros c Hc. rewrite cg2_exact by auto. apply cheb2_integral.
Qed.
Theorem C31_declared : forall n, (1 <= n)%nat -> exists s1 s2, chebyshev_gauss_1 n = Some s1 /\ chebyshev_gauss_2 n = Some s2 /\
  c1_degree s1 = Z.of_nat (if Nat.odd n then n else n + 1) /\ c1_degree s2 = c1_degree s1.
Proof. intros n H. eexists. eexists. split; [apply cg1_run; auto|]. split; [apply cg2_run|]. cbn [c1_degree]. unfold cg_degree. destruct (Nat.odd n); auto. Qed.
Theorem C31_no_points : chebyshev_gauss_1 0 = None.
Proof. unfold chebyshev_gauss_1. cbn [seq opt_list bind]. unfold rdiv. destruct (Req_EM_T (INR 0) 0) as [_|N]; [reflexivity|exfalso; apply N; reflexivity]. Qed.
Print Assumptions C31_chebyshev_gauss_1.
Print Assumptions C31_chebyshev_gauss_2.
(** the weight itself: with one point the two rules give pi and pi / 2 *)
Example C31_ex : is_RInt_gen (fun x => peval [1] x / sqrt (1 - x * x)) (at_right (-1)) (at_left 1) PI /\ is_RInt (fun x => peval [1] x * sqrt (1 - x * x)) (-1) 1 (PI / 2).
Proof.
  split.
  - destruct (C31_chebyshev_gauss_1 1 ltac:(lia)) as [s [E [_ H]]]. specialize (H [1] ltac:(cbn; lia)). rewrite cg1_run in E by lia. injection E as <-. cbn [c1_rule seq map] in H.
    replace (apply1 _ (peval [1])) with PI in H; auto. unfold apply1. cbn. field.
  - destruct (C31_chebyshev_gauss_2 1 ltac:(lia)) as [s [E [_ H]]]. specialize (H [1] ltac:(cbn; lia)). rewrite cg2_run in E. injection E as <-. cbn [c1_rule seq map] in H.
    replace (apply1 _ (peval [1])) with (PI / 2) in H; auto. unfold apply1, cg2_angle. cbn. replace (PI * 1 / (1 + 1)) with (PI / 2) by field. rewrite sin_PI2. field.
Qed.

(* ------------------------------------------------------------------ C35 *)
(** No over-claim for the constructors below, for every argument they accept ... *)
Theorem C35_newton_cotes : forall n s, newton_cotes_closed n = Some s \/ newton_cotes_open (S n) = Some s -> (0 <= c1_degree s)%Z /\ exact1 (Z.to_nat (c1_degree s)) (c1_rule s).
Proof.
  intros n s [E|E].
  - destruct n as [|n]; [rewrite (proj1 C29_index_zero) in E; discriminate|]. destruct (C29_newton_cotes_closed (S n) ltac:(lia)) as [t [Et [D X]]]. rewrite Et in E. injection E as ->. rewrite D. split; [lia|]. rewrite Nat2Z.id. auto.
  - destruct (C29_newton_cotes_open (S n) ltac:(lia)) as [t [Et [D X]]]. rewrite Et in E. injection E as ->. rewrite D. split; [lia|]. rewrite Nat2Z.id. auto.
Qed.
Theorem C35_odd_fejer_clenshaw_curtis : forall n s, Nat.odd n = true -> clenshaw_curtis n = Some s \/ fejer_1 n = Some s \/ fejer_2 n = Some s ->
  c1_degree s = Z.of_nat n /\ exact1 n (c1_rule s).
Proof.
  intros n s Ho H. assert (T : true_degree n = n) by (unfold true_degree; rewrite Ho; auto). assert (N1 : (1 <= n)%nat) by (destruct n; [discriminate|lia]).
  destruct H as [E|[E|E]].
  - destruct (Nat.eq_dec n 1) as [-> | Hn]; [rewrite (proj1 (proj2 C30_too_few_points)) in E; discriminate|]. destruct (C30_clenshaw_curtis n ltac:(lia)) as [t [Et [D X]]]. rewrite Et in E. injection E as ->. rewrite T in X. auto.
  - destruct (C30_fejer_1 n N1) as [t [Et [D X]]]. rewrite Et in E. injection E as ->. rewrite T in X. auto.
  - destruct (C30_fejer_2 n N1) as [t [Et [D X]]]. rewrite Et in E. injection E as ->. rewrite T in X. auto.
Qed.

(* ------------------------------------------------------------------ C36 *)
(** Krylov's rule with n points integrates every polynomial of degree at most n - 1 over every circle; it declares degree n - 1. *)
Theorem C36_krylov : forall n, (1 <= n)%nat -> exists s, krylov n = Some s /\ u2_degree s = (Z.of_nat n - 1)%Z /\
  forall p a b r, mp_ok 2 (n - 1) p -> u2_integrate (u2_rule s) (mpeval p) [a; b] r = circle_int_at a b r (mpeval p).
Proof. intros n H. eexists. split; [apply krylov_run; auto|]. split; [reflexivity|]. intros p a b r Hp. apply krylov_circle; auto. Qed.
(** The same on the unit circle for every trigonometric polynomial of degree < n, and the degree cannot be improved: cos(n t) is missed. *)
Theorem C36_trigonometric : forall n a b, (1 <= n)%nat -> forall j, (j < n)%nat -> forall f, (forall t, f [cos t; sin t] = a * cos (INR j * t) + b * sin (INR j * t)) ->
  apply (krylov_rule n) f = RInt (fun t => f [cos t; sin t]) 0 (2 * PI) / (2 * PI).
Proof.
  intros n a b H j Hj f E. apply (krylov_trig_exact n [(j, (a, b))]); auto. intros t. rewrite E. unfold TrigPoly.trigval. cbn. ring.
Qed.
Theorem C36_sharp : forall n, (1 <= n)%nat -> forall f, (forall t, f [cos t; sin t] = cos (INR n * t)) ->
  apply (krylov_rule n) f = 1 /\ RInt (fun t => f [cos t; sin t]) 0 (2 * PI) = 0.
Proof. exact krylov_sharp. Qed.
Theorem C36_no_points : krylov 0 = None.
Proof. unfold krylov, rdiv. destruct (Req_EM_T (INR 0) 0) as [_|N]; [reflexivity|exfalso; apply N; reflexivity]. Qed.
Print Assumptions C36_krylov.
Example C36_ex : exists s, krylov 3 = Some s /\ u2_integrate (u2_rule s) (mpeval [(1, [2; 0]%nat); (1, [0; 2]%nat)]) [0; 0] 1 = 2 * PI.
Proof.
  destruct (C36_krylov 3 ltac:(lia)) as [s [E [_ H]]]. exists s. split; auto. rewrite H by (repeat constructor; cbn; lia). unfold circle_int_at. rewrite (RInt_ext _ (fun _ => 1)).
  - rewrite RInt_const. unfold scal. cbn. unfold mult. cbn. ring.
  - intros t _. unfold mpeval. cbn. assert (Q := sin2_cos2 t). unfold Rsqr in Q. nra.
Qed.
