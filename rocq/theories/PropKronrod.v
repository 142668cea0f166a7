(** C69, C35, C45: Gauss-Kronrod rules and adaptive integration with them. *)
From Coq Require Import Reals List Arith ZArith Bool Lia Lra Sorted.
From Coquelicot Require Import Coquelicot.
From Verif Require Import Spec Spec1 RsumLemmas IntegralProofs AdaptModel AdaptProofs PyBase UnModel C1Tools Interp C1Model C1Proofs GwSpec GwProofs GwExist GwModel GwRc GwRadau GwJacobi WeightSpec GwInt GwInt2 GwBound QuadProofs KronrodModel KronrodAlg KronrodProofs KronrodMain KronrodRun PropAdapt PropGw.
Import ListNotations.
Set Bullet Behavior "Strict Subproofs".
Open Scope R_scope.

(* ------------------------------------------------------------------ C69 *)
Lemma odd_positions_nth (l : list R) : forall i, nth i (odd_positions l) 0 = nth (2 * i + 1) l 0.
Proof.
  assert (G : forall m l, (length l <= m)%nat -> forall i, nth i (odd_positions l) 0 = nth (2 * i + 1) l 0).
  { induction m as [|m IH]; intros [|x [|y l0]] Hl i; cbn [length] in Hl; try lia; cbn [odd_positions]; try (destruct i; cbn [nth Nat.add Nat.mul]; reflexivity).
    - replace (2 * i + 1)%nat with (S (2 * i)) by lia. destruct i; cbn [nth]; [auto|]. destruct (2 * S i)%nat eqn:E; [lia|]. reflexivity.
    - replace (2 * i + 1)%nat with (S (2 * i)) by lia. destruct i; cbn [nth]; [auto|]. replace (2 * S i)%nat with (S (2 * i + 1)) by lia. apply IH. lia. }
  intros i. apply (G (length l)). lia.
Qed.
(** The points of [gl] are every second point of [gk]. *)
Definition second_points (gk gl : rule1) : Prop := forall i, (i < length gl)%nat -> nth (2 * i + 1) (map snd gk) 0 = nth i (map snd gl) 0.
Lemma second_points_nested gk gl n : length gk = (2 * n + 1)%nat -> length gl = n -> second_points gk gl <-> nested gk gl.
Proof.
  intros Lk Ll. unfold nested, second_points. rewrite Ll. split.
  - intros H. assert (LO : forall m (l : list R), length l = (2 * m + 1)%nat -> length (odd_positions l) = m).
    { induction m as [|m IH]; intros [|x [|y l]] E; cbn in E; try lia; auto. cbn. f_equal. apply IH. lia. }
    apply (nth_ext _ _ 0 0); [rewrite (LO n) by (rewrite map_length; auto); rewrite map_length; auto|]. intros i Hi. rewrite (LO n) in Hi by (rewrite map_length; auto). rewrite odd_positions_nth. apply H. auto.
  - intros <- i Hi. symmetry. apply odd_positions_nth.
Qed.
(** For every weight function, given by its recurrence and its moments: whenever gauss_kronrod(n) returns a rule, it has 2n + 1
    points in ascending order, positive weights that add up to the integral of the weight function, it integrates every
    polynomial of degree 3n + 1 and every second point is a point of the Gauss rule. *)
Theorem C69_kronrod : forall eigh alpha beta mu n s, eigen_solver eigh -> (forall k, (0 < k)%nat -> 0 < beta k) -> 0 < mu 0%nat ->
  (forall k m, (m < k)%nat -> lmonic alpha beta mu k m = 0) -> gauss_kronrod eigh (mk_rc alpha beta (mu 0%nat)) n = Some s ->
  length (c1_rule s) = (2 * n + 1)%nat /\ exact1_mu (3 * n + 1) mu (c1_rule s) /\ List.Forall (fun wx => 0 < fst wx) (c1_rule s) /\ Sorted Rle (map snd (c1_rule s)) /\ Rsum (map fst (c1_rule s)) = mu 0%nat /\
  (forall gl, length gl = n -> Sorted Rle (map snd gl) -> exact1_mu (2 * n - 1) mu gl -> second_points (c1_rule s) gl).
Proof.
  intros eigh alpha beta mu n s HE Hb Hm HO E.
  assert (G : good_rc (mk_rc alpha beta (mu 0%nat)) mu) by (split; [exact Hb|]; split; [reflexivity|]; split; [exact Hm|]; intros m k j Hk; apply HO; lia).
  destruct (kronrod_exact eigh _ mu n s HE G E) as [L [_ [X [W [So N]]]]]. repeat split; auto.
  - rewrite <- (X 0%nat) by lia. unfold apply1. apply Rsum_map_ext. intros [w x] _. cbn. ring.
  - intros gl Lg Sg Xg. apply (second_points_nested _ _ n); auto.
Qed.
(** When all alpha vanish (symmetric weights) and n is odd: degree 3n + 2. *)
Theorem C69_symmetric : forall eigh beta mu h s, eigen_solver eigh -> (forall k, (0 < k)%nat -> 0 < beta k) -> 0 < mu 0%nat ->
  (forall k m, (m < k)%nat -> lmonic (fun _ => 0) beta mu k m = 0) -> gauss_kronrod eigh (mk_rc (fun _ => 0) beta (mu 0%nat)) (2 * h + 1) = Some s ->
  exact1_mu (3 * (2 * h + 1) + 2) mu (c1_rule s).
Proof.
  intros eigh beta mu h s HE Hb Hm HO E.
  assert (G : good_rc (mk_rc (fun _ => 0) beta (mu 0%nat)) mu) by (split; [exact Hb|]; split; [reflexivity|]; split; [exact Hm|]; intros m k j Hk; apply HO; lia).
  apply (kronrod_exact_odd eigh _ mu (2 * h + 1) h s HE G); auto.
Qed.
(** Jacobi weights, against the improper integral. *)
Theorem C69_jacobi : forall eigh a b int_1 n s, eigen_solver eigh -> -1 < a -> -1 < b -> jacobi_int a b (fun _ => 1) int_1 -> gauss_kronrod eigh (jacobi_rc a b int_1) n = Some s ->
  length (c1_rule s) = (2 * n + 1)%nat /\ List.Forall (fun wx => 0 < fst wx) (c1_rule s) /\ (forall c, (length c <= 3 * n + 2)%nat -> jacobi_int a b (peval c) (apply1 (c1_rule s) (peval c))) /\
  (forall g, gauss_jacobi eigh a b int_1 n = Some g -> second_points (c1_rule s) (c1_rule g)).
Proof.
  intros eigh a b I n s HE Ha Hb HI E. destruct (jacobi_good a b I Ha Hb HI) as [mu [G M]]. destruct (kronrod_exact eigh _ mu n s HE G E) as [L [_ [X [W [So N]]]]]. repeat split; auto.
  - intros c Hc. apply (gen_peval _ _ _ _ jD jDa jDb jDc (jw a b) mu (3 * n + 1) (c1_rule s) c M X). lia.
  - intros g Eg. destruct (kronrod_data _ _ _ _ _ G E) as [_ [_ [_ [_ [Hn _]]]]]. destruct (gauss_exact eigh _ mu n HE G Hn) as [g' [Eg' [_ [Lg [Xg [_ [Sg _]]]]]]]. unfold gauss_jacobi in Eg. rewrite Eg' in Eg. injection Eg as <-.
    apply (second_points_nested _ _ n); auto.
Qed.
(** The plain weight, for n = 1, ..., 12: the rule exists, its points lie strictly inside (-1, 1), its weights are positive; it is
    exact to degree 3n + 1, to 3n + 2 when n is odd, and contains the points of every n-point Gauss rule. *)
Theorem C69_legendre : forall eigh n, eigen_solver eigh -> (1 <= n <= 12)%nat ->
  exists s, gauss_kronrod eigh legendre_rc n = Some s /\ length (c1_rule s) = (2 * n + 1)%nat /\ exact1 (if Nat.even n then 3 * n + 1 else 3 * n + 2) (c1_rule s) /\
    List.Forall (fun wx => 0 < fst wx /\ -1 < snd wx < 1) (c1_rule s) /\
    (forall gl, length gl = n -> Sorted Rle (map snd gl) -> exact1 (2 * n - 1) gl -> second_points (c1_rule s) gl).
Proof.
  intros eigh n HE Hn. destruct (legendre_some eigh n HE Hn) as [s E]. exists s. split; auto. destruct (kronrod_exact eigh _ _ n s HE legendre_good E) as [L [_ [X [W [So N]]]]].
  destruct (legendre_run n Hn) as [a [b [ER [Hab [Hr _]]]]]. assert (I := kronrod_inside eigh _ _ n s a b HE legendre_good E ER (fun i Hi => proj1 (Hab i Hi)) Hr). repeat split; auto.
  - destruct (Nat.even n) eqn:Ev; apply exact1_of_powers; [exact X|]. apply (kronrod_exact_odd eigh legendre_rc pow_int n (n / 2)%nat s HE legendre_good); auto. rewrite <- Nat.negb_odd in Ev. apply negb_false_iff in Ev.
    apply Nat.odd_spec in Ev. destruct Ev as [q ->]. replace (2 * q + 1)%nat with (1 + q * 2)%nat at 2 by lia. rewrite Nat.div_add by lia. cbn. lia.
  - rewrite List.Forall_forall in *. intros wx Hx. split; auto.
  - intros gl Lg Sg Xg. apply (second_points_nested _ _ n); auto. apply N; auto. intros k Hk. apply (exact1_powers (2 * n - 1)); auto.
Qed.
Theorem C69_no_points : forall eigh rc, gauss_kronrod eigh rc 0 = None.
Proof. reflexivity. Qed.
(** The hypotheses can be met, and the rules differ from the Gauss rules. *)
Example C69_case : exists eigh s, eigen_solver eigh /\ gauss_kronrod eigh legendre_rc 10 = Some s /\ length (c1_rule s) = 21%nat /\ exact1 31 (c1_rule s) /\
  exists g, gauss_legendre eigh 10 = Some g /\ second_points (c1_rule s) (c1_rule g).
Proof.
  destruct C33_solver_exists as [eigh HE]. destruct (C69_legendre eigh 10 HE ltac:(lia)) as [s [E [L [X [_ N]]]]]. exists eigh, s. split; auto. split; auto. split; auto. split; [exact X|].
  destruct (gauss_exact eigh _ _ 10 HE legendre_good ltac:(lia)) as [g [Eg [_ [Lg [Xg [_ [Sg _]]]]]]]. exists g. split; auto. apply N; auto. apply exact1_of_powers. exact Xg.
Qed.

(* ------------------------------------------------------------------ C35 *)
(** gauss_kronrod(n) declares 2 ceil(3n/2) + 3, which the rule does not reach. *)
Theorem C35_kronrod_refuted : forall eigh n, eigen_solver eigh -> (1 <= n <= 12)%nat ->
  exists s d, gauss_kronrod eigh legendre_rc n = Some s /\ c1_degree s = Z.of_nat d /\ ~ exact1 d (c1_rule s).
Proof.
  intros eigh n HE Hn. destruct (legendre_some eigh n HE Hn) as [s E]. exists s, (2 * ((3 * n + 1) / 2) + 3)%nat. split; auto. destruct (kronrod_exact eigh _ _ n s HE legendre_good E) as [L [D _]]. split; [rewrite D; lia|].
  intros X. assert (XM : exact1_mu (2 * ((3 * n + 1) / 2 + 1)) pow_int (c1_rule s)) by (intros k Hk; apply (exact1_powers _ _ _ X); lia).
  destruct (Nat.eq_dec n 1) as [N1|N1].
  - subst n. destruct (too_many 0 0 (c1_rule s)) as [c [Lc Hc]]. apply Hc. rewrite L in Lc. apply (gen_peval _ _ _ _ jD jDa jDb jDc (jw 0 0) pow_int 6 (c1_rule s) c); [|exact XM|lia].
    intros k. eapply j_ext; [|apply pow_int_gen]. intros x Hx. cbn beta. unfold jw. rewrite jw_00 by auto. ring.
  - destruct (legendre_run n Hn) as [a [b [ER [_ [_ [H1|Hd]]]]]]; [lia|]. apply Hd. apply (kronrod_limit eigh legendre_rc pow_int n s a b HE legendre_good); auto. lia.
Qed.

(* ------------------------------------------------------------------ C45, C46 with the rules that the code uses *)
(** _gauss_kronrod_integrate uses gauss_kronrod(k) and gauss_legendre(k), k = 10.  Whatever routine computes the Gauss rule (sorted,
    n points, degree 2n - 1): results of integrate_adaptive are sums of Gauss values over intervals that tile [a, b]. *)
Theorem C45_kronrod : forall eigh n s gl m f ivs ea er conn ml mx fuel v e, eigen_solver eigh -> (1 <= n <= 12)%nat -> gauss_kronrod eigh legendre_rc n = Some s ->
  length gl = n -> Sorted Rle (map snd gl) -> exact1 (2 * n - 1) gl -> integrate_adaptive (c1_rule s) gl m f ivs ea er conn ml mx fuel = Returned v e ->
  exists a b l, ivs = [(a, b)] /\ tiling a b l /\ (forall j, v j = Rsum (map (c1_integrate gl (fun x => f x j)) l)) /\ (forall j, 0 <= e j).
Proof.
  intros eigh n s gl m f ivs ea er conn ml mx fuel v e HE Hn E Lg Sg Xg H. destruct (C69_legendre eigh n HE Hn) as [s' [E' [L [_ [W N]]]]]. rewrite E in E'. injection E' as <-.
  destruct (C45_tiling (c1_rule s) gl m f ivs ea er conn ml mx fuel v e) as [a [b [l [H1 [H2 [H3 H4]]]]]]; auto; [apply (second_points_nested _ _ n); auto|]. exists a, b, l. repeat split; auto.
  intros j. rewrite H4. apply Rsum_nonneg. intros x Hx. apply in_map_iff in Hx. destruct Hx as [iv [<- _]]. apply error_estimate_bounds. intros w Hw. apply in_map_iff in Hw. destruct Hw as [wx [<- Hin]]. rewrite List.Forall_forall in W. specialize (W wx Hin). lra.
Qed.
(** Polynomials of degree at most 2n - 1 are integrated at once, without subdivision, exactly, for every interval and every
    absolute tolerance above 1e-15. *)
Theorem C45_kronrod_polynomials : forall eigh n s gl m (c : nat -> list R) a b ea er ml mx fuel, eigen_solver eigh -> (1 <= n <= 12)%nat -> gauss_kronrod eigh legendre_rc n = Some s ->
  length gl = n -> Sorted Rle (map snd gl) -> exact1 (2 * n - 1) gl -> (forall j, (length (c j) <= 2 * n)%nat) -> a <= b -> 1 / 10 ^ 15 < ea ->
  exists v e, integrate_adaptive (c1_rule s) gl m (fun x j => peval (c j) x) [(a, b)] (Some ea) er Any ml mx (S fuel) = Returned v e /\
    forall j, v j = RInt (peval (c j)) a b /\ 0 <= e j <= 1 / 10 ^ 15.
Proof.
  intros eigh n s gl m c a b ea er ml mx fuel HE Hn E Lg Sg Xg Hc Hab Hea. destruct (C69_legendre eigh n HE Hn) as [s' [E' [L [X [W N]]]]]. rewrite E in E'. injection E' as <-.
  assert (HN : nested (c1_rule s) gl) by (apply (second_points_nested _ _ n); auto). set (f := fun x j => peval (c j) x).
  assert (WP : forall w, In w (map fst (c1_rule s)) -> 0 <= w) by (intros w Hw; apply in_map_iff in Hw; destruct Hw as [wx [<- Hin]]; rewrite List.Forall_forall in W; specialize (W wx Hin); lra).
  assert (VG : forall j, gl_val (c1_rule s) gl f (a, b) j = RInt (peval (c j)) a b).
  { intros j. rewrite gl_val_integrate by auto. unfold f. rewrite (c1_integrate_exact (2 * n - 1) gl (c j)) by (auto; specialize (Hc j); lia). cbn [fst snd]. rewrite Rmin_left, Rmax_right; auto. }
  assert (VK : forall j, gk_val (c1_rule s) f (a, b) j = RInt (peval (c j)) a b).
  { intros j. assert (EK : gk_val (c1_rule s) f (a, b) j = c1_integrate (c1_rule s) (peval (c j)) (a, b)).
    { unfold gk_val, c1_integrate, gk_fx, f, dot. rewrite Rmult_assoc, (Rmult_comm _ (interval_length (a, b))), <- Rmult_assoc. f_equal. f_equal. clear. induction (c1_rule s) as [|[w x] l IH]; cbn [map List.combine fst snd]; auto. f_equal; [ring|exact IH]. }
    rewrite EK. rewrite (c1_integrate_exact (if Nat.even n then 3 * n + 1 else 3 * n + 2) (c1_rule s) (c j)) by (auto; specialize (Hc j); destruct (Nat.even n); lia). cbn [fst snd]. rewrite Rmin_left, Rmax_right; auto. }
  assert (ER : forall j, 0 <= error_estimate (c1_rule s) gl f (a, b) j <= 1 / 10 ^ 15).
  { intros j. pose proof (error_estimate_bounds (c1_rule s) gl f (a, b) j WP) as B. pose proof (I_tilde_nonneg (c1_rule s) f (a, b) j WP) as I0. destruct (Rlt_or_le (1 / 10 ^ 15) (I_tilde (c1_rule s) f (a, b) j)) as [Hl|Hl].
    - rewrite error_estimate_zero by (auto; rewrite VG, VK; auto). lra.
    - lra. }
  assert (FG : first_good m (gl_val (c1_rule s) gl f) (error_estimate (c1_rule s) gl f) (Some ea) er Any (a, b) = true).
  { unfold first_good. cbn [opt_list map app connect existsb]. apply orb_true_iff. left. unfold all_components. apply forallb_forall. intros j _. apply Rltb_true. specialize (ER j). lra. }
  eexists. eexists. split.
  - unfold integrate_adaptive, adapt_main. cbn [forallb fst snd]. rewrite (proj2 (Rleb_true a b)) by auto. cbn [andb filter]. rewrite FG. cbn [negb adapt_loop length Nat.eqb]. reflexivity.
  - intros j. unfold sum_over. cbn [map Rsum]. rewrite VG. specialize (ER j). split; lra.
Qed.

Print Assumptions C69_kronrod.
Print Assumptions C69_symmetric.
Print Assumptions C69_jacobi.
Print Assumptions C69_legendre.
Print Assumptions C69_no_points.
Print Assumptions C35_kronrod_refuted.
Print Assumptions C45_kronrod.
Print Assumptions C45_kronrod_polynomials.
