(** C11, C12, C25-C28: regular simplices, half-integer gamma values, and the schemes for the sphere, the ball and R^n with the
    weights exp(-|x|), exp(-|x|^2).  Every scheme theorem is for all dimensions n in the stated range.  "Exact" is
    against the polar-coordinate integrals of SphereSpec.v and the iterated integral of IntegralSpec.v, for every monomial
    of total degree at most the declared degree. *)
From Coq Require Import Reals List Arith Lia Lra.
From Coquelicot Require Import Coquelicot.
From Verif Require Import Spec RsumLemmas IntegralSpec SphereSpec MiscSpec PyBase MiscModel CnModel UnModel SnModel EnrModel MsModel
  SphereInt RadialInt RadialTools UnProofs NsimplexProofs RadialDob RadialTrig SnProofs SnDob RadialMs EnrProofs Enr2Proofs Enr2Proofs2 GaussInt Enr2Proofs3.
Import ListNotations.
Set Bullet Behavior "Strict Subproofs".
Open Scope R_scope.

(** The constructor call [r] returns a scheme in dimension n that declares degree d and whose rule reproduces the mean
    [M] of every monomial of total degree at most d. *)
Definition builds_scheme (M : nat -> (point -> R) -> R) (n d : nat) (r : option scheme) : Prop :=
  exists s, r = Some s /\ s_dim s = n /\ s_degree s = d /\
    List.Forall (fun wp => length (snd wp) = n) (s_rule s) /\
    forall k, length k = n -> (tdeg k <= d)%nat -> apply (s_rule s) (mono k) = M n (mono k).
Definition builds_sphere_scheme := builds_scheme sphere_mean.
Definition builds_ball_scheme := builds_scheme ball_mean.
Definition builds_enr_scheme := builds_scheme enr_mean.
Definition builds_enr2_scheme := builds_scheme enr2_mean.

(* ------------------------------------------------------------------ C11 *)
Lemma inner_dot x : forall y, inner x y = dot x y.
Proof. unfold inner. induction x as [|a x IH]; intros [|b y]; auto. cbn [List.combine map Rsum dot fst snd]. rewrite IH. auto. Qed.
Lemma dot_sym x : forall y, dot x y = dot y x.
Proof. induction x as [|a x IH]; intros [|b y]; auto. cbn. rewrite IH. ring. Qed.
Lemma dot_scale c x : forall y, dot (vscale c x) (vscale c y) = c * c * dot x y.
Proof. unfold vscale. induction x as [|a x IH]; intros [|b y]; cbn; try ring. rewrite IH. ring. Qed.
Lemma nsx_regular n : (1 <= n)%nat -> regular_simplex n 1 (nsx_pts n).
Proof.
  intros Hn. assert (P : INR n <> 0) by (apply not_0_INR; lia). split; [apply nsx_pts_len|]. split; [apply nsx_pts_dim|]. split; [|split].
  - intros i Hi. rewrite inner_dot, nsx_pts_nth by auto. unfold nsx_point. rewrite nsx_row_dot, Nat.eqb_refl by lia. auto.
  - intros i j Hi Hj Hij. rewrite inner_dot, !nsx_pts_nth by auto. unfold nsx_point. transitivity (- / INR n); [|field; auto].
    destruct (Nat.le_gt_cases i j).
    + rewrite nsx_row_dot by lia. destruct (Nat.eqb_spec i j); [lia|auto].
    + rewrite dot_sym, nsx_row_dot by lia. destruct (Nat.eqb_spec j i); [lia|auto].
  - intros a Ha. rewrite pts_as_points, map_map. transitivity (nS1 n a); [|apply nS1_zero; auto]. apply Rsum_map_ext. intros r _. apply (coord_nsx n r a Ha).
Qed.
Lemma scaled_regular n c ps : (1 <= n)%nat -> regular_simplex n 1 ps -> regular_simplex n (c * c) (map (vscale c) ps).
Proof.
  intros Hn [L [D [E1 [E2 E3]]]]. assert (P : INR n <> 0) by (apply not_0_INR; lia).
  assert (N : forall i, (i <= n)%nat -> nth i (map (vscale c) ps) [] = vscale c (nth i ps [])).
  { intros i Hi. rewrite (nth_indep _ [] (vscale c [])) by (rewrite map_length; lia). apply map_nth. }
  split; [rewrite map_length; auto|]. split; [|split; [|split]].
  - apply Forall_forall. intros p Hp. apply in_map_iff in Hp. destruct Hp as [q [<- Hq]]. unfold vscale. rewrite map_length. rewrite Forall_forall in D. auto.
  - intros i Hi. rewrite N, inner_dot, dot_scale, <- inner_dot, E1 by auto. ring.
  - intros i j Hi Hj Hij. rewrite !N, inner_dot, dot_scale, <- inner_dot, E2 by auto. field. auto.
  - intros a Ha. rewrite map_map. rewrite (Rsum_map_ext _ (fun p => c * nth a p 0)).
    + rewrite Rsum_map_scal, E3 by auto. ring.
    + intros p _. apply (coord_scale c p a).
Qed.
Theorem C11_nsimplex_points : forall n, (1 <= n)%nat -> exists ps, get_nsimplex_points n = Some ps /\ regular_simplex n 1 ps.
Proof. intros n Hn. exists (nsx_pts n). split; [apply nsimplex_run|apply nsx_regular; auto]. Qed.
Print Assumptions C11_nsimplex_points.
(** The Stroud-Secrest variant is sqrt(n) times the points of get_nsimplex_points. *)
Theorem C11_stroud_secrest_nsimplex : forall n, (1 <= n)%nat -> exists ps,
  get_nsimplex_points n = Some ps /\ enr2_nsimplex n = Some (map (map (Rmult (sqrt (INR n)))) ps) /\
  regular_simplex n (INR n) (map (map (Rmult (sqrt (INR n)))) ps).
Proof.
  intros n Hn. exists (nsx_pts n). split; [apply nsimplex_run|]. split; [apply enr2_nsimplex_run; auto|].
  rewrite <- (sqrt_sqrt (INR n)) at 1 by apply pos_INR. apply scaled_regular; auto. apply nsx_regular; auto.
Qed.
Print Assumptions C11_stroud_secrest_nsimplex.
Example C11_ex : exists ps, get_nsimplex_points 3 = Some ps /\ inner (nth 0 ps []) (nth 2 ps []) = - (1) / 3.
Proof.
  destruct (C11_nsimplex_points 3 ltac:(lia)) as [ps [E [_ [_ [_ [H _]]]]]]. exists ps. split; auto. rewrite H by lia. simpl INR. f_equal. lra.
Qed.

(* ------------------------------------------------------------------ C12 *)
Lemma binom_gt : forall n k, (n < k)%nat -> binom n k = 0%nat.
Proof. induction n as [|n IH]; intros [|k] H; cbn; try lia. rewrite !IH by lia. auto. Qed.
Lemma binom_diag n : binom n n = 1%nat.
Proof. induction n as [|n IH]; cbn; auto. rewrite IH, binom_gt by lia. auto. Qed.
Lemma binom_fact : forall n k, (k <= n)%nat -> (binom n k * (fact k * fact (n - k)) = fact n)%nat.
Proof.
  induction n as [|n IH]; intros k H. { replace k with 0%nat by lia. reflexivity. }
  destruct k as [|k]; [cbn [binom]; rewrite Nat.sub_0_r; cbn [fact]; lia|]. cbn [binom]. replace (S n - S k)%nat with (n - k)%nat by lia.
  destruct (Nat.eq_dec k n) as [-> | Hk].
  - rewrite binom_diag, binom_gt by lia. rewrite Nat.sub_diag. cbn [fact]. lia.
  - assert (E1 := IH k ltac:(lia)). assert (E2 := IH (S k) ltac:(lia)). rewrite (fact_simpl n), (fact_simpl k) in *.
    replace (n - k)%nat with (S (n - S k)) in * by lia. rewrite (fact_simpl (n - S k)) in *.
    set (b1 := binom n k) in *. set (b2 := binom n (S k)) in *. set (f := fact k) in *. set (g := fact (n - S k)) in *.
    replace (S n * fact n)%nat with (S k * fact n + S (n - S k) * fact n)%nat by nia.
    rewrite <- E1 at 1. rewrite <- E2. nia.
Qed.
Theorem C12_comb : forall n k, comb n k = binom n k.
Proof.
  intros n k. unfold comb. destruct (Nat.leb_spec k n) as [H|H]; [|rewrite binom_gt; auto].
  assert (Pk := lt_O_fact k). assert (Pn := lt_O_fact (n - k)).
  rewrite Nat.div_div by lia. rewrite <- (binom_fact n k H). apply Nat.div_mul. nia.
Qed.
Theorem C12_prod : prod_list [] = 1 /\ forall a l, prod_list (a :: l) = a * prod_list l.
Proof.
  split; auto. intros a l. unfold prod_list. cbn [fold_left]. rewrite Rmult_1_l. rewrite <- (Rmult_1_r a) at 1. generalize 1. revert a.
  induction l as [|b l IH]; intros a c; cbn [fold_left]; auto. rewrite Rmult_assoc. apply IH.
Qed.
Theorem C12_gamma : gamma_n_2 1 = Some (sqrt PI) /\ gamma_n_2 2 = Some 1 /\
  (forall n g, gamma_n_2 n = Some g -> gamma_n_2 (n + 2) = Some (INR n / 2 * g)) /\ gamma_n_2 0 = None.
Proof. repeat split. - apply gamma_1. - apply gamma_step. Qed.
(** Gamma(n/2) = int_0^oo t^(n/2-1) exp(-t) dt = 2 int_0^oo r^(n-1) exp(-r^2) dr *)
Theorem C12_gamma_integral : forall n, (1 <= n)%nat -> exists g, gamma_n_2 n = Some g /\ 0 < g /\
  is_RInt_gen (fun r => 2 * (r ^ (n - 1) * exp (- (r * r)))) (at_point 0) (Rbar_locally p_infty) g.
Proof.
  intros n Hn. destruct n as [|n]; [lia|]. destruct (gamma_moment n) as [g [E [P H]]]. exists g. split; auto. split; auto.
  replace (S n - 1)%nat with n by lia. apply imp_gen. replace g with (2 * (g / 2)) by field. apply imp_scal. auto.
Qed.
Print Assumptions C12_gamma_integral.
Example C12_ex : comb 7 3 = 35%nat /\ comb 3 7 = 0%nat /\ prod_list [2; 3; 7] = 42.
Proof. repeat split. unfold prod_list. cbn. ring. Qed.

(* ------------------------------------------------------------------ C25 *)
Theorem C25_stroud_un_3_1 : forall n, (1 <= n)%nat -> builds_sphere_scheme n 3 (stroud_un_3_1 n).
Proof. exact stroud_un_3_1_exact. Qed.
Theorem C25_stroud_un_3_2 : forall n, (1 <= n)%nat -> builds_sphere_scheme n 3 (stroud_un_3_2 n).
Proof. exact stroud_un_3_2_exact. Qed.
Theorem C25_stroud_un_5_1 : forall n, (2 <= n)%nat -> builds_sphere_scheme n 5 (stroud_un_5_1 n).
Proof. exact stroud_un_5_1_exact. Qed.
Theorem C25_stroud_un_5_2 : forall n, (1 <= n)%nat -> builds_sphere_scheme n 5 (stroud_un_5_2 n).
Proof. exact stroud_un_5_2_exact. Qed.
Theorem C25_stroud_un_5_3 : forall n, (1 <= n)%nat -> builds_sphere_scheme n 5 (stroud_un_5_3 n).
Proof. exact stroud_un_5_3_exact. Qed.
Theorem C25_stroud_un_5_4 : forall n, (1 <= n)%nat -> builds_sphere_scheme n 5 (stroud_un_5_4 n).
Proof. exact stroud_un_5_4_exact. Qed.
Theorem C25_stroud_1967 : forall n, (2 <= n)%nat -> builds_sphere_scheme n 7 (stroud_1967 n).
Proof. exact stroud_1967_exact. Qed.
Theorem C25_stroud_un_7_2 : forall n, (1 <= n)%nat -> builds_sphere_scheme n 7 (stroud_un_7_2 n).
Proof. exact stroud_un_7_2_exact. Qed.
Theorem C25_mysovskikh_1 : forall n, (1 <= n)%nat -> builds_sphere_scheme n 2 (mysovskikh_1 n).
Proof. exact mysovskikh_1_exact. Qed.
Theorem C25_mysovskikh_2 : forall n, (2 <= n)%nat -> builds_sphere_scheme n 5 (mysovskikh_2 n).
Proof. exact mysovskikh_2_exact. Qed.
(** dobrodeev_1978: the configuration table of the code has an entry for every n from 2 to 20 *)
Theorem C55_sphere_dobrodeev_1978 : forall n, (2 <= n <= 20)%nat -> builds_sphere_scheme n 5 (un_dobrodeev_1978 n).
Proof. exact un_dobrodeev_1978_exact. Qed.
Print Assumptions C55_sphere_dobrodeev_1978.
Example C25_ex : exists s, mysovskikh_2 4 = Some s /\ apply (s_rule s) (mono [2; 0; 0; 2]%nat) = sphere_mean 4 (mono [2; 0; 0; 2]%nat).
Proof. destruct (C25_mysovskikh_2 4 ltac:(lia)) as [s [E [_ [_ [_ H]]]]]. exists s. split; [exact E|apply H; cbn; lia]. Qed.
(** The reference mean has the expected value: the mean of x1^2 x4^2 over the unit sphere of R^4 is 1/24. *)
Example C25_ref : sphere_mean 4 (mono [2; 0; 0; 2]%nat) = 1 / 24.
Proof. change (sphereI 4 [2; 0; 0; 2]%nat = 1 / 24). rewrite sphereI_val by (cbn; lia). unfold rmoment, h_sphere. cbn. field. Qed.

(* ------------------------------------------------------------------ C26 *)
Theorem C26_stroud_sn_3_1 : forall n, (1 <= n)%nat -> builds_ball_scheme n 3 (sn_hammer_stroud_11n n 0).
Proof. exact stroud_sn_3_1_exact. Qed.
Theorem C26_stroud_sn_5_2 : forall n, (2 <= n)%nat -> builds_ball_scheme n 5 (sn_hammer_stroud_12n n 0).
Proof. exact stroud_sn_5_2_exact. Qed.
Theorem C26_stroud_sn_3_2 : forall n, (1 <= n)%nat -> builds_ball_scheme n 3 (stroud_sn_3_2 n).
Proof. exact stroud_sn_3_2_exact. Qed.
Theorem C26_stroud_1957 : forall n, (1 <= n)%nat -> builds_ball_scheme n 2 (sn_stroud_1957 n).
Proof. exact sn_stroud_1957_exact. Qed.
Theorem C26_stroud_1966_a : forall n, (2 <= n)%nat -> builds_ball_scheme n 5 (sn_stroud_1966_a n).
Proof. exact sn_stroud_1966_a_exact. Qed.
Theorem C26_stroud_1966_b : forall n, (1 <= n)%nat -> builds_ball_scheme n 5 (sn_stroud_1966_b n).
Proof. exact sn_stroud_1966_b_exact. Qed.
Theorem C26_stroud_1966_c : forall n, (1 <= n)%nat -> builds_ball_scheme n 5 (sn_stroud_1966_c n).
Proof. exact sn_stroud_1966_c_exact. Qed.
Theorem C26_stroud_1966_d : forall n, (1 <= n)%nat -> builds_ball_scheme n 5 (sn_stroud_1966_d n).
Proof. exact sn_stroud_1966_d_exact. Qed.
Theorem C26_stroud_1967_7_a : forall n, (3 <= n <= 7)%nat -> builds_ball_scheme n 7 (sn_stroud_1967_7_a n).
Proof. intros n H. exact (sn_stroud_1967_7_ab_exact n true H). Qed.
Theorem C26_stroud_1967_7_b : forall n, (3 <= n <= 6)%nat -> builds_ball_scheme n 7 (sn_stroud_1967_7_b n).
Proof. intros n H. exact (sn_stroud_1967_7_ab_exact n false H). Qed.
Theorem C26_stroud_1967_7_c : forall n, (3 <= n)%nat -> builds_ball_scheme n 7 (sn_stroud_1967_7_c n).
Proof. exact sn_stroud_1967_7_c_exact. Qed.
Theorem C26_dobrodeev_1970 : forall n, (3 <= n)%nat -> builds_ball_scheme n 7 (sn_dobrodeev_1970 n).
Proof. exact sn_dobrodeev_1970_exact. Qed.
Theorem C55_ball_dobrodeev_1978 : forall n, (2 <= n <= 20)%nat -> builds_ball_scheme n 5 (sn_dobrodeev_1978 n).
Proof. exact sn_dobrodeev_1978_exact. Qed.
Theorem C54_ball_mcnamee_stenger_3 : forall n, (1 <= n)%nat -> builds_ball_scheme n 3 (sn_mcnamee_stenger_3 n).
Proof. exact sn_ms3. Qed.
Theorem C54_ball_mcnamee_stenger_5 : forall n, (2 <= n)%nat -> builds_ball_scheme n 5 (sn_mcnamee_stenger_5 n).
Proof. exact sn_ms5. Qed.
Theorem C54_ball_mcnamee_stenger_7 : forall n, (3 <= n)%nat -> builds_ball_scheme n 7 (sn_mcnamee_stenger_7a n) /\ builds_ball_scheme n 7 (sn_mcnamee_stenger_7b n).
Proof. intros n H. split; [exact (sn_ms7 n false H)|exact (sn_ms7 n true H)]. Qed.
Theorem C54_ball_mcnamee_stenger_9 : forall n, (4 <= n)%nat -> builds_ball_scheme n 9 (sn_mcnamee_stenger_9a n) /\ builds_ball_scheme n 9 (sn_mcnamee_stenger_9b n).
Proof. intros n H. split; [exact (sn_ms9 n false H)|exact (sn_ms9 n true H)]. Qed.
Print Assumptions C54_ball_mcnamee_stenger_9.
Example C26_ex : exists s, sn_stroud_1967_7_c 5 = Some s /\ apply (s_rule s) (mono [2; 0; 4; 0; 0]%nat) = ball_mean 5 (mono [2; 0; 4; 0; 0]%nat).
Proof. destruct (C26_stroud_1967_7_c 5 ltac:(lia)) as [s [E [_ [_ [_ H]]]]]. exists s. split; [exact E|apply H; cbn; lia]. Qed.

(* ------------------------------------------------------------------ C27 *)
Theorem C27_stroud_secrest_1 : forall n, (1 <= n)%nat -> builds_enr_scheme n 2 (enr_stroud_secrest_1 n).
Proof. exact enr_stroud_secrest_1_exact. Qed.
Theorem C27_stroud_secrest_2 : forall n, (1 <= n)%nat -> builds_enr_scheme n 3 (enr_stroud_secrest_2 n).
Proof. exact enr_stroud_secrest_2_exact. Qed.
Theorem C27_stroud_secrest_3 : forall n, (1 <= n)%nat -> builds_enr_scheme n 3 (enr_stroud_secrest_3 n).
Proof. exact enr_stroud_secrest_3_exact. Qed.
Theorem C27_stroud_secrest_4 : forall n, (2 <= n)%nat -> builds_enr_scheme n 5 (enr_stroud_secrest_4 n).
Proof. exact enr_stroud_secrest_4_exact. Qed.
Theorem C27_stroud_enr_5_3 : forall n, (1 <= n)%nat -> builds_enr_scheme n 5 (stroud_enr_5_3 n).
Proof. exact stroud_enr_5_3_exact. Qed.
Theorem C27_stroud_enr_5_4 : forall n, (1 <= n)%nat -> builds_enr_scheme n 5 (stroud_enr_5_4 n).
Proof. exact stroud_enr_5_4_exact. Qed.
Theorem C54_enr_mcnamee_stenger_3 : forall n, (1 <= n)%nat -> builds_enr_scheme n 3 (enr_mcnamee_stenger_3 n).
Proof. exact enr_ms3. Qed.
Theorem C54_enr_mcnamee_stenger_5 : forall n, (2 <= n)%nat -> builds_enr_scheme n 5 (enr_mcnamee_stenger_5 n).
Proof. exact enr_ms5. Qed.
Theorem C54_enr_mcnamee_stenger_7 : forall n, (3 <= n)%nat -> builds_enr_scheme n 7 (enr_mcnamee_stenger_7a n) /\ builds_enr_scheme n 7 (enr_mcnamee_stenger_7b n).
Proof. intros n H. split; [exact (enr_ms7 n false H)|exact (enr_ms7 n true H)]. Qed.
(** mcnamee_stenger_9a and 9b declare degree 9 but, in every dimension n >= 4, do not even integrate x1^2 x2^2 exactly. *)
Theorem C54_enr_mcnamee_stenger_9_refuted : forall n, (4 <= n)%nat -> forall r, r = enr_mcnamee_stenger_9a n \/ r = enr_mcnamee_stenger_9b n ->
  exists s, r = Some s /\ s_dim s = n /\ s_degree s = 9%nat /\
    apply (s_rule s) (mono (2 :: 2 :: repeat 0 (n - 2))%nat) <> enr_mean n (mono (2 :: 2 :: repeat 0 (n - 2))%nat).
Proof. intros n H r [-> | ->]; [exact (enr_ms9_bad n false H)|exact (enr_ms9_bad n true H)]. Qed.
Print Assumptions C54_enr_mcnamee_stenger_9_refuted.
Example C27_ex : exists s, stroud_enr_5_3 3 = Some s /\ apply (s_rule s) (mono [2; 0; 2]%nat) = enr_mean 3 (mono [2; 0; 2]%nat).
Proof. destruct (C27_stroud_enr_5_3 3 ltac:(lia)) as [s [E [_ [_ [_ H]]]]]. exists s. split; [exact E|apply H; cbn; lia]. Qed.

(* ------------------------------------------------------------------ C28 *)
Theorem C28_stroud_secrest_1 : forall n, (1 <= n)%nat -> builds_enr2_scheme n 2 (enr2_stroud_secrest_1 n).
Proof. exact enr2_stroud_secrest_1_exact. Qed.
Theorem C28_stroud_secrest_2 : forall n, (1 <= n)%nat -> builds_enr2_scheme n 3 (enr2_stroud_secrest_2 n).
Proof. exact enr2_stroud_secrest_2_exact. Qed.
Theorem C28_stroud_secrest_3 : forall n, (1 <= n)%nat -> builds_enr2_scheme n 3 (enr2_stroud_secrest_3 n).
Proof. exact enr2_stroud_secrest_3_exact. Qed.
Theorem C28_stroud_secrest_4 : forall n, (2 <= n)%nat -> builds_enr2_scheme n 5 (enr2_stroud_secrest_4 n).
Proof. exact enr2_stroud_secrest_4_exact. Qed.
Theorem C28_phillips : forall n, (2 <= n)%nat -> builds_enr2_scheme n 5 (enr2_phillips n).
Proof. exact enr2_phillips_exact. Qed.
Theorem C28_xiu : forall n, (1 <= n)%nat -> builds_enr2_scheme n 2 (enr2_xiu n).
Proof. exact enr2_xiu_exact. Qed.
Theorem C28_lu_darmofal_1 : forall n, (2 <= n)%nat -> builds_enr2_scheme n 5 (enr2_lu_darmofal_1 n).
Proof. exact enr2_lu_darmofal_1_exact. Qed.
Theorem C28_stroud_enr2_5_3 : forall n, (3 <= n)%nat -> builds_enr2_scheme n 5 (stroud_enr2_5_3 n).
Proof. exact stroud_enr2_5_3_exact. Qed.
Theorem C28_stroud_enr2_5_4 : forall n, (1 <= n)%nat -> builds_enr2_scheme n 5 (stroud_enr2_5_4 n).
Proof. exact stroud_enr2_5_4_exact. Qed.
Theorem C28_stroud_enr2_5_5a : forall n, (1 <= n)%nat -> builds_enr2_scheme n 5 (stroud_enr2_5_5a n).
Proof. exact stroud_enr2_5_5a_exact. Qed.
Theorem C28_stroud_enr2_5_5b : forall n, (1 <= n <= 2)%nat -> builds_enr2_scheme n 5 (stroud_enr2_5_5b n).
Proof. exact stroud_enr2_5_5b_exact. Qed.
(** from n = 3 on, stroud_enr2_5_5b takes the square root of a negative number *)
Theorem C28_stroud_enr2_5_5b_raises : forall n, (3 <= n)%nat -> stroud_enr2_5_5b n = None.
Proof. exact stroud_enr2_5_5b_raises. Qed.
Theorem C28_stroud_enr2_5_6 : forall n, (5 <= n)%nat -> builds_enr2_scheme n 5 (stroud_enr2_5_6 n).
Proof. exact stroud_enr2_5_6_exact. Qed.
Theorem C28_stroud_1967_7_2a : forall n, In n [2; 3; 4; 6; 7]%nat -> builds_enr2_scheme n 7 (enr2_stroud_1967_7_2a n).
Proof. intros n H. exact (enr2_stroud_1967_7_2_exact n true H). Qed.
Theorem C28_stroud_1967_7_2b : forall n, In n [3; 4]%nat -> builds_enr2_scheme n 7 (enr2_stroud_1967_7_2b n).
Proof. intros n H. exact (enr2_stroud_1967_7_2_exact n false H). Qed.
Theorem C28_stroud_1967_7_4 : forall n, (3 <= n)%nat -> builds_enr2_scheme n 7 (enr2_stroud_1967_7_4 n).
Proof. exact enr2_stroud_1967_7_4_exact. Qed.
Print Assumptions C28_stroud_1967_7_4.
(** the free parameter of Cools and Haegemans is universally quantified; the bounds are those the code asserts *)
Theorem C28_cools_haegemans_1 : forall n delta2, (1 <= n)%nat -> 1 / 2 <= delta2 -> builds_enr2_scheme n 3 (enr2_cools_haegemans_1 n delta2).
Proof. exact enr2_cools_haegemans_1_exact. Qed.
Theorem C28_cools_haegemans_2 : forall n delta2, (1 <= n)%nat -> 1 / 2 < delta2 -> ((2 < n)%nat -> delta2 <= (INR n + 2) / (2 * INR n - 4)) ->
  builds_enr2_scheme n 5 (enr2_cools_haegemans_2 n delta2).
Proof. exact enr2_cools_haegemans_2_exact. Qed.
(** ... except that delta2 = 1/2 passes the assertion and then divides by zero *)
Theorem C28_cools_haegemans_2_half : forall n, enr2_cools_haegemans_2 n (1 / 2) = None.
Proof. exact enr2_cools_haegemans_2_half. Qed.
Theorem C28_cools_haegemans_3 : forall n delta2, (2 <= n)%nat -> 1 / 2 < delta2 < 3 / 4 \/ 3 / 2 < delta2 ->
  builds_enr2_scheme n 7 (enr2_cools_haegemans_3 n delta2).
Proof. exact enr2_cools_haegemans_3_exact. Qed.
Theorem C28_cools_haegemans_3_default : forall n, (2 <= n)%nat -> builds_enr2_scheme n 7 (enr2_cools_haegemans_3 n (2 / 3)).
Proof. intros n H. apply C28_cools_haegemans_3; auto. left. lra. Qed.
Theorem C54_enr2_mcnamee_stenger_3 : forall n, (1 <= n)%nat -> builds_enr2_scheme n 3 (enr2_mcnamee_stenger_3 n).
Proof. exact enr2_ms3. Qed.
Theorem C54_enr2_mcnamee_stenger_5 : forall n, (2 <= n)%nat -> builds_enr2_scheme n 5 (enr2_mcnamee_stenger_5 n).
Proof. exact enr2_ms5. Qed.
Theorem C54_enr2_mcnamee_stenger_7 : forall n, (3 <= n)%nat -> builds_enr2_scheme n 7 (enr2_mcnamee_stenger_7a n) /\ builds_enr2_scheme n 7 (enr2_mcnamee_stenger_7b n).
Proof. intros n H. split; [exact (enr2_ms7 n false H)|exact (enr2_ms7 n true H)]. Qed.
Theorem C54_enr2_mcnamee_stenger_9 : forall n, (4 <= n)%nat -> builds_enr2_scheme n 9 (enr2_mcnamee_stenger_9a n) /\ builds_enr2_scheme n 9 (enr2_mcnamee_stenger_9b n).
Proof. intros n H. split; [exact (enr2_ms9 n false H)|exact (enr2_ms9 n true H)]. Qed.
Print Assumptions C54_enr2_mcnamee_stenger_9.
(** the reference integral: the total mass of exp(-|x|^2) is Gamma(n/2)/2 times the surface of the unit sphere; for n = 1 it is sqrt(pi) *)
Theorem C28_total_mass : forall n, (1 <= n)%nat -> exists g, gamma_n_2 n = Some g /\
  radial_int (fun r => exp (- (r * r))) n (fun _ => 1) = sphere_int n (fun _ => 1) * (g / 2).
Proof. intros n H. destruct (enr2_volume n H) as [g [E [_ V]]]. eauto. Qed.
Example C28_ex : radial_int (fun r => exp (- (r * r))) 1 (fun _ => 1) = sqrt PI.
Proof. destruct (C28_total_mass 1 ltac:(lia)) as [g [E V]]. rewrite V. rewrite gamma_1 in E. injection E as <-. cbn. field. Qed.
Example C28_ex2 : exists s, enr2_lu_darmofal_1 6 = Some s /\ apply (s_rule s) (mono [2; 0; 0; 0; 0; 2]%nat) = enr2_mean 6 (mono [2; 0; 0; 0; 0; 2]%nat).
Proof. destruct (C28_lu_darmofal_1 6 ltac:(lia)) as [s [E [_ [_ [_ H]]]]]. exists s. split; [exact E|apply H; cbn; lia]. Qed.
