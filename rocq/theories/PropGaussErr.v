(** C95: the error of an n-point Gauss rule is at most sup |f^(2n)| / (2n)! times the weighted integral of (x - x_1)^2 ... (x - x_n)^2. *)
From Coq Require Import Reals List Arith ZArith Lia Lra.
From Coquelicot Require Import Coquelicot.
From Verif Require Import Spec Spec1 RsumLemmas AdaptModel PyBase UnModel AdaptProofs ConvSpec ConvProofs C1Tools C1Model GwSpec GwModel WeightSpec GwInt GwInt2 GwBound LineModel LineProofs GaussShapeSpec GaussShapeProofs GaussErrSpec GaussErrProofs GwProofs GwRc GaussNormProofs PropGw PropLine PropGaussShape.
Import ListNotations.
Set Bullet Behavior "Strict Subproofs".
Open Scope R_scope.

(** The statement for one family: [int] is the weighted integral, [D] the domain, [r n] the result of the constructor.
    Whenever f has 2n derivatives on the domain, the last bounded by M, the weighted integral I of f exists and the rule is off by at most M N / (2n)!. *)
Definition sharp_error (int : (R -> R) -> R -> Prop) (D : R -> Prop) (r : nat -> option c1_scheme) : Prop :=
  forall n f M, (1 <= n)%nat -> (forall j x, (j <= 2 * n)%nat -> D x -> ex_derive_n f j x) -> (forall x, D x -> Rabs (Derive_n f (2 * n) x) <= M) ->
  exists s I N, r n = Some s /\ int f I /\ int (nodal_square (c1_rule s)) N /\ Rabs (apply1 (c1_rule s) f - I) <= M * N / INR (fact (2 * n)).

Theorem C95_jacobi : forall eigh a b int_1, eigen_solver eigh -> -1 < a -> -1 < b -> jacobi_int a b (fun _ => 1) int_1 ->
  sharp_error (jacobi_int a b) (fun x => -1 < x < 1) (gauss_jacobi eigh a b int_1).
Proof.
  intros eigh a b J HE Ha Hb HJ n f M Hn Hd HM. destruct (C94_jacobi eigh a b J HE Ha Hb HJ n Hn) as (s & s' & E & E' & P & _).
  destruct (C33_gauss_jacobi eigh a b J n HE Ha Hb HJ Hn) as (t & F & _ & L & _ & X). rewrite E in F. injection F as <-.
  destruct (C33_gauss_jacobi eigh a b J (S n) HE Ha Hb HJ ltac:(lia)) as (t & F & _ & _ & _ & X'). rewrite E' in F. injection F as <-.
  assert (LY := psq_length (map snd (c1_rule s))). rewrite map_length, L in LY. assert (HN := X' (psq (map snd (c1_rule s))) ltac:(lia)).
  set (N := apply1 (c1_rule s') (peval (psq (map snd (c1_rule s))))) in *.
  destruct (gauss_int_error (at_right (-1)) (at_left 1) _ _ jD jDa jDb jDc jDo j_ab (jw a b) f (c1_rule s) n M N (fun x _ => Rlt_le _ _ (jw_pos a b x)) (jw_cont a b) L Hn P X HN Hd HM) as (I & HI & B).
  exists s, I, N. split; [exact E|]. split; [exact HI|]. split; [|exact B].
  refine (gen_ext (at_right (-1)) (at_left 1) _ _ jD jDa jDb jDc _ _ _ _ HN). intros x _. cbn beta. rewrite nodal_psq. reflexivity.
Qed.
Theorem C95_laguerre : forall eigh a int_1, eigen_solver eigh -> -1 < a -> laguerre_int a (fun _ => 1) int_1 ->
  sharp_error (laguerre_int a) (fun x => 0 < x) (gauss_laguerre eigh a int_1).
Proof.
  intros eigh a J HE Ha HJ n f M Hn Hd HM. destruct (C94_laguerre eigh a J HE Ha HJ n Hn) as (s & s' & E & E' & P & _).
  destruct (C33_gauss_laguerre eigh a J n HE Ha HJ Hn) as (t & F & _ & L & _ & X). rewrite E in F. injection F as <-.
  destruct (C33_gauss_laguerre eigh a J (S n) HE Ha HJ ltac:(lia)) as (t & F & _ & _ & _ & X'). rewrite E' in F. injection F as <-.
  assert (LY := psq_length (map snd (c1_rule s))). rewrite map_length, L in LY. assert (HN := X' (psq (map snd (c1_rule s))) ltac:(lia)).
  set (N := apply1 (c1_rule s') (peval (psq (map snd (c1_rule s))))) in *.
  destruct (gauss_int_error (at_right 0) (Rbar_locally p_infty) _ _ lD lDa lDb lDc lDo l_ab (lw a) f (c1_rule s) n M N (fun x _ => Rlt_le _ _ (lw_pos a x)) (lw_cont a) L Hn P X HN Hd HM) as (I & HI & B).
  exists s, I, N. split; [exact E|]. split; [exact HI|]. split; [|exact B].
  refine (gen_ext (at_right 0) (Rbar_locally p_infty) _ _ lD lDa lDb lDc _ _ _ _ HN). intros x _. cbn beta. rewrite nodal_psq. reflexivity.
Qed.
Theorem C95_hermite : forall eigh, eigen_solver eigh -> sharp_error hermite_int (fun _ => True) (gauss_hermite eigh).
Proof.
  intros eigh HE n f M Hn Hd HM. destruct (C94_hermite eigh HE n Hn) as (s & s' & E & E' & P & _).
  destruct (C33_gauss_hermite eigh n HE Hn) as (t & F & _ & L & _ & X). rewrite E in F. injection F as <-.
  destruct (C33_gauss_hermite eigh (S n) HE ltac:(lia)) as (t & F & _ & _ & _ & X'). rewrite E' in F. injection F as <-.
  assert (LY := psq_length (map snd (c1_rule s))). rewrite map_length, L in LY. assert (HN := X' (psq (map snd (c1_rule s))) ltac:(lia)).
  set (N := apply1 (c1_rule s') (peval (psq (map snd (c1_rule s))))) in *.
  assert (Cw : forall x, hD x -> continuous (fun y => exp (- y ^ 2)) x) by (intros x _; apply (ex_derive_continuous (V := R_NormedModule)); auto_derive; auto).
  destruct (gauss_int_error (Rbar_locally m_infty) (Rbar_locally p_infty) _ _ hD hDa hDb hDc hDo h_ab (fun y => exp (- y ^ 2)) f (c1_rule s) n M N (fun x _ => Rlt_le _ _ (exp_pos _)) Cw L Hn P X HN Hd HM) as (I & HI & B).
  exists s, I, N. split; [exact E|]. split; [exact HI|]. split; [|exact B].
  refine (gen_ext (Rbar_locally m_infty) (Rbar_locally p_infty) _ _ hD hDa hDb hDc _ _ _ _ HN). intros x _. cbn beta. rewrite nodal_psq. reflexivity.
Qed.
(** On [-1, 1] with the constant weight, f continuous at the ends as well. *)
Theorem C95_legendre : forall eigh n (f : R -> R) M, eigen_solver eigh -> (1 <= n)%nat ->
  (forall x, -1 <= x <= 1 -> continuous f x) -> (forall j x, (j <= 2 * n)%nat -> -1 < x < 1 -> ex_derive_n f j x) -> (forall x, -1 < x < 1 -> Rabs (Derive_n f (2 * n) x) <= M) ->
  exists s, gauss_legendre eigh n = Some s /\ ex_RInt f (-1) 1 /\ Rabs (apply1 (c1_rule s) f - RInt f (-1) 1) <= M * RInt (nodal_square (c1_rule s)) (-1) 1 / INR (fact (2 * n)).
Proof.
  intros eigh n f M HE Hn Cf Hd HM. destruct (C94_legendre eigh HE n Hn) as (s & _ & E & _ & [ND HW] & _).
  destruct (legendre_exact eigh n HE Hn) as (t & F & L & X). rewrite E in F. injection F as <-. exists s. split; [exact E|].
  set (q := c1_rule s) in *. set (Y := map snd q) in *. assert (LY : length Y = n) by (unfold Y; rewrite map_length; auto).
  assert (HY : forall y, In y Y -> jD y) by (intros y Hy; apply in_map_iff in Hy; destruct Hy as ([v z] & Ez & Hz); cbn [snd] in Ez; subst z; apply (HW v y Hz)).
  destruct (double_interp f (Derive f) Y ND) as (p & Lp & Hp).
  assert (Q := double_error jD jDc jDo f p Y M ND). rewrite LY in *. specialize (Q Hn HY Lp Hp Hd HM).
  set (B := M / INR (fact (2 * n))) in *.
  assert (W : forall g : R -> R, (forall x, -1 <= x <= 1 -> continuous g x) -> ex_RInt g (-1) 1).
  { intros g Hg. apply (ex_RInt_continuous (V := R_CompleteNormedModule)). intros x Hx. rewrite Rmin_left, Rmax_right in Hx by lra. auto. }
  assert (If : ex_RInt f (-1) 1) by (apply W; exact Cf). split; [exact If|].
  assert (Ip : ex_RInt (peval p) (-1) 1) by (apply W; intros; apply peval_continuous).
  assert (Ce : forall x, -1 <= x <= 1 -> continuous (fun y => f y - peval p y) x) by (intros x Hx; apply (continuous_minus (V := R_NormedModule) f (peval p)); [auto|apply peval_continuous]).
  assert (EQ : apply1 q f = RInt (peval p) (-1) 1).
  { symmetry. rewrite (is_RInt_unique _ _ _ _ (X p Lp)). unfold apply1. apply Rsum_map_ext. intros [v z] Hz. cbn [fst snd]. destruct (Hp z) as [-> _]; [unfold Y; apply in_map_iff; exists (v, z); auto|reflexivity]. }
  assert (ES : RInt (fun y => f y - peval p y) (-1) 1 = RInt f (-1) 1 - RInt (peval p) (-1) 1) by exact (RInt_minus (V := R_CompleteNormedModule) f (peval p) (-1) 1 If Ip).
  assert (Is : ex_RInt (peval (psq Y)) (-1) 1) by (apply W; intros; apply peval_continuous).
  assert (EN : RInt (nodal_square q) (-1) 1 = RInt (peval (psq Y)) (-1) 1) by (apply RInt_ext; intros x _; apply nodal_psq).
  rewrite EQ, EN, Rabs_minus_sym, <- ES. replace (M * RInt (peval (psq Y)) (-1) 1 / INR (fact (2 * n))) with (B * RInt (peval (psq Y)) (-1) 1) by (unfold B, Rdiv; ring).
  assert (EB : RInt (fun y => B * peval (psq Y) y) (-1) 1 = B * RInt (peval (psq Y)) (-1) 1) by exact (RInt_scal (V := R_CompleteNormedModule) (peval (psq Y)) (-1) 1 B Is).
  rewrite <- EB. eapply Rle_trans; [apply (abs_RInt_le (fun y => f y - peval p y)); [lra|apply W; exact Ce]|].
  apply RInt_le; [lra| | |intros x Hx; apply Q; exact Hx].
  - apply W. intros x Hx. apply (continuous_comp (fun y => f y - peval p y) Rabs); [apply Ce; auto|apply continuous_Rabs].
  - apply W. intros x Hx. apply (continuous_scal_r (K := R_AbsRing) (V := R_NormedModule)). apply peval_continuous.
Qed.

(** The bound is attained: for f = (x - x_1)^2 ... (x - x_n)^2 the derivative of order 2n is (2n)! and the rule gives 0, so the error is N itself. *)
Theorem C95_attained : forall q n, length q = n ->
  (forall j x, ex_derive_n (nodal_square q) j x) /\ (forall x, Derive_n (nodal_square q) (2 * n) x = INR (fact (2 * n))) /\ apply1 q (nodal_square q) = 0.
Proof. exact nodal_attains. Qed.

(** The integral N in closed form. *)
Lemma norm_of eigh rc mu n s : eigen_solver eigh -> good_rc rc mu -> (1 <= n)%nat -> gauss_from_rc eigh rc n = Some s ->
  exists s', gauss_from_rc eigh rc (S n) = Some s' /\ apply1 (c1_rule s') (peval (psq (map snd (c1_rule s)))) = mu 0%nat * bprod (rc_beta rc) n.
Proof.
  intros HE G Hn E. destruct (gauss_exact eigh rc mu n HE G Hn) as (t & F & _ & L & X & _). rewrite E in F. injection F as <-.
  destruct (gauss_exact eigh rc mu (S n) HE G ltac:(lia)) as (s' & E' & _ & _ & X' & _). exists s'. split; [exact E'|].
  destruct G as (_ & _ & _ & HO). apply (nodal_norm (rc_alpha rc)); auto. replace (2 * n + 1)%nat with (2 * S n - 1)%nat by lia. exact X'.
Qed.
Theorem C95_hermite_value : forall eigh n f M, eigen_solver eigh -> (1 <= n)%nat ->
  (forall j x, (j <= 2 * n)%nat -> ex_derive_n f j x) -> (forall x, Rabs (Derive_n f (2 * n) x) <= M) ->
  exists s v I, gauss_hermite eigh n = Some s /\ e1_integrate (c1_rule s) f = [v] /\ hermite_int f I /\
    Rabs (v - I) <= M * (sqrt PI * INR (fact n) / 2 ^ n) / INR (fact (2 * n)).
Proof.
  intros eigh n f M HE Hn Hd HM. destruct (C95_hermite eigh HE n f M Hn (fun j x Hj _ => Hd j x Hj) (fun x _ => HM x)) as (s & I & N & E & HI & HN & B).
  exists s, (apply1 (c1_rule s) f), I. split; [exact E|]. split; [apply e1_integrate_apply|]. split; [exact HI|].
  destruct hermite_good as [G _]. destruct (norm_of eigh hermite_rc hnu n s HE G Hn E) as (s' & E' & V).
  destruct (C33_gauss_hermite eigh (S n) HE ltac:(lia)) as (t & F & _ & _ & _ & X'). unfold gauss_hermite in F. rewrite E' in F. injection F as <-.
  assert (LY := psq_length (map snd (c1_rule s))). destruct (C33_gauss_hermite eigh n HE Hn) as (t & F & _ & L & _). rewrite E in F. injection F as <-. rewrite map_length, L in LY.
  assert (HN' := X' (psq (map snd (c1_rule s))) ltac:(lia)). rewrite V in HN'.
  assert (HN2 : hermite_int (nodal_square (c1_rule s)) (hnu 0%nat * bprod (rc_beta hermite_rc) n)).
  { refine (gen_ext (Rbar_locally m_infty) (Rbar_locally p_infty) _ _ hD hDa hDb hDc _ _ _ _ HN'). intros x _. cbn beta. rewrite nodal_psq. reflexivity. }
  rewrite (hermite_unique (nodal_square (c1_rule s)) _ _ HN HN2) in B. destruct G as (_ & M0 & _). rewrite M0 in B. cbn [rc_beta rc_int hermite_rc] in B. rewrite bprod_hermite in B.
  unfold Rdiv in *. rewrite <- (Rmult_assoc (sqrt PI)) in B. exact B.
Qed.
Theorem C95_laguerre_value : forall eigh a int_1 n f M, eigen_solver eigh -> -1 < a -> laguerre_int a (fun _ => 1) int_1 -> (1 <= n)%nat ->
  (forall j x, (j <= 2 * n)%nat -> 0 < x -> ex_derive_n f j x) -> (forall x, 0 < x -> Rabs (Derive_n f (2 * n) x) <= M) ->
  exists s v I, gauss_laguerre eigh a int_1 n = Some s /\ e1_integrate (c1_rule s) f = [v] /\ laguerre_int a f I /\
    Rabs (v - I) <= M * (int_1 * INR (fact n) * rising a n) / INR (fact (2 * n)).
Proof.
  intros eigh a J n f M HE Ha HJ Hn Hd HM. destruct (C95_laguerre eigh a J HE Ha HJ n f M Hn Hd HM) as (s & I & N & E & HI & HN & B).
  exists s, (apply1 (c1_rule s) f), I. split; [exact E|]. split; [apply e1_integrate_apply|]. split; [exact HI|].
  destruct (laguerre_good a J Ha HJ) as (mu & G & _). destruct (norm_of eigh (laguerre_rc a J) mu n s HE G Hn E) as (s' & E' & V).
  destruct (C33_gauss_laguerre eigh a J (S n) HE Ha HJ ltac:(lia)) as (t & F & _ & _ & _ & X'). unfold gauss_laguerre in F. rewrite E' in F. injection F as <-.
  assert (LY := psq_length (map snd (c1_rule s))). destruct (C33_gauss_laguerre eigh a J n HE Ha HJ Hn) as (t & F & _ & L & _). rewrite E in F. injection F as <-. rewrite map_length, L in LY.
  assert (HN' := X' (psq (map snd (c1_rule s))) ltac:(lia)). rewrite V in HN'.
  assert (HN2 : laguerre_int a (nodal_square (c1_rule s)) (mu 0%nat * bprod (rc_beta (laguerre_rc a J)) n)).
  { refine (gen_ext (at_right 0) (Rbar_locally p_infty) _ _ lD lDa lDb lDc _ _ _ _ HN'). intros x _. cbn beta. rewrite nodal_psq. reflexivity. }
  rewrite (laguerre_unique a (nodal_square (c1_rule s)) _ _ HN HN2) in B. destruct G as (_ & M0 & _). rewrite M0 in B. cbn [rc_beta rc_int laguerre_rc] in B. rewrite bprod_laguerre in B.
  rewrite <- (Rmult_assoc J) in B. exact B.
Qed.
Theorem C95_legendre_value : forall eigh n (f : R -> R) M, eigen_solver eigh -> (1 <= n)%nat ->
  (forall x, -1 <= x <= 1 -> continuous f x) -> (forall j x, (j <= 2 * n)%nat -> -1 < x < 1 -> ex_derive_n f j x) -> (forall x, -1 < x < 1 -> Rabs (Derive_n f (2 * n) x) <= M) ->
  exists s, gauss_legendre eigh n = Some s /\ ex_RInt f (-1) 1 /\
    Rabs (apply1 (c1_rule s) f - RInt f (-1) 1) <= M * (2 ^ (2 * n + 1) * INR (fact n) ^ 4 / ((2 * INR n + 1) * INR (fact (2 * n)) ^ 2)) / INR (fact (2 * n)).
Proof.
  intros eigh n f M HE Hn Cf Hd HM. destruct (C95_legendre eigh n f M HE Hn Cf Hd HM) as (s & E & If & B). exists s. split; [exact E|]. split; [exact If|].
  assert (G := legendre_good). destruct (norm_of eigh legendre_rc _ n s HE G Hn E) as (s' & E' & V).
  destruct (legendre_exact eigh (S n) HE ltac:(lia)) as (t & F & _ & X'). unfold gauss_legendre in F. rewrite E' in F. injection F as <-.
  assert (LY := psq_length (map snd (c1_rule s))). destruct (legendre_exact eigh n HE Hn) as (t & F & L & _). rewrite E in F. injection F as <-. rewrite map_length, L in LY.
  assert (HN' := X' (psq (map snd (c1_rule s))) ltac:(lia)). rewrite V in HN'. apply (is_RInt_unique (V := R_CompleteNormedModule)) in HN'.
  rewrite (RInt_ext (nodal_square (c1_rule s)) (peval (psq (map snd (c1_rule s))))) in B by (intros; apply nodal_psq). rewrite HN' in B.
  destruct G as (_ & M0 & _). rewrite M0 in B. cbn [rc_beta rc_int legendre_rc] in B. rewrite bprod_legendre in B. exact B.
Qed.

(** integrate(f, [a, b]). *)
Theorem C95_legendre_interval : forall eigh n a b (f : R -> R) M, eigen_solver eigh -> (1 <= n)%nat -> a < b ->
  (forall x, a <= x <= b -> continuous f x) -> (forall j x, (j <= 2 * n)%nat -> a < x < b -> ex_derive_n f j x) -> (forall x, a < x < b -> Rabs (Derive_n f (2 * n) x) <= M) ->
  exists s, gauss_legendre eigh n = Some s /\ ex_RInt f a b /\
    Rabs (c1_integrate (c1_rule s) f (a, b) - RInt f a b) <= (b - a) ^ (2 * n + 1) * INR (fact n) ^ 4 / ((2 * INR n + 1) * INR (fact (2 * n)) ^ 3) * M.
Proof.
  intros eigh n a b f M HE Hn Hab Cf Hd HM. set (h := (b - a) / 2). set (m := (a + b) / 2). assert (Hh : 0 < h) by (unfold h; lra).
  set (g := fun t => f (h * t + m)). set (fm := fun y => f (y + m)).
  assert (Lm : forall t, -1 <= t <= 1 -> a <= h * t + m <= b).
  { intros t Ht. assert (E : h * t + m = a + h * (1 + t)) by (unfold h, m; field). assert (Eb : b = a + h * 2) by (unfold h; field). assert (0 <= h * (1 + t)) by (apply Rmult_le_pos; lra). assert (h * (1 + t) <= h * 2) by (apply Rmult_le_compat_l; lra). lra. }
  assert (Lo : forall t, -1 < t < 1 -> a < h * t + m < b).
  { intros t Ht. assert (E : h * t + m = a + h * (1 + t)) by (unfold h, m; field). assert (Eb : b = a + h * 2) by (unfold h; field). assert (0 < h * (1 + t)) by (apply Rmult_lt_0_compat; lra). assert (h * (1 + t) < h * 2) by (apply Rmult_lt_compat_l; lra). lra. }
  assert (LL : forall j t, (j <= 2 * n)%nat -> -1 < t < 1 -> locally (h * t) (fun y => forall k, (k <= j)%nat -> ex_derive_n fm k y)).
  { intros j t Hj Ht. apply (locally_interval _ (h * t) (a - m) (b - m)); cbn; [generalize (Lo t Ht); lra|generalize (Lo t Ht); lra|]. intros y H1 H2 k Hk. apply ex_derive_n_comp_trans, Hd; [lia|]. cbn in H1, H2. lra. }
  assert (Dg : forall j t, (j <= 2 * n)%nat -> -1 < t < 1 -> ex_derive_n g j t /\ Derive_n g j t = h ^ j * Derive_n f j (h * t + m)).
  { intros j t Hj Ht. split; [exact (ex_derive_n_comp_scal fm h j t (LL j t Hj Ht))|]. change g with (fun t => fm (h * t)). rewrite (Derive_n_comp_scal fm h j t (LL j t Hj Ht)). f_equal. apply Derive_n_comp_trans. }
  destruct (C95_legendre_value eigh n g (h ^ (2 * n) * M) HE Hn) as (s & E & Ig & B).
  - intros t Ht. apply (continuous_comp (fun t => h * t + m) f); [apply (ex_derive_continuous (V := R_NormedModule)); auto_derive; auto|apply Cf, Lm, Ht].
  - intros j t Hj Ht. apply (Dg j t Hj Ht).
  - intros t Ht. rewrite (proj2 (Dg (2 * n)%nat t ltac:(lia) Ht)), Rabs_mult, (Rabs_pos_eq (h ^ (2 * n))) by (apply pow_le; lra). apply Rmult_le_compat_l; [apply pow_le; lra|apply HM, Lo, Ht].
  - assert (If : ex_RInt f a b) by (apply (ex_RInt_continuous (V := R_CompleteNormedModule)); intros x Hx; rewrite Rmin_left, Rmax_right in Hx by lra; auto).
    exists s. split; [exact E|]. split; [exact If|].
    assert (EI : RInt f a b = h * RInt g (-1) 1).
    { assert (Ea : h * -1 + m = a) by (unfold h, m; field). assert (Eb : h * 1 + m = b) by (unfold h, m; field).
      assert (K := RInt_comp_lin (V := R_CompleteNormedModule) f h m (-1) 1). rewrite Ea, Eb in K. rewrite <- (K If). exact (RInt_scal (V := R_CompleteNormedModule) g (-1) 1 h Ig). }
    assert (EV : c1_integrate (c1_rule s) f (a, b) = h * apply1 (c1_rule s) g).
    { unfold c1_integrate, apply1. rewrite interval_length_abs, Rabs_pos_eq by lra. f_equal; [unfold h; lra|]. apply Rsum_map_ext. intros [w x] _. cbn [fst snd]. unfold g, to_interval. cbn [fst snd]. do 2 f_equal. unfold h, m. lra. }
    rewrite EI, EV, <- Rmult_minus_distr_l, Rabs_mult, (Rabs_pos_eq h) by lra. eapply Rle_trans; [apply Rmult_le_compat_l; [lra|exact B]|].
    right. replace (b - a) with (2 * h) by (unfold h; field). rewrite Rpow_mult_distr. replace (h ^ (2 * n + 1)) with (h * h ^ (2 * n)) by (rewrite pow_add; ring).
    assert (F := INR_fact_lt_0 (2 * n)). assert (P := pos_INR n). field. split; lra.
Qed.

(** The sum over intervals that tile [a, b], none longer than h: order h^(2n), with the constant. *)
Theorem C95_legendre_composite : forall eigh n a b (f : R -> R) M h l, eigen_solver eigh -> (1 <= n)%nat ->
  (forall x, a <= x <= b -> continuous f x) -> (forall j x, (j <= 2 * n)%nat -> a < x < b -> ex_derive_n f j x) -> (forall x, a < x < b -> Rabs (Derive_n f (2 * n) x) <= M) ->
  tiling a b l -> (forall iv, In iv l -> snd iv - fst iv <= h) ->
  exists s, gauss_legendre eigh n = Some s /\
    Rabs (Rsum (map (c1_integrate (c1_rule s) f) l) - RInt f a b) <= (b - a) * (h ^ (2 * n) * INR (fact n) ^ 4 / ((2 * INR n + 1) * INR (fact (2 * n)) ^ 3) * M).
Proof.
  intros eigh n a b f M h l HE Hn Cf Hd HM T Hl. destruct (legendre_exact eigh n HE Hn) as (s & E & _). exists s. split; [exact E|].
  destruct (tiling_bounds a b l T) as (H & K & S).
  assert (C : continuous_on a b f).
  { intros x Hx eps He. destruct (proj1 (filterlim_locally f (f x)) (Cf x Hx) (mkposreal eps He)) as [d Hd']. exists d. split; [apply cond_pos|]. intros y _ Hy. exact (Hd' y Hy). }
  rewrite (tiling_split a b f l C T), <- Rsum_map_minus. set (B := h ^ (2 * n) * INR (fact n) ^ 4 / ((2 * INR n + 1) * INR (fact (2 * n)) ^ 3) * M).
  eapply Rle_trans; [apply (sum_bound l _ (fun iv => B * (snd iv - fst iv)))|rewrite Rsum_map_scal, S, Rmult_comm; apply Rle_refl].
  intros [u v] Hi. destruct (K _ Hi) as (K1 & K2 & K3). specialize (Hl _ Hi). cbn [fst snd] in *. destruct K2 as [K2 | <-].
  - destruct (C95_legendre_interval eigh n u v f M HE Hn K2) as (t & F & _ & Q).
    + intros x Hx. apply Cf. lra.
    + intros j x Hj Hx. apply Hd; [auto|lra].
    + intros x Hx. apply HM. lra.
    + rewrite E in F. injection F as <-. eapply Rle_trans; [exact Q|]. replace ((v - u) ^ (2 * n + 1)) with ((v - u) * (v - u) ^ (2 * n)) by (rewrite pow_add; ring).
      assert (M0 : 0 <= M) by (eapply Rle_trans; [apply Rabs_pos|apply (HM ((u + v) / 2)); lra]). assert (P := pos_INR n). assert (F := INR_fact_lt_0 (2 * n)). assert (F' := INR_fact_lt_0 n).
      assert (Z : 0 <= INR (fact n) ^ 4 / ((2 * INR n + 1) * INR (fact (2 * n)) ^ 3) * M) by (apply Rmult_le_pos; auto; apply Rmult_le_pos; [apply pow_le; lra|left; apply Rinv_0_lt_compat, Rmult_lt_0_compat; [lra|apply pow_lt; auto]]).
      unfold B. replace (h ^ (2 * n) * INR (fact n) ^ 4 / ((2 * INR n + 1) * INR (fact (2 * n)) ^ 3) * M * (v - u)) with ((v - u) * (h ^ (2 * n) * (INR (fact n) ^ 4 / ((2 * INR n + 1) * INR (fact (2 * n)) ^ 3) * M))) by (unfold Rdiv; ring).
      replace ((v - u) * (v - u) ^ (2 * n) * INR (fact n) ^ 4 / ((2 * INR n + 1) * INR (fact (2 * n)) ^ 3) * M) with ((v - u) * ((v - u) ^ (2 * n) * (INR (fact n) ^ 4 / ((2 * INR n + 1) * INR (fact (2 * n)) ^ 3) * M))) by (unfold Rdiv; ring).
      apply Rmult_le_compat_l; [lra|]. apply Rmult_le_compat_r; [auto|]. apply pow_incr. lra.
  - assert (V : c1_integrate (c1_rule s) f (u, u) = 0) by (unfold c1_integrate; rewrite interval_length_abs; replace (u - u) with 0 by ring; rewrite Rabs_R0; ring).
    rewrite V, RInt_point. change (zero (G := R_CompleteNormedModule)) with 0. replace (u - u) with 0 by ring. rewrite Rminus_0_r, Rabs_R0. lra.
Qed.

(** A case: cos against exp(-x^2), for every n, with M = 1. *)
Example C95_case : exists eigh, eigen_solver eigh /\ forall n, (1 <= n)%nat -> exists s I N, gauss_hermite eigh n = Some s /\ hermite_int cos I /\ hermite_int (nodal_square (c1_rule s)) N /\
  Rabs (apply1 (c1_rule s) cos - I) <= 1 * N / INR (fact (2 * n)).
Proof.
  destruct C33_solver_exists as [eigh HE]. exists eigh. split; auto. intros n Hn. apply (C95_hermite eigh HE n cos 1 Hn).
  - intros [|j] x _ _; [exact I|]. cbn [ex_derive_n]. apply (ex_derive_ext (fun y => cos (y + INR j * (PI / 2)))); [intros; symmetry; apply cos_derivs|]. auto_derive. auto.
  - intros x _. rewrite cos_derivs. apply Rabs_le, COS_bound.
Qed.
Example C95_case_interval : exists eigh, eigen_solver eigh /\ exists s, gauss_legendre eigh 2 = Some s /\ ex_RInt cos 0 2 /\
  Rabs (c1_integrate (c1_rule s) cos (0, 2) - RInt cos 0 2) <= 32 * 16 / (5 * 24 ^ 3).
Proof.
  destruct C33_solver_exists as [eigh HE]. exists eigh. split; auto. destruct (C95_legendre_interval eigh 2 0 2 cos 1 HE) as (s & E & If & B); [lia|lra| | | |].
  - intros x _. apply (ex_derive_continuous (V := R_NormedModule)). auto_derive; auto.
  - intros [|j] x _ _; [exact I|]. cbn [ex_derive_n]. apply (ex_derive_ext (fun y => cos (y + INR j * (PI / 2)))); [intros; symmetry; apply cos_derivs|]. auto_derive. auto.
  - intros x _. rewrite cos_derivs. apply Rabs_le, COS_bound.
  - exists s. split; [exact E|]. split; [exact If|]. eapply Rle_trans; [exact B|]. right. cbn. field.
Qed.

Print Assumptions C95_jacobi.
Print Assumptions C95_legendre.
Print Assumptions C95_laguerre.
Print Assumptions C95_hermite.
Print Assumptions C95_attained.
Print Assumptions C95_hermite_value.
Print Assumptions C95_laguerre_value.
Print Assumptions C95_legendre_value.
Print Assumptions C95_legendre_interval.
Print Assumptions C95_legendre_composite.
