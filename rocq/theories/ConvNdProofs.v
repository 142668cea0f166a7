(** Error bounds and convergence for continuous functions on the cube, the simplex, the ball and the sphere. *)
From Coq Require Import Reals List Arith Lia Lra.
From Coquelicot Require Import Coquelicot.
From Verif Require Import Spec RsumLemmas IntegralSpec IntegralProofs IntegralPoly SphereSpec SphereInt RadialInt RoundSpec ConvSpec ConvNdSpec Weier WeierNd TnModel2 PolyFun IterInt ConvNdExt
  NearProofs RoundProofs.
Import ListNotations.
Set Bullet Behavior "Strict Subproofs".
Open Scope R_scope.

(** *** Rules *)
Lemma weights_abs_ge0 q : 0 <= weights_abs q.
Proof. unfold weights_abs. induction q as [|w q IH]; cbn [map Rsum]; [lra|]. assert (P := Rabs_pos (fst w)). lra. Qed.
Lemma apply_near (D : point -> Prop) q f p e : List.Forall (fun wp => D (snd wp)) q -> (forall x, D x -> Rabs (f x - p x) <= e) -> Rabs (apply q f - apply q p) <= weights_abs q * e.
Proof.
  intros F H. unfold apply, weights_abs. induction F as [|w q Hw F IH]; cbn [map Rsum]; [rewrite Rminus_eq_0, Rabs_R0; lra|].
  match goal with |- Rabs (?a + ?s - (?b + ?t)) <= _ => replace (a + s - (b + t)) with ((a - b) + (s - t)) by ring end. eapply Rle_trans; [apply Rabs_triang|].
  replace (fst w * f (snd w) - fst w * p (snd w)) with (fst w * (f (snd w) - p (snd w))) by ring. rewrite Rabs_mult. specialize (H _ Hw). assert (P := Rabs_pos (fst w)). nra.
Qed.
Lemma weights_positive q : List.Forall (fun wp => 0 <= fst wp) q -> weights_abs q = apply q (fun _ => 1).
Proof. intros F. unfold weights_abs, apply. induction F as [|w q Hw F IH]; cbn [map Rsum]; [auto|]. rewrite IH, Rabs_right by lra. ring. Qed.
Definition mean_on (D : point -> Prop) (n : nat) (M : (point -> R) -> R) : Prop :=
  (forall f d p e, continuous_in D f -> polyfun n d p -> (forall x, D x -> Rabs (f x - p x) <= e) -> Rabs (M f - M p) <= e) /\
  (forall f eps, continuous_in D f -> 0 < eps -> exists d p, polyfun n d p /\ forall x, D x -> Rabs (f x - p x) < eps).
Lemma error_on D n M q f d p e : mean_on D n M -> (forall p, polyfun n d p -> apply q p = M p) -> List.Forall (fun wp => D (snd wp)) q -> continuous_in D f -> polyfun n d p ->
  (forall x, D x -> Rabs (f x - p x) <= e) -> Rabs (apply q f - M f) <= (1 + weights_abs q) * e.
Proof.
  intros (N & _) X Q C Pp H. assert (A := apply_near D q f p e Q H). assert (B := N f d p e C Pp H). rewrite (X p Pp) in A.
  replace (apply q f - M f) with ((apply q f - M p) + - (M f - M p)) by ring. eapply Rle_trans; [apply Rabs_triang|]. rewrite Rabs_Ropp. lra.
Qed.
Lemma converges_on D n M (q : nat -> option rule) W f : mean_on D n M -> continuous_in D f ->
  (forall m, exists N, forall k, (N <= k)%nat -> exists r, q k = Some r /\ (forall p, polyfun n m p -> apply r p = M p) /\ List.Forall (fun wp => D (snd wp)) r /\ weights_abs r <= W) ->
  converges_to (fun k => option_map (fun r => apply r f) (q k)) (M f).
Proof.
  intros HM C Q eps He. assert (W0 : 0 <= W). { destruct (Q 0%nat) as (N & HN). destruct (HN N (le_n _)) as (r & _ & _ & _ & Hr). assert (P := weights_abs_ge0 r). lra. }
  destruct (proj2 HM f (eps / (2 * (1 + W))) C ltac:(apply Rdiv_lt_0_compat; lra)) as (m & p & Pp & H). destruct (Q m) as (N & HN). exists N. intros k Hk. destruct (HN k Hk) as (r & Er & X & F & HW). exists (apply r f). rewrite Er. split; [reflexivity|].
  assert (B := error_on D n M r f m p (eps / (2 * (1 + W))) HM X F C Pp ltac:(intros x Hx; left; auto)).
  eapply Rle_lt_trans; [exact B|]. assert (P : 0 < eps / (2 * (1 + W))) by (apply Rdiv_lt_0_compat; lra). apply Rle_lt_trans with ((1 + W) * (eps / (2 * (1 + W)))); [apply Rmult_le_compat_r; lra|].
  replace ((1 + W) * (eps / (2 * (1 + W)))) with (eps / 2) by (field; lra). lra.
Qed.
Lemma converges_scal (c : R) a l : converges_to a l -> converges_to (fun k => option_map (Rmult c) (a k)) (c * l).
Proof.
  intros H eps He. destruct (H (eps / (Rabs c + 1))) as (N & HN); [apply Rdiv_lt_0_compat; [lra|]; assert (P := Rabs_pos c); lra|]. exists N. intros k Hk. destruct (HN k Hk) as (v & Ev & B). exists (c * v). rewrite Ev. split; [reflexivity|].
  rewrite <- Rmult_minus_distr_l, Rabs_mult. assert (P := Rabs_pos c). assert (Q := Rabs_pos (v - l)). apply Rle_lt_trans with ((Rabs c + 1) * Rabs (v - l)); [nra|].
  replace eps with ((Rabs c + 1) * (eps / (Rabs c + 1))) by (field; lra). apply Rmult_lt_compat_l; lra.
Qed.
Lemma converges_eq (a b : nat -> option R) l : (exists N, forall k, (N <= k)%nat -> a k = b k) -> converges_to a l -> converges_to b l.
Proof. intros (N & E) H eps He. destruct (H eps He) as (N' & HN). exists (max N N'). intros k Hk. rewrite <- E by lia. apply HN. lia. Qed.
(** *** the four means *)
Lemma mean_bound a b v e : 0 < v -> Rabs (a - b) <= e * v -> Rabs (a / v - b / v) <= e.
Proof. intros P H. replace (a / v - b / v) with ((a - b) * / v) by (field; lra). rewrite Rabs_mult, (Rabs_right (/ v)) by (left; apply Rinv_0_lt_compat; auto). apply Rmult_le_reg_r with v; auto. rewrite Rmult_assoc, Rinv_l by lra. lra. Qed.
Lemma cube_int_1 n : cube_int n (fun _ => 1) = 2 ^ n.
Proof. induction n as [|n IH]; cbn [cube_int pow]; [reflexivity|]. rewrite (RInt_ext _ (fun _ => 2 ^ n)) by (intros; apply IH). rewrite RInt_const. unfold scal. cbn. unfold mult. cbn. ring. Qed.
Lemma cube_mean_on n : mean_on (in_cube n) n (cube_mean n).
Proof.
  split.
  - intros f d p e C Pp H. unfold cube_mean. apply mean_bound; [apply pow_lt; lra|]. rewrite <- cube_int_1. apply cube_near; auto; [apply continuous_ucont; auto|apply (ucont_polyfun n d); auto].
  - intros f eps C He. apply weierstrass_nd; auto. apply continuous_ucont. auto.
Qed.
Lemma ball_mean_on n : mean_on (in_ball n) n (ball_mean n).
Proof.
  split.
  - intros f d p e C Pp H. unfold ball_mean. apply mean_bound; [rewrite ball_int_1; apply bal0_pos|]. rewrite (ball_ext n f (fun x => f (to_ball x))) by (intros x Hx; rewrite (to_ball_id n); auto).
    apply ball_near; [apply ball_extend; auto|apply (ucont_polyfun n d); auto|]. intros x Hx. rewrite (to_ball_id n) by auto. auto.
  - intros f eps C He. destruct (weierstrass_nd n _ (ball_extend n f C) eps He) as (d & p & Pp & H). exists d, p. split; auto. intros x Hx. specialize (H x (in_ball_cube n x Hx)). rewrite (to_ball_id n) in H by auto. auto.
Qed.
Lemma sphere_mean_on n : mean_on (on_sphere (S n)) (S n) (sphere_mean (S n)).
Proof.
  split.
  - intros f d p e C Pp H. unfold sphere_mean. apply mean_bound; [rewrite sphere_int_1; apply sph0_pos|]. rewrite (sphere_ext (S n) f (sphere_ext_fun f)) by (intros x Hx; rewrite (sphere_ext_id (S n)); auto).
    apply sphere_near; [lia|apply sphere_extend; auto|apply (ucont_polyfun (S n) d); auto|]. intros x Hx. rewrite (sphere_ext_id (S n)) by auto. auto.
  - intros f eps C He. destruct (weierstrass_nd (S n) _ (sphere_extend (S n) f C) eps He) as (d & p & Pp & H). exists d, p. split; auto. intros x Hx. specialize (H x (on_sphere_cube (S n) x Hx)). rewrite (sphere_ext_id (S n)) in H by auto. auto.
Qed.
Lemma in_bary_simplex n x : in_unit_simplex n x -> in_bary n ((1 - Rsum x) :: x).
Proof. intros (L & F & S). repeat split; [cbn; congruence|constructor; auto; lra|cbn; ring]. Qed.
Lemma bary_tl n l : in_bary n l -> in_unit_simplex n (tl l) /\ l = (1 - Rsum (tl l)) :: tl l.
Proof. intros (L & F & S). destruct l as [|t l]; [discriminate|]. inversion F; subst. cbn [tl Rsum length] in *. split; [repeat split; auto; lra|]. f_equal. lra. Qed.
Lemma simplex_int_1 n : INR (fact n) * simplex_int n 1 (fun _ => 1) = 1.
Proof.
  assert (E := simplex_int_mpeval n 1 [(1, repeat 0%nat (S n))]). cbn [map Rsum fst snd] in E. rewrite (simplex_int_ext _ _ _ (fun _ => 1)) in E.
  - unfold point in *. rewrite E by (repeat constructor; cbn [snd]; apply repeat_length). unfold sval. rewrite tdeg_zero, pow1. replace (prodfactR (repeat 0%nat (S n))) with 1; [rewrite Nat.add_0_r; field; apply INR_fact_neq_0|].
    generalize (S n). intros k. unfold prodfactR. induction k; cbn [repeat map Rprod]; auto. rewrite <- IHk. cbn. ring.
  - intros x _. unfold mpeval. cbn [map Rsum fst snd]. rewrite mono_zero. ring.
Qed.
Lemma bary_cont n : map_cont (in_unit_simplex n) (fun x => (1 - Rsum x) :: x).
Proof.
  intros x Hx eps He. assert (U : ucont n (fun x => Rsum (map (fun t => t) x))) by (apply ucont_Rsum; intros m; apply ucont_hd). destruct (U eps He) as (d & Hd & K). exists (Rmin d eps). split; [apply Rmin_pos; auto|].
  intros y Hy Hc. specialize (K y x (in_unit_simplex_cube n y Hy) (in_unit_simplex_cube n x Hx) (close_le _ _ _ _ (Rmin_l _ _) Hc)). rewrite !map_id in K. constructor; [|apply (close_le _ _ _ _ (Rmin_r _ _) Hc)].
  replace (1 - Rsum y - (1 - Rsum x)) with (- (Rsum y - Rsum x)) by ring. rewrite Rabs_Ropp. auto.
Qed.
Lemma polyfun_bary n d p : polyfun (S n) d p -> polyfun n d (fun x => p ((1 - Rsum x) :: x)).
Proof.
  intros P. apply (polyfun_ext n d (fun x => p (map (fun l => l x) ((fun x => 1 + -1 * Rsum (map (fun i => nth i x 0) (seq 0 n))) :: map (fun i x => nth i x 0) (seq 0 n))))).
  - intros x Hx. cbn [map]. rewrite map_map. subst n. rewrite <- (as_map_nth x 0). f_equal. f_equal. ring.
  - apply (polyfun_comp n (S n)); auto; [cbn; rewrite map_length, seq_length; auto|]. constructor.
    + apply polyfun_add; [apply polyfun_const|apply polyfun_scal]. apply (polyfun_sum n 1 (seq 0 n) (fun i x => nth i x 0)). intros i Hi. apply in_seq in Hi. apply polyfun_coord. lia.
    + apply List.Forall_forall. intros g Hg. apply in_map_iff in Hg. destruct Hg as (i & <- & Hi). apply in_seq in Hi. apply polyfun_coord. lia.
Qed.
Lemma simplex_mean_on n : mean_on (in_bary n) (S n) (simplex_mean n).
Proof.
  assert (CB : forall f, continuous_in (in_bary n) f -> continuous_in (in_unit_simplex n) (fun x => f ((1 - Rsum x) :: x))).
  { intros f C. apply (continuous_comp (in_unit_simplex n) (in_bary n) (fun x => (1 - Rsum x) :: x)); auto; [apply in_bary_simplex|apply bary_cont]. }
  split.
  - intros f d p e C Pp H. unfold simplex_mean. assert (P : 0 < INR (fact n)) by apply INR_fact_lt_0. rewrite <- Rmult_minus_distr_l, Rabs_mult, (Rabs_right (INR (fact n))) by lra.
    apply Rle_trans with (INR (fact n) * (e * simplex_int n 1 (fun _ => 1))).
    + apply Rmult_le_compat_l; [lra|]. set (g := fun x : point => f ((1 - Rsum x) :: x)). rewrite (simplex_ext n g (fun x => g (to_simplex x))) by (intros x L F S; rewrite (to_simplex_id n); [auto|repeat split; auto]).
      apply simplex_near; [apply simplex_extend; apply CB; auto|apply (ucont_polyfun n d); apply (polyfun_bary n d); auto|]. intros x L F S. rewrite (to_simplex_id n) by (repeat split; auto). apply H. apply in_bary_simplex. repeat split; auto.
    + rewrite (Rmult_comm e), <- Rmult_assoc, simplex_int_1. lra.
  - intros f eps C He. destruct (weierstrass_nd n _ (simplex_extend n _ (CB f C)) eps He) as (d & p & Pp & H). exists d, (fun l => p (tl l)). split; [apply polyfun_tail; auto|]. intros l Hl. destruct (bary_tl n l Hl) as (Ht & E).
    specialize (H (tl l) (in_unit_simplex_cube n _ Ht)). rewrite (to_simplex_id n) in H by auto. rewrite <- E in H. auto.
Qed.
(** *** exactness *)
Lemma cube_exact_polyfun n d q p : exact n d (fun k => cube_mean n (mono k)) q -> polyfun n d p -> apply q p = cube_mean n p.
Proof. intros X (r & Hr & E). rewrite (apply_polyfun_ext n q p (mpeval r)) by (auto; apply X). rewrite (cube_exact_poly n d) by auto. unfold cube_mean. f_equal. symmetry. apply cube_int_ext. auto. Qed.
Lemma simplex_exact_polyfun n d q p : exact (n + 1) d (fun k => simplex_mean n (mono k)) q -> polyfun (S n) d p -> apply q p = simplex_mean n p.
Proof.
  intros X (r & Hr & E). rewrite Nat.add_1_r in X. rewrite (apply_polyfun_ext (S n) q p (mpeval r)) by (auto; apply X). rewrite <- Nat.add_1_r in X, Hr. rewrite (simplex_exact_poly n d) by auto. symmetry. apply simplex_mean_ext. intros x Hx _. apply E. auto.
Qed.
Lemma ball_exact_polyfun n d q p : exact n d (fun k => ball_mean n (mono k)) q -> polyfun n d p -> apply q p = ball_mean n p.
Proof. intros [Q X] Pp. apply (ball_rule_polyfun n d); auto. Qed.
Lemma sphere_exact_polyfun n d q p : exact (S n) d (fun k => sphere_mean (S n) (mono k)) q -> polyfun (S n) d p -> apply q p = sphere_mean (S n) p.
Proof. intros [Q X] Pp. apply (sphere_rule_polyfun n d); auto. Qed.
