(** Functions that are continuous on the unit ball, the unit sphere or the unit simplex agree there with functions that are
    uniformly continuous on the cube. *)
From Coq Require Import Reals List Arith Lia Lra.
From Coquelicot Require Import Coquelicot.
From Verif Require Import Spec RsumLemmas ConvSpec ConvNdSpec Weier WeierNd TnModel2 PolyFun IterInt.
Import ListNotations.
Set Bullet Behavior "Strict Subproofs".
Open Scope R_scope.

Definition map_cont (D : point -> Prop) (rho : point -> point) : Prop :=
  forall x, D x -> forall eps, 0 < eps -> exists delta, 0 < delta /\ forall y, D y -> close delta y x -> close eps (rho y) (rho x).
Lemma continuous_comp (D E : point -> Prop) rho f : (forall x, D x -> E (rho x)) -> map_cont D rho -> continuous_in E f -> continuous_in D (fun x => f (rho x)).
Proof.
  intros M C F x Hx eps He. destruct (F _ (M x Hx) eps He) as (d & Hd & K). destruct (C x Hx d Hd) as (d' & Hd' & K'). exists d'. split; auto.
Qed.
Lemma ucont_continuous n f : ucont n f -> continuous_in (in_cube n) f.
Proof. intros U x Hx eps He. destruct (U eps He) as (d & Hd & K). exists d. split; auto. Qed.
Lemma continuous_in_ext (D : point -> Prop) f g : (forall x, D x -> f x = g x) -> continuous_in D f -> continuous_in D g.
Proof. intros E C x Hx eps He. destruct (C x Hx eps He) as (d & Hd & K). exists d. split; auto. intros y Hy Hc. rewrite <- !E by auto. auto. Qed.
Lemma continuous_in_sub (D E : point -> Prop) f : (forall x, D x -> E x) -> continuous_in E f -> continuous_in D f.
Proof. intros S C x Hx eps He. destruct (C x (S x Hx) eps He) as (d & Hd & K). exists d. split; auto. Qed.
(** *** scaling by a function *)
Lemma close_scale c c' d e x y : 0 <= Rabs c <= 1 -> Rabs (c - c') < d -> List.Forall (fun t => -1 <= t <= 1) y -> close e x y -> close (d + e) (map (Rmult c) x) (map (Rmult c') y).
Proof.
  intros Hc Hd F H. induction H as [|a b x y H0 H IH]; [constructor|]. inversion F; subst. cbn. constructor; [|apply IH; auto].
  replace (c * a - c' * b) with (c * (a - b) + (c - c') * b) by ring. eapply Rle_lt_trans; [apply Rabs_triang|]. rewrite !Rabs_mult. assert (Rabs b <= 1) by (apply Rabs_le; lra).
  assert (0 <= Rabs (a - b)) by apply Rabs_pos. assert (0 <= Rabs (c - c')) by apply Rabs_pos. assert (0 <= Rabs b) by apply Rabs_pos. nra.
Qed.
Lemma inv_max s : 0 < / Rmax 1 s <= 1.
Proof. assert (1 <= Rmax 1 s) by apply Rmax_l. split; [apply Rinv_0_lt_compat; lra|]. apply Rle_trans with (/ 1); [apply Rinv_le_contravar; lra|rewrite Rinv_1; lra]. Qed.
Lemma inv_max_near s t : Rabs (/ Rmax 1 s - / Rmax 1 t) <= Rabs (s - t).
Proof.
  assert (A := inv_max s). assert (B := inv_max t). assert (Hs : 1 <= Rmax 1 s) by apply Rmax_l. assert (Ht : 1 <= Rmax 1 t) by apply Rmax_l.
  replace (/ Rmax 1 s - / Rmax 1 t) with ((Rmax 1 t - Rmax 1 s) * (/ Rmax 1 s * / Rmax 1 t)) by (field; lra). rewrite Rabs_mult, (Rabs_right (_ * _)) by (apply Rle_ge; apply Rmult_le_pos; lra).
  assert (M : Rabs (Rmax 1 t - Rmax 1 s) <= Rabs (s - t)). { unfold Rmax. repeat destruct (Rle_dec _ _); unfold Rabs; repeat destruct (Rcase_abs _); lra. }
  assert (/ Rmax 1 s * / Rmax 1 t <= 1) by nra. assert (0 <= / Rmax 1 s * / Rmax 1 t) by nra. assert (0 <= Rabs (Rmax 1 t - Rmax 1 s)) by apply Rabs_pos. nra.
Qed.
Lemma ucont_lip n s h : (forall a b, Rabs (h a - h b) <= Rabs (a - b)) -> ucont n s -> ucont n (fun x => h (s x)).
Proof. intros L U eps He. destruct (U eps He) as (d & Hd & K). exists d. split; auto. intros x y Hx Hy Hc. eapply Rle_lt_trans; [apply L|]. auto. Qed.
Lemma ucont_Rsum h n : (forall m, ucont (S m) (fun x => h (hd 0 x))) -> ucont n (fun x => Rsum (map h x)).
Proof.
  intros H. induction n as [|n IH].
  - apply (ucont_ext 0 (fun _ => 0)); [intros x Hx; rewrite (in_cube_0 _ Hx); reflexivity|apply ucont_const].
  - apply (ucont_ext _ (fun x => h (hd 0 x) + Rsum (map h (tl x)))).
    + intros x Hx. destruct (in_cube_S _ _ Hx) as (t & y & -> & _). reflexivity.
    + apply (ucont_plus _ (fun x => h (hd 0 x)) (fun x => Rsum (map h (tl x)))); [apply H|]. apply (ucont_tl n (fun x => Rsum (map h x))). auto.
Qed.
Definition norm2 (x : point) : R := Rsum (map (fun t => t ^ 2) x).
Lemma ucont_norm2 n : ucont n norm2.
Proof. apply ucont_Rsum. intros m. apply (ucont_pow (S m) (fun x => hd 0 x)). apply ucont_hd. Qed.
Lemma norm2_pos x : 0 <= norm2 x.
Proof. unfold norm2. induction x as [|t x IH]; cbn [map Rsum]; [lra|]. assert (0 <= t ^ 2) by apply pow2_ge_0. lra. Qed.
Lemma norm2_scale c x : norm2 (map (Rmult c) x) = c ^ 2 * norm2 x.
Proof. unfold norm2. rewrite map_map, <- Rsum_map_scal. apply Rsum_map_ext. intros. ring. Qed.
Lemma in_ball_cube n x : in_ball n x -> in_cube n x.
Proof.
  intros [L H]. split; auto. clear L. fold (norm2 x) in H. induction x as [|t x IH]; constructor; unfold norm2 in H; cbn [map Rsum] in H; fold (norm2 x) in H; assert (P := norm2_pos x); [nra|]. apply IH. assert (0 <= t ^ 2) by apply pow2_ge_0. lra.
Qed.
(** *** the retraction of the cube to the ball *)
Definition to_ball (x : point) : point := map (Rmult (/ Rmax 1 (norm2 x))) x.
Lemma to_ball_in n x : in_cube n x -> in_ball n (to_ball x).
Proof.
  intros [L _]. unfold to_ball. split; [rewrite map_length; auto|]. change (norm2 (map (Rmult (/ Rmax 1 (norm2 x))) x) <= 1). rewrite norm2_scale. assert (P := norm2_pos x). assert (Q := inv_max (norm2 x)).
  assert (M1 : 1 <= Rmax 1 (norm2 x)) by apply Rmax_l. assert (M2 : norm2 x <= Rmax 1 (norm2 x)) by apply Rmax_r. apply Rle_trans with ((/ Rmax 1 (norm2 x)) ^ 2 * Rmax 1 (norm2 x)); [apply Rmult_le_compat_l; [nra|auto]|].
  replace ((/ Rmax 1 (norm2 x)) ^ 2 * Rmax 1 (norm2 x)) with (/ Rmax 1 (norm2 x)) by (field; lra). lra.
Qed.
Lemma map_mult_1 x : map (Rmult 1) x = x.
Proof. induction x; cbn; congruence || (rewrite IHx, Rmult_1_l; auto). Qed.
Lemma to_ball_id n x : in_ball n x -> to_ball x = x.
Proof. intros [_ H]. unfold to_ball. fold (norm2 x) in H. rewrite Rmax_left by auto. rewrite Rinv_1. apply map_mult_1. Qed.
Lemma scale_cont n c u : ucont n c -> (forall x, in_cube n x -> 0 <= Rabs (c x) <= 1) -> (forall x, in_cube n x -> in_cube n (u x)) ->
  (forall d x y, close d x y -> close d (u x) (u y)) -> map_cont (in_cube n) (fun x => map (Rmult (c x)) (u x)).
Proof.
  intros U B I L x Hx eps He. destruct (U (eps / 2) ltac:(lra)) as (d & Hd & K). exists (Rmin d (eps / 2)). split; [apply Rmin_pos; lra|]. intros y Hy Hc.
  apply close_le with (eps / 2 + eps / 2); [lra|]. apply close_scale; auto; [apply K; auto; apply (close_le _ _ _ _ (Rmin_l _ _) Hc)|apply (I x Hx)|]. apply L. apply (close_le _ _ _ _ (Rmin_r _ _) Hc).
Qed.
Lemma inv_abs s : 0 <= Rabs (/ Rmax 1 s) <= 1.
Proof. assert (Q := inv_max s). rewrite Rabs_right; lra. Qed.
Lemma to_ball_cont n : map_cont (in_cube n) to_ball.
Proof.
  apply (scale_cont n (fun x => / Rmax 1 (norm2 x)) (fun x => x)); auto.
  - apply (ucont_lip n norm2 (fun s => / Rmax 1 s) inv_max_near). apply ucont_norm2.
  - intros; apply inv_abs.
Qed.
Lemma ball_extend n f : continuous_in (in_ball n) f -> ucont n (fun x => f (to_ball x)).
Proof. intros C. apply continuous_ucont. apply (continuous_comp (in_cube n) (in_ball n)); auto; [apply to_ball_in|apply to_ball_cont]. Qed.
(** *** the retraction of the cube to the simplex *)
Definition pos_part (x : point) : point := map (Rmax 0) x.
Definition to_simplex (x : point) : point := map (Rmult (/ Rmax 1 (Rsum (pos_part x)))) (pos_part x).
Definition in_unit_simplex (n : nat) (x : point) : Prop := length x = n /\ List.Forall (fun t => 0 <= t) x /\ Rsum x <= 1.
Lemma max0_near a b : Rabs (Rmax 0 a - Rmax 0 b) <= Rabs (a - b).
Proof. unfold Rmax. repeat destruct (Rle_dec _ _); unfold Rabs; repeat destruct (Rcase_abs _); lra. Qed.
Lemma Rsum_ge0 l : List.Forall (fun t => 0 <= t) l -> 0 <= Rsum l.
Proof. induction 1; cbn; lra. Qed.
Lemma pos_part_pos x : List.Forall (fun t => 0 <= t) (pos_part x).
Proof. unfold pos_part. apply List.Forall_forall. intros t Ht. apply in_map_iff in Ht. destruct Ht as (u & <- & _). apply Rmax_l. Qed.
Lemma Rsum_scale c (x : list R) : Rsum (map (Rmult c) x) = c * Rsum x.
Proof. induction x as [|t x IH]; cbn [map Rsum]; [ring|]. rewrite IH. ring. Qed.
Lemma to_simplex_in n x : in_cube n x -> in_unit_simplex n (to_simplex x).
Proof.
  intros [L _]. unfold to_simplex. split; [rewrite map_length; unfold pos_part; rewrite map_length; auto|]. assert (P := pos_part_pos x). assert (Q := inv_max (Rsum (pos_part x))). split.
  - rewrite List.Forall_forall in *. intros t Ht. apply in_map_iff in Ht. destruct Ht as (u & <- & Hu). specialize (P u Hu). cbv beta in P. nra.
  - rewrite Rsum_scale. assert (S := Rsum_ge0 _ P). set (s := Rsum (pos_part x)) in *. assert (M1 : 1 <= Rmax 1 s) by apply Rmax_l. assert (M2 : s <= Rmax 1 s) by apply Rmax_r. 
    apply Rle_trans with (/ Rmax 1 s * Rmax 1 s); [apply Rmult_le_compat_l; lra|]. rewrite Rinv_l; lra.
Qed.
Lemma to_simplex_id n x : in_unit_simplex n x -> to_simplex x = x.
Proof.
  intros (L & F & S). unfold to_simplex. assert (E : pos_part x = x). { unfold pos_part. clear - F. induction F; cbn; auto. rewrite IHF, Rmax_right; auto. }
  rewrite E, Rmax_left, Rinv_1 by auto. apply map_mult_1.
Qed.
Lemma in_unit_simplex_cube n x : in_unit_simplex n x -> in_cube n x.
Proof.
  intros (L & F & S). split; auto. clear L. induction F as [|t x Ht F IH]; constructor; cbn [Rsum] in S; assert (P := Rsum_ge0 _ F); [lra|]. apply IH. lra.
Qed.
Lemma to_simplex_cont n : map_cont (in_cube n) to_simplex.
Proof.
  apply (scale_cont n (fun x => / Rmax 1 (Rsum (pos_part x))) pos_part).
  - apply (ucont_lip n (fun x => Rsum (pos_part x)) (fun s => / Rmax 1 s) inv_max_near). apply ucont_Rsum. intros m. apply (ucont_lip (S m) (fun x => hd 0 x) (Rmax 0) max0_near). apply ucont_hd.
  - intros; apply inv_abs.
  - intros x [L F]. split; [unfold pos_part; rewrite map_length; auto|]. unfold pos_part. clear L. induction F; cbn; constructor; auto. unfold Rmax. destruct (Rle_dec _ _); lra.
  - intros d x y H. unfold pos_part. induction H; cbn; constructor; auto. eapply Rle_lt_trans; [apply max0_near|]. auto.
Qed.
Lemma simplex_extend n f : continuous_in (in_unit_simplex n) f -> ucont n (fun x => f (to_simplex x)).
Proof. intros C. apply continuous_ucont. apply (continuous_comp (in_cube n) (in_unit_simplex n)); auto; [apply to_simplex_in|apply to_simplex_cont]. Qed.
(** *** functions on the sphere *)
Definition to_sphere (x : point) : point := map (Rmult (/ sqrt (norm2 x))) x.
Definition sphere_ext_fun (f : point -> R) (x : point) : R := Rmax 0 (2 * norm2 x - 1) * f (to_sphere x).
Lemma to_sphere_on n x : length x = n -> 0 < norm2 x -> on_sphere n (to_sphere x).
Proof.
  intros L P. split; [unfold to_sphere; rewrite map_length; auto|]. change (norm2 (to_sphere x) = 1). unfold to_sphere. rewrite norm2_scale. assert (Q := sqrt_lt_R0 _ P). rewrite <- (pow2_sqrt (norm2 x)) at 2 by lra. field. lra.
Qed.
Lemma sphere_ext_id n f x : on_sphere n x -> sphere_ext_fun f x = f x.
Proof.
  intros [_ H]. unfold sphere_ext_fun, to_sphere. fold (norm2 x) in H. rewrite H, sqrt_1, Rinv_1, map_mult_1. replace (2 * 1 - 1) with 1 by ring. rewrite Rmax_right by lra. ring.
Qed.
Lemma inv_sqrt_near s t : 1 / 4 <= s -> 1 / 4 <= t -> Rabs (/ sqrt s - / sqrt t) <= 4 * Rabs (s - t) /\ 0 < / sqrt s <= 2.
Proof.
  intros Hs Ht. assert (E : sqrt (1 / 4) = 1 / 2) by (replace (1 / 4) with ((1 / 2) ^ 2) by field; apply sqrt_pow2; lra).
  assert (A : 1 / 2 <= sqrt s) by (rewrite <- E; apply sqrt_le_1_alt; auto). assert (B : 1 / 2 <= sqrt t) by (rewrite <- E; apply sqrt_le_1_alt; auto).
  assert (Ia : / sqrt s <= 2) by (replace 2 with (/ (1 / 2)) by field; apply Rinv_le_contravar; lra). assert (Ib : / sqrt t <= 2) by (replace 2 with (/ (1 / 2)) by field; apply Rinv_le_contravar; lra).
  assert (Pa : 0 < / sqrt s) by (apply Rinv_0_lt_compat; lra). assert (Pb : 0 < / sqrt t) by (apply Rinv_0_lt_compat; lra). split; [|lra].
  assert (S : s - t = (sqrt s - sqrt t) * (sqrt s + sqrt t)). { rewrite <- (pow2_sqrt s) at 1 by lra. rewrite <- (pow2_sqrt t) at 1 by lra. ring. }
  assert (K : Rabs (s - t) >= Rabs (sqrt s - sqrt t)). { rewrite S, Rabs_mult, (Rabs_right (sqrt s + sqrt t)) by lra. assert (0 <= Rabs (sqrt s - sqrt t)) by apply Rabs_pos. nra. }
  replace (/ sqrt s - / sqrt t) with (- (sqrt s - sqrt t) * (/ sqrt s * / sqrt t)) by (field; lra). rewrite Rabs_mult, Rabs_Ropp, (Rabs_right (_ * _)) by (apply Rle_ge, Rmult_le_pos; lra).
  assert (/ sqrt s * / sqrt t <= 4) by nra. assert (0 <= / sqrt s * / sqrt t) by nra. assert (0 <= Rabs (sqrt s - sqrt t)) by apply Rabs_pos. nra.
Qed.
Lemma sphere_extend n f : continuous_in (on_sphere n) f -> ucont n (sphere_ext_fun f).
Proof.
  intros C. apply continuous_ucont. intros x Hx eps He. assert (UN := ucont_norm2 n). destruct (ucont_bounded _ _ UN) as (B & HB & BB).
  destruct (Rlt_le_dec (norm2 x) (1 / 2)) as [Hl|Hl].
  - destruct (UN (1 / 2 - norm2 x) ltac:(lra)) as (d & Hd & K). exists d. split; auto. intros y Hy Hc. specialize (K y x Hy Hx Hc). apply Rabs_def2 in K. unfold sphere_ext_fun. rewrite !Rmax_left by lra. rewrite !Rmult_0_l, Rminus_eq_0, Rabs_R0. auto.
  - assert (P := to_sphere_on n x (proj1 Hx) ltac:(lra)). set (F := Rabs (f (to_sphere x))). assert (HF : 0 <= F) by apply Rabs_pos.
    destruct (C _ P (eps / 2 / (2 * B + 1)) ltac:(apply Rdiv_lt_0_compat; lra)) as (d & Hd & K).
    assert (M : exists m, 0 < m /\ m <= 1 / 4 /\ m <= d / 8 /\ m <= eps / 4 / (F + 1)).
    { assert (0 < eps / 4 / (F + 1)) by (apply Rdiv_lt_0_compat; lra). exists (Rmin (1 / 4) (Rmin (d / 8) (eps / 4 / (F + 1)))). split; [repeat apply Rmin_pos; lra|].
      assert (A1 := Rmin_l (1 / 4) (Rmin (d / 8) (eps / 4 / (F + 1)))). assert (A2 := Rmin_r (1 / 4) (Rmin (d / 8) (eps / 4 / (F + 1)))). assert (A3 := Rmin_l (d / 8) (eps / 4 / (F + 1))). assert (A4 := Rmin_r (d / 8) (eps / 4 / (F + 1))). lra. }
    destruct M as (m & Pm & M1 & M2 & M3). destruct (UN m Pm) as (d0 & Hd0 & K0). exists (Rmin d0 (d / 4)). split; [apply Rmin_pos; lra|]. intros y Hy Hc.
    specialize (K0 y x Hy Hx (close_le _ _ _ _ (Rmin_l _ _) Hc)). assert (Hc' := close_le _ _ _ _ (Rmin_r _ _) Hc). apply Rabs_def2 in K0 as K1.
    destruct (inv_sqrt_near (norm2 y) (norm2 x) ltac:(lra) ltac:(lra)) as (I1 & I2).
    assert (Q : Rabs (f (to_sphere y) - f (to_sphere x)) < eps / 2 / (2 * B + 1)).
    { apply K; [apply to_sphere_on; [apply Hy|lra]|]. unfold to_sphere. destruct Hx as [_ Fx]. clear - Hc' Fx I1 I2 K0 M2 Hd.
      set (cy := / sqrt (norm2 y)) in *. set (cx := / sqrt (norm2 x)) in *. assert (J : Rabs (cy - cx) <= d / 2) by lra. clear I1 K0 M2. clearbody cx cy.
      induction Hc' as [|a b y x H0 H IH]; [constructor|]. inversion Fx; subst. cbn. constructor; [|apply IH; auto].
      replace (cy * a - cx * b) with (cy * (a - b) + (cy - cx) * b) by ring. eapply Rle_lt_trans; [apply Rabs_triang|]. rewrite !Rabs_mult. rewrite (Rabs_right cy) by lra. assert (Rabs b <= 1) by (apply Rabs_le; lra).
      assert (0 <= Rabs (a - b)) by apply Rabs_pos. assert (0 <= Rabs (cy - cx)) by apply Rabs_pos. assert (0 <= Rabs b) by apply Rabs_pos. nra. }
    unfold sphere_ext_fun. set (hy := Rmax 0 (2 * norm2 y - 1)). set (hx := Rmax 0 (2 * norm2 x - 1)).
    assert (H1 : 0 <= hy <= 2 * B). { split; [apply Rmax_l|]. apply Rmax_lub; [lra|]. specialize (BB y Hy). apply Rabs_le_between in BB. lra. }
    assert (H2 : Rabs (hy - hx) <= 2 * m). { eapply Rle_trans; [apply max0_near|]. replace (2 * norm2 y - 1 - (2 * norm2 x - 1)) with (2 * (norm2 y - norm2 x)) by ring. rewrite Rabs_mult, (Rabs_right 2) by lra. lra. }
    replace (hy * f (to_sphere y) - hx * f (to_sphere x)) with (hy * (f (to_sphere y) - f (to_sphere x)) + (hy - hx) * f (to_sphere x)) by ring.
    eapply Rle_lt_trans; [apply Rabs_triang|]. rewrite !Rabs_mult. fold F. rewrite (Rabs_right hy) by lra.
    assert (T1 : (2 * B + 1) * Rabs (f (to_sphere y) - f (to_sphere x)) < eps / 2) by (replace (eps / 2) with ((2 * B + 1) * (eps / 2 / (2 * B + 1))) by (field; lra); apply Rmult_lt_compat_l; lra).
    assert (T2 : 2 * m * (F + 1) <= eps / 2). { apply Rle_trans with (2 * (eps / 4 / (F + 1)) * (F + 1)); [apply Rmult_le_compat_r; lra|]. right. field. lra. }
    assert (0 <= Rabs (f (to_sphere y) - f (to_sphere x))) by apply Rabs_pos. assert (0 <= Rabs (hy - hx)) by apply Rabs_pos. nra.
Qed.
