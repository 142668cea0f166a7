(** C83: integrate() over balls, spheres, whole spaces and simplices in floating point arithmetic. *)
From Coq Require Import Reals List Arith ZArith Lia Lra Psatz.
From Coquelicot Require Import Coquelicot.
From Verif Require Import Spec RsumLemmas IntegralSpec SphereSpec RoundSpec GeomModel RoundModel RoundProofs E23Model FloatSpec FloatModel FloatProofs FloatWit FloatRoundModel FloatRoundProofs PropRound PropE23 PropFloat.
Import ListNotations.
Set Bullet Behavior "Strict Subproofs".
Open Scope R_scope.

(** [x] is within [d] of [y] in every coordinate *)
Definition within (d : R) (x y : point) : Prop := Forall2 (fun a b => Rabs (a - b) <= d) x y.
(** [f] is bounded by [F] and Lipschitz continuous with constant [L] on the points within [d] of [c], and the program [fh] computes it there
    with error at most [delta] *)
Definition computes (c : point) (d L F delta : R) (f fh : point -> R) : Prop :=
  (forall x y e, within d x c -> within d y c -> within e x y -> Rabs (f x - f y) <= L * e) /\
  (forall x, within d x c -> Rabs (f x) <= F) /\
  (forall x, List.Forall float64 x -> within d x c -> Rabs (fh x - f x) <= delta).
(** the error of a rule with n points, total weight W (of absolute values) and volume V, after k roundings of the volume: function values up
    to F computed with error eps *)
Definition rule_bound (n k : nat) (W V F eps : R) : R := V * (W * (gamma (n + k + 2) * F + eps) + INR n * (1 + gamma (n + k + 2)) * (F + 1) * eta64) + eta64.
(** the error of the points *)
Definition point_bound (M r : R) : R := gamma 3 * (M + r) + 3 * (1 + r) * eta64.

Lemma fl_round_point_float c r p : List.Forall float64 (fl_round_point c r p).
Proof. unfold fl_round_point. apply List.Forall_forall. intros x Hx. apply in_map_iff in Hx. destruct Hx as (e & <- & _). apply float_rnd. Qed.
Lemma fl_round_dot q fh c r s : fl_dot (List.combine (map fh (map (fun wp => fl_round_point c r (snd wp)) (store q))) (map fst (store q))) s ->
  fl_dot (map (fun wp => (fh (fl_round_point c r (map rnd (snd wp))), rnd (fst wp))) q) s.
Proof. unfold store. rewrite !map_map, combine_map. auto. Qed.
Lemma Forall2_length' {A B} (P : A -> B -> Prop) l m : Forall2 P l m -> length l = length m.
Proof. induction 1; cbn; auto. Qed.
Lemma within_refl d x : 0 <= d -> within d x x.
Proof. intros H. induction x; constructor; auto. rewrite Rminus_eq_0, Rabs_R0. exact H. Qed.
Lemma exact_within c r p e : 0 <= r -> 0 <= e -> List.Forall (fun x => Rabs x <= 1) p -> length c = length p -> within (r + e) (vadd c (vscale r p)) c.
Proof.
  intros Hr He Hp. revert c. induction Hp as [|x p Hx Hp IH]; intros [|y c] L; try discriminate; [constructor|]. injection L as L. unfold vadd, vscale in *. cbn [map List.combine fst snd]. constructor; [|apply IH; auto].
  replace (y + r * x - y) with (r * x) by ring. rewrite Rabs_mult, (Rabs_right r) by lra. nra.
Qed.
Lemma within_trans d e x y z : within d x y -> within e y z -> within (d + e) x z.
Proof.
  intros H. revert z. induction H as [|a b x y Hab H IH]; intros z Hz; inversion Hz; subst; [constructor|]. constructor; [|apply IH; auto].
  replace (a - y0) with ((a - b) + (b - y0)) by ring. eapply Rle_trans; [apply Rabs_triang|]. lra.
Qed.
(** Any of the round domains: [vol] is the volume computed with k roundings, [V] the exact one. *)
Theorem C83_round : forall k vol V q f fh c r v M L F delta,
  near k vol V -> 0 <= V -> 0 <= r -> List.Forall float64 c -> List.Forall (fun x => Rabs x <= M) c -> 0 <= M ->
  (forall wp, In wp q -> length (snd wp) = length c /\ List.Forall (fun x => Rabs x <= 1) (snd wp)) ->
  computes c (r + point_bound M r) L F delta f fh -> fl_round vol (store q) fh c r v ->
  Rabs (v - V * round_dot q f c r) <= rule_bound (length q) k (abs_weights q) V (F + delta) (delta + L * point_bound M r).
Proof.
  intros k vol V q f fh c r v M L F delta NV PV Hr Fc Mc HM Hq (HL & HF & HD) (s & HS & ->). apply fl_round_dot in HS. assert (ET := eta64_pos). assert (G3 := gamma_nonneg 3). set (e := point_bound M r) in *.
  assert (Pe : 0 <= e) by (unfold e, point_bound; nra). assert (Wc : within (r + e) c c) by (apply within_refl; lra).
  assert (PF : 0 <= F + delta). { assert (K1 := HF c Wc). assert (K2 := HD c Fc Wc). assert (Q1 := Rabs_pos (f c)). assert (Q2 := Rabs_pos (fh c - f c)). lra. }
  unfold rule_bound, round_dot. apply (rule_error k vol V q (fun wp => f (vadd c (vscale r (snd wp)))) (fun wp => fh (fl_round_point c r (map rnd (snd wp))))); auto.
  intros wp Hi. destruct (Hq wp Hi) as (HLn & Hp). set (p := snd wp) in *. assert (E : within e (fl_round_point c r (map rnd p)) (vadd c (vscale r p))) by (apply round_point_error; auto).
  assert (WX : within (r + e) (vadd c (vscale r p)) c) by (apply exact_within; auto). assert (WX0 : within r (vadd c (vscale r p)) c). { replace r with (r + 0) at 1 by ring. apply exact_within; auto. lra. }
  assert (WH : within (r + e) (fl_round_point c r (map rnd p)) c) by (rewrite Rplus_comm; eapply within_trans; eauto). set (x := vadd c (vscale r p)) in *. set (y := fl_round_point c r (map rnd p)) in *.
  assert (K1 := HD y (fl_round_point_float _ _ _) WH). assert (K2 := HF y WH). assert (K3 := HL y x e WH WX E). split.
  - replace (fh y) with ((fh y - f y) + f y) by ring. eapply Rle_trans; [apply Rabs_triang|]. lra.
  - replace (fh y - f x) with ((fh y - f y) + (f y - f x)) by ring. eapply Rle_trans; [apply Rabs_triang|]. lra.
Qed.
Print Assumptions C83_round.
(** S2Scheme, S3Scheme, U2Scheme and U3Scheme compute the volume themselves. *)
Theorem C83_disk : forall q f fh c r v M L F delta,
  / 2 ^ 500 <= r -> List.Forall float64 c -> List.Forall (fun x => Rabs x <= M) c -> 0 <= M ->
  (forall wp, In wp q -> length (snd wp) = length c /\ List.Forall (fun x => Rabs x <= 1) (snd wp)) ->
  computes c (r + point_bound M r) L F delta f fh -> fl_s2_integrate (store q) fh c r v ->
  Rabs (v - s2_integrate q f c r) <= rule_bound (length q) 3 (abs_weights q) (PI * r ^ 2) (F + delta) (delta + L * point_bound M r).
Proof.
  intros q f fh c r v M L F delta Hr Fc Mc HM Hq HC HI. assert (P : 0 < / 2 ^ 500) by (apply Rinv_0_lt_compat, pow_lt; lra). assert (K := PI_1).
  unfold s2_integrate. eapply C83_round; eauto; [apply s2_vol; auto|apply Rmult_le_pos; [lra|apply pow2_ge_0]|lra].
Qed.
Print Assumptions C83_disk.
Theorem C83_ball : forall q f fh c r v M L F delta,
  / 2 ^ 300 <= r -> List.Forall float64 c -> List.Forall (fun x => Rabs x <= M) c -> 0 <= M ->
  (forall wp, In wp q -> length (snd wp) = length c /\ List.Forall (fun x => Rabs x <= 1) (snd wp)) ->
  computes c (r + point_bound M r) L F delta f fh -> fl_s3_integrate (store q) fh c r v ->
  Rabs (v - s3_integrate q f c r) <= rule_bound (length q) 6 (abs_weights q) (4 / 3 * PI * r ^ 3) (F + delta) (delta + L * point_bound M r).
Proof.
  intros q f fh c r v M L F delta Hr Fc Mc HM Hq HC (cube & HP & HI). assert (P : 0 < / 2 ^ 300) by (apply Rinv_0_lt_compat, pow_lt; lra). assert (K := PI_1).
  unfold s3_integrate. eapply C83_round; eauto; [apply s3_vol; auto|apply Rmult_le_pos; [lra|apply pow_le; lra]|lra].
Qed.
Print Assumptions C83_ball.
Theorem C83_circle : forall q f fh c r v M L F delta,
  / 2 ^ 500 <= r -> List.Forall float64 c -> List.Forall (fun x => Rabs x <= M) c -> 0 <= M ->
  (forall wp, In wp q -> length (snd wp) = length c /\ List.Forall (fun x => Rabs x <= 1) (snd wp)) ->
  computes c (r + point_bound M r) L F delta f fh -> fl_u2_integrate (store q) fh c r v ->
  Rabs (v - u2_integrate q f c r) <= rule_bound (length q) 3 (abs_weights q) (2 * PI * r) (F + delta) (delta + L * point_bound M r).
Proof.
  intros q f fh c r v M L F delta Hr Fc Mc HM Hq HC HI. assert (P : 0 < / 2 ^ 500) by (apply Rinv_0_lt_compat, pow_lt; lra). assert (K := PI_1).
  unfold u2_integrate. eapply C83_round; eauto; [apply u2_vol; auto|nra|lra].
Qed.
Print Assumptions C83_circle.
Theorem C83_sphere : forall q f fh c r v M L F delta,
  / 2 ^ 500 <= r -> List.Forall float64 c -> List.Forall (fun x => Rabs x <= M) c -> 0 <= M ->
  (forall wp, In wp q -> length (snd wp) = length c /\ List.Forall (fun x => Rabs x <= 1) (snd wp)) ->
  computes c (r + point_bound M r) L F delta f fh -> fl_u3_integrate (store q) fh c r v ->
  Rabs (v - u3_integrate q f c r) <= rule_bound (length q) 4 (abs_weights q) (4 * PI * r ^ 2) (F + delta) (delta + L * point_bound M r).
Proof.
  intros q f fh c r v M L F delta Hr Fc Mc HM Hq HC HI. assert (P : 0 < / 2 ^ 500) by (apply Rinv_0_lt_compat, pow_lt; lra). assert (K := PI_1).
  unfold u3_integrate. eapply C83_round; eauto; [apply u3_vol; auto|apply Rmult_le_pos; [lra|apply pow2_ge_0]|lra].
Qed.
Print Assumptions C83_sphere.
(** Hence the distance to the integral of a polynomial of the degree of the rule, here over a disk and over a sphere *)
Theorem C83_disk_polynomial : forall d q p fh c r v M L F delta, points_in_dim 2 q ->
  (forall k, length k = 2%nat -> (tdeg k <= d)%nat -> apply q (mono k) = ball_mean 2 (mono k)) -> mp_ok 2 d p -> length c = 2%nat ->
  / 2 ^ 500 <= r -> List.Forall float64 c -> List.Forall (fun x => Rabs x <= M) c -> 0 <= M ->
  (forall wp, In wp q -> List.Forall (fun x => Rabs x <= 1) (snd wp)) ->
  computes c (r + point_bound M r) L F delta (mpeval p) fh -> fl_s2_integrate (store q) fh c r v ->
  Rabs (v - ball_int_at c r (mpeval p)) <= rule_bound (length q) 3 (abs_weights q) (PI * r ^ 2) (F + delta) (delta + L * point_bound M r).
Proof.
  intros d q p fh c r v M L F delta HD HM Hp Lc Hr Fc Mc PM Hq HC HI. assert (P : 0 < / 2 ^ 500) by (apply Rinv_0_lt_compat, pow_lt; lra).
  assert (E := C43_disk_and_ball3 d q c r p 2 (or_introl eq_refl) HD HM Lc ltac:(lra) Hp). cbn [Nat.eqb] in E. rewrite <- E. apply C83_disk with (fh := fh); auto. intros wp Hi. split; auto.
  unfold points_in_dim in HD. rewrite List.Forall_forall in HD. rewrite Lc. apply HD. exact Hi.
Qed.
Print Assumptions C83_disk_polynomial.
Theorem C83_sphere_polynomial : forall d q p fh c r v M L F delta, points_in_dim 3 q ->
  (forall k, length k = 3%nat -> (tdeg k <= d)%nat -> apply q (mono k) = sphere_mean 3 (mono k)) -> mp_ok 3 d p -> length c = 3%nat ->
  / 2 ^ 500 <= r -> List.Forall float64 c -> List.Forall (fun x => Rabs x <= M) c -> 0 <= M ->
  (forall wp, In wp q -> List.Forall (fun x => Rabs x <= 1) (snd wp)) ->
  computes c (r + point_bound M r) L F delta (mpeval p) fh -> fl_u3_integrate (store q) fh c r v ->
  Rabs (v - sphere_int_at c r (mpeval p)) <= rule_bound (length q) 4 (abs_weights q) (4 * PI * r ^ 2) (F + delta) (delta + L * point_bound M r).
Proof.
  intros d q p fh c r v M L F delta HD HM Hp Lc Hr Fc Mc PM Hq HC HI.
  assert (E := C43_circle_and_sphere2 d q c r p 3 (or_intror eq_refl) HD HM Lc Hp). cbn [Nat.eqb] in E. rewrite <- E. apply C83_sphere with (fh := fh); auto. intros wp Hi. split; auto.
  unfold points_in_dim in HD. rewrite List.Forall_forall in HD. rewrite Lc. apply HD. exact Hi.
Qed.
Print Assumptions C83_sphere_polynomial.
(** SnScheme and UnScheme get the volume from the package ndim; [k] is the number of roundings it needs. *)
Theorem C83_nball : forall n k vol q f fh c r v M L F delta,
  near k vol (ball_int n r (fun _ => 1)) -> 0 <= ball_int n r (fun _ => 1) -> 0 <= r -> List.Forall float64 c -> List.Forall (fun x => Rabs x <= M) c -> 0 <= M ->
  (forall wp, In wp q -> length (snd wp) = length c /\ List.Forall (fun x => Rabs x <= 1) (snd wp)) ->
  computes c (r + point_bound M r) L F delta f fh -> fl_round vol (store q) fh c r v ->
  Rabs (v - sn_integrate n q f c r) <= rule_bound (length q) k (abs_weights q) (ball_int n r (fun _ => 1)) (F + delta) (delta + L * point_bound M r).
Proof. intros n k vol q f fh c r v M L F delta. unfold sn_integrate. apply C83_round. Qed.
Print Assumptions C83_nball.
Theorem C83_nsphere : forall n k vol q f fh c r v M L F delta, let V := r ^ (n - 1) * sphere_int n (fun _ => 1) in
  near k vol V -> 0 <= V -> 0 <= r -> List.Forall float64 c -> List.Forall (fun x => Rabs x <= M) c -> 0 <= M ->
  (forall wp, In wp q -> length (snd wp) = length c /\ List.Forall (fun x => Rabs x <= 1) (snd wp)) ->
  computes c (r + point_bound M r) L F delta f fh -> fl_round vol (store q) fh c r v ->
  Rabs (v - un_integrate n q f c r) <= rule_bound (length q) k (abs_weights q) V (F + delta) (delta + L * point_bound M r).
Proof. intros n k vol q f fh c r v M L F delta V. unfold un_integrate. apply C83_round. Qed.
Print Assumptions C83_nsphere.
(** Whole spaces: the function is called at the stored points, with values up to F and errors up to eps against the exact points. *)
Theorem C83_space : forall k vol V q f fh v F eps, near k vol V -> 0 <= V -> 0 <= F ->
  (forall wp, In wp q -> Rabs (fh (map rnd (snd wp))) <= F /\ Rabs (fh (map rnd (snd wp)) - f (snd wp)) <= eps) ->
  fl_space vol (store q) fh v -> Rabs (v - V * Rsum (map (fun wp => f (snd wp) * fst wp) q)) <= rule_bound (length q) k (abs_weights q) V F eps.
Proof.
  intros k vol V q f fh v F eps NV PV PF HG (s & HS & ->). unfold store in HS. rewrite !map_map, combine_map in HS. cbn [fst snd] in HS.
  replace (map (fun wp => f (snd wp) * fst wp) q) with (map (fun wp => fst wp * f (snd wp)) q) by (apply map_ext; intros; ring).
  apply (rule_error k vol V q (fun wp => f (snd wp)) (fun wp => fh (map rnd (snd wp)))); auto.
Qed.
Print Assumptions C83_space.
Theorem C83_plane_and_space : forall q f fh v F eps, 0 <= F ->
  (forall wp, In wp q -> Rabs (fh (map rnd (snd wp))) <= F /\ Rabs (fh (map rnd (snd wp)) - f (snd wp)) <= eps) ->
  let B := fun k V => rule_bound (length q) k (abs_weights q) V F eps in
  (fl_e2r_integrate (store q) fh v -> Rabs (v - e2r_integrate q f) <= B 2%nat (2 * PI)) /\
  (fl_e2r2_integrate (store q) fh v -> Rabs (v - e2r2_integrate q f) <= B 1%nat PI) /\
  (fl_e3r_integrate (store q) fh v -> Rabs (v - e3r_integrate q f) <= B 2%nat (8 * PI)) /\
  (fl_e3r2_integrate (store q) fh v -> Rabs (v - e3r2_integrate q f) <= B 8%nat (sqrt PI ^ 3)).
Proof.
  intros q f fh v F eps PF HG B. assert (K := PI_1). unfold e2r_integrate, e2r2_integrate, e3r_integrate, e3r2_integrate. split; [|split; [|split]].
  - intros H. eapply C83_space; eauto; [apply scaled_pi_near|]; lra.
  - intros H. eapply C83_space; eauto; [apply pi_near|]; lra.
  - intros H. eapply C83_space; eauto; [apply scaled_pi_near|]; lra.
  - intros (cube & HC & H). eapply C83_space; eauto; [apply e3r2_vol; auto|]. apply pow_le, sqrt_pos.
Qed.
Print Assumptions C83_plane_and_space.
(** Simplices: the value, for a volume accurate to k roundings ... *)
Theorem C83_simplex : forall k vol V q f simplex v, near k vol V -> 0 <= V -> fl_tn_integrate vol q f simplex v ->
  exists xs, Forall2 (fun wp x => length x = length (hd [] simplex) /\ fl_bary simplex (snd wp) x) q xs /\
  let n := length q in let T := map (fun e => fst (fst e) * f (snd e)) (List.combine q xs) in
  Rabs (v - V * Rsum T) <= gamma (n + k + 1) * (V * Rsum (map Rabs T)) + (1 + INR n * (1 + gamma (n + k + 1)) * V) * eta64.
Proof.
  intros k vol V q f simplex v NV PV (xs & HX & s & HS & ->). exists xs. split; auto. intros n T. assert (K := vol_dot_error k vol V _ s NV PV HS). cbv zeta in K.
  assert (L := Forall2_length' _ _ _ HX). assert (M0 : length (List.combine (map f xs) (map fst q)) = n) by (rewrite combine_length, !map_length; unfold n, point in *; lia). rewrite M0 in K.
  assert (E : forall (g : R * R -> R) (h : R * point * point -> R), (forall w p x, g (f x, w) = h (w, p, x)) -> map g (List.combine (map f xs) (map fst q)) = map h (List.combine q xs)).
  { intros g h E. clear - E L. revert xs L. induction q as [|[w p] l IH]; intros [|x xs] L; try discriminate; [reflexivity|]. cbn [map List.combine fst]. rewrite (E w p x), IH by (injection L; auto). reflexivity. }
  unfold prods, abs_prods in K. rewrite (E _ (fun e => fst (fst e) * f (snd e))) in K by (intros; cbn [fst snd]; ring). rewrite (E _ (fun e => Rabs (fst (fst e) * f (snd e)))) in K by (intros; cbn [fst snd]; f_equal; ring).
  unfold T. rewrite map_map. exact K.
Qed.
Print Assumptions C83_simplex.
(** ... and the points. *)
Theorem C83_simplex_points : forall simplex lam x i, fl_bary simplex lam x -> (i < length (hd [] simplex))%nat -> length lam = length simplex ->
  let n := length simplex in
  Rabs (nth i x 0 - nth i (bary_map simplex lam) 0) <= gamma n * Rsum (map (fun e => Rabs (fst e * nth i (snd e) 0)) (List.combine lam simplex)) + INR n * (1 + gamma n) * eta64.
Proof. exact bary_error. Qed.
Print Assumptions C83_simplex_points.
(** "The result is accurate for every radius" is false: the area of a disk of radius up to 2^-539 is computed as 0, so the result is 0 for
    every function. *)
Theorem C83_tiny_disk_refuted : forall q f c r v, 0 <= r <= / 2 ^ 539 -> fl_s2_integrate q f c r v \/ fl_u3_integrate q f c r v -> v = 0.
Proof.
  intros q f c r v H. assert (P : 0 < / 2 ^ 539) by (apply Rinv_0_lt_compat, pow_lt; lra). assert (P8 : / 2 ^ 539 <= / 2 ^ 538) by (apply small_pow; lia).
  assert (Z : rnd (r * r) = 0). { apply Rle_antisym; [rewrite <- tiny_square|rewrite <- rnd_0]; apply rnd_le; nra. }
  intros [(s & _ & ->)|(s & _ & ->)]; rewrite Z, Rmult_0_r, rnd_0, Rmult_0_l; apply rnd_0.
Qed.
Print Assumptions C83_tiny_disk_refuted.
(** The midpoint rule of the disk, a function, a centre and a radius meet the hypotheses of C83_disk; the computation has a result. *)
Example C83_disk_case : / 2 ^ 500 <= 1 /\ List.Forall float64 [0; 1] /\ List.Forall (fun x => Rabs x <= 1) [0; 1] /\
  (forall wp, In wp [(1, [0; 0])] -> length (snd wp) = length [0; 1] /\ List.Forall (fun x => Rabs x <= 1) (snd wp)) /\
  computes [0; 1] (1 + point_bound 1 1) 1 (2 + point_bound 1 1) 0 (fun x => nth 0 x 0) (fun x => nth 0 x 0) /\
  exists v, fl_s2_integrate (store [(1, [0; 0])]) (fun x => nth 0 x 0) [0; 1] 1 v.
Proof.
  assert (G := gamma_nonneg 3). assert (ET := eta64_pos). assert (A0 := Rabs_R0). assert (A1 := Rabs_R1).
  split; [replace 1 with (/ 2 ^ 0) by (cbn; lra); apply small_pow; lia|]. split; [repeat constructor; auto using float_0, float_1|]. split; [repeat constructor; lra|].
  split; [intros wp [<-|[]]; split; [reflexivity|repeat constructor; cbn; lra]|]. split.
  - split; [|split].
    + intros x y e Hx Hy H. inversion H as [|a b x' y' Hab H']; subst; cbn [nth]; [inversion Hx|]. lra.
    + intros x Hx. inversion Hx as [|a b x' y' Hab H']; subst. cbn [nth]. rewrite Rminus_0_r in Hab. lra.
    + intros x _ _. rewrite Rminus_eq_0, Rabs_R0. lra.
  - destruct (C82_dot_case (List.combine (map (fun x => nth 0 x 0) (map (fun wp => fl_round_point [0; 1] 1 (snd wp)) (store [(1, [0; 0])]))) (map fst (store [(1, [0; 0])])))) as (s & H). eexists. exists s. split; [exact H|reflexivity].
Qed.
(** every simplex and scheme has a result *)
Example C83_simplex_case : forall vol q f simplex, exists v, fl_tn_integrate vol q f simplex v.
Proof.
  intros vol q f simplex. assert (X : forall lam, exists x, length x = length (hd [] simplex) /\ fl_bary simplex lam x).
  { intros lam. unfold fl_bary. set (d := length (hd [] simplex)). assert (Y : forall m, exists x, length x = m /\ forall i, (i < m)%nat -> fl_dot (List.combine (map (fun vtx => nth i vtx 0) simplex) lam) (nth i x 0)).
    { induction m as [|m (x & Lx & Hx)]; [exists []; split; [reflexivity|intros i Hi; lia]|]. destruct (C82_dot_case (List.combine (map (fun vtx => nth m vtx 0) simplex) lam)) as (s & Hs). exists (x ++ [s]). split; [rewrite app_length; cbn; lia|].
      intros i Hi. destruct (Nat.eq_dec i m) as [->|N]; [rewrite app_nth2, Lx, Nat.sub_diag by lia; exact Hs|rewrite app_nth1 by lia; apply Hx; lia]. }
    apply Y. }
  assert (XS : exists xs, Forall2 (fun (wp : R * point) x => length x = length (hd [] simplex) /\ fl_bary simplex (snd wp) x) q xs).
  { induction q as [|wp q (xs & IH)]; [exists []; constructor|]. destruct (X (snd wp)) as (x & Hx). exists (x :: xs). constructor; auto. }
  destruct XS as (xs & HX). destruct (C82_dot_case (List.combine (map f xs) (map fst q))) as (s & H). eexists. exists xs. split; [exact HX|]. exists s. split; [exact H|reflexivity].
Qed.
