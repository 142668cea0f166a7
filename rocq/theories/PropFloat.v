(** C82: C1Scheme.integrate in floating point arithmetic. *)
From Coq Require Import Reals List Arith ZArith Lia Lra Permutation Psatz.
From Flocq Require Import Core.
From Coquelicot Require Import Coquelicot.
From Verif Require Import Spec Spec1 RsumLemmas IntegralProofs AdaptModel AdaptProofs C1Tools ConvSpec NearProofs FloatSpec FloatModel FloatProofs FloatWit AdaptTerm GwSpec GwModel C1Model ConvProofs PropGw PropConv.
Import ListNotations.
Set Bullet Behavior "Strict Subproofs".
Open Scope R_scope.

(** gamma k is at most 2 k 2^-53 for all k up to 2^52 *)
Theorem C82_gamma : forall k, INR k * u64 <= 1 / 2 -> 0 <= gamma k <= 2 * INR k * u64.
Proof. intros k H. split; [apply gamma_nonneg|apply gamma_bound; auto]. Qed.
Print Assumptions C82_gamma.
(** np.dot in any order and with or without fused operations *)
Theorem C82_dot : forall l s, fl_dot l s ->
  Rabs (s - Rsum (map (fun e => fst e * snd e) l)) <= gamma (length l) * Rsum (map (fun e => Rabs (fst e * snd e)) l) + INR (length l) * (1 + gamma (length l)) * eta64.
Proof. exact dot_error. Qed.
Print Assumptions C82_dot.
(** The value returned, compared with the sum over the points at which the function was called, for every interval of length at least
    2^-500 and every function. *)
Theorem C82_integrate : forall q f a b v, float64 a -> float64 b -> / 2 ^ 500 <= b - a -> fl_integrate q f a b v ->
  let n := length q in let T := map (fun wx => fst wx * f (fl_point a b (snd wx))) q in
  Rabs (v - (b - a) / 2 * Rsum T) <= gamma (n + 5) * ((b - a) / 2 * Rsum (map Rabs T)) + (1 + INR n * (1 + gamma (n + 5)) * ((b - a) / 2)) * eta64.
Proof. intros q f a b v Fa Fb H I n T. apply fl_integrate_error; auto. Qed.
Print Assumptions C82_integrate.
(** The points at which the function is called *)
Theorem C82_points : forall a b x M, float64 x -> -1 <= x <= 1 -> Rabs a <= M -> Rabs b <= M ->
  Rabs (fl_point a b x - to_interval (a, b) x) <= gamma 4 * M + 3 * (1 + M) * eta64.
Proof. exact point_error. Qed.
Print Assumptions C82_points.
Theorem C82_end_points : forall a b, float64 a -> float64 b -> fl_point a b (-1) = a /\ fl_point a b 1 = b.
Proof.
  intros a b Fa Fb. assert (F2 : float64 2). { change 2 with (bpow radix2 1). apply generic_format_bpow. unfold fexp64, FLT_exp. cbn. lia. }
  unfold fl_point. replace (1 - -1) with 2 by ring. replace (1 + -1) with 0 by ring. replace (1 - 1) with 0 by ring. replace (1 + 1) with 2 by ring.
  rewrite (rnd_float 2 F2), rnd_0. replace (0.5 * 2) with 1 by lra. rewrite Rmult_0_r, rnd_0, (rnd_float 1 float_1), !Rmult_0_r, rnd_0, !Rmult_1_r, (rnd_float a Fa), (rnd_float b Fb), Rplus_0_r, Rplus_0_l, (rnd_float a Fa), (rnd_float b Fb). auto.
Qed.
Print Assumptions C82_end_points.
(** ... lie in the interval unless the interval is so short that the rounding errors of the end points matter. *)
Theorem C82_points_inside : forall a b x M, float64 x -> -1 <= x <= 1 -> Rabs a <= M -> Rabs b <= M -> a <= b ->
  gamma 4 * M + 3 * (1 + M) * eta64 <= (1 - Rabs x) / 2 * (b - a) -> a <= fl_point a b x <= b.
Proof.
  intros a b x M Fx Hx Ha Hb H K. assert (E := point_error a b x M Fx Hx Ha Hb). assert (E' := Rle_trans _ _ _ E K). unfold to_interval in E'. cbn [fst snd] in E'.
  assert (A : Rabs x <= 1) by (apply Rabs_le; lra). assert (x <= Rabs x) by apply Rle_abs. assert (- x <= Rabs x) by (rewrite <- Rabs_Ropp; apply Rle_abs). 
  assert (X1 : a <= a * (0.5 * (1 - x)) + b * (0.5 * (1 + x)) - (1 - Rabs x) / 2 * (b - a)) by nra. assert (X2 : a * (0.5 * (1 - x)) + b * (0.5 * (1 + x)) + (1 - Rabs x) / 2 * (b - a) <= b) by nra.
  set (z := a * _ + b * _) in *. assert (Q1 := Rle_abs (fl_point a b x - z)). assert (Q2 := Rle_abs (- (fl_point a b x - z))). rewrite Rabs_Ropp in Q2. lra.
Qed.
Print Assumptions C82_points_inside.
(** A scheme [q] stored with rounded weights and points, a function [f] and a program [fh] that computes it with error at most
    [delta]: the distance between what integrate returns and what it would return in real arithmetic. *)
Theorem C82_scheme : forall q f fh a b v L F delta,
  let n := length q in let M := Rmax (Rabs a) (Rabs b) in let r := gamma 5 * M + 4 * (1 + M) * eta64 in
  float64 a -> float64 b -> / 2 ^ 500 <= b - a -> points_within q ->
  (forall x y, a - r <= x <= b + r -> a - r <= y <= b + r -> Rabs (f x - f y) <= L * Rabs (x - y)) ->
  (forall x, a - r <= x <= b + r -> Rabs (f x) <= F) ->
  (forall x, float64 x -> a - r <= x <= b + r -> Rabs (fh x - f x) <= delta) ->
  fl_integrate (map (fun wx => (rnd (fst wx), rnd (snd wx))) q) fh a b v ->
  Rabs (v - c1_integrate q f (a, b)) <=
    (b - a) / 2 * (weight_sum q * (gamma (n + 6) * (F + delta) + delta + L * r) + INR n * (1 + gamma (n + 6)) * (F + delta + 1) * eta64) + eta64.
Proof.
  intros q f fh a b v L F delta n M r Fa Fb H W HL HF HD HI. assert (U := u64_pos). assert (ET := eta64_pos). assert (P0 : 0 < / 2 ^ 500) by (apply Rinv_0_lt_compat, pow_lt; lra).
  assert (Ha : Rabs a <= M) by apply Rmax_l. assert (Hb : Rabs b <= M) by apply Rmax_r. assert (PM : 0 <= M) by (eapply Rle_trans; [apply Rabs_pos|exact Ha]). assert (G5 := gamma_nonneg 5).
  assert (Pr : 0 <= r) by (unfold r; nra). set (d2 := (b - a) / 2). assert (Hd : 0 < d2) by (unfold d2; lra).
  assert (LP : 0 <= L). { assert (K := HL a b ltac:(lra) ltac:(lra)). assert (K2 := Rabs_pos (f a - f b)). assert (0 < Rabs (a - b)) by (apply Rabs_pos_lt; lra). nra. }
  assert (FD : 0 <= F + delta). { assert (K := HF a ltac:(lra)). assert (K1 := Rabs_pos (f a)). assert (K2 := HD a Fa ltac:(lra)). assert (K3 := Rabs_pos (fh a - f a)). lra. }
  set (pt := fun x => fl_point a b (rnd x)).
  assert (PT : forall wx, In wx q -> a - r <= pt (snd wx) <= b + r /\ Rabs (pt (snd wx) - to_interval (a, b) (snd wx)) <= r).
  { intros wx Hi. unfold points_within in W. rewrite List.Forall_forall in W. specialize (W wx Hi). set (x := snd wx) in *. assert (W' := rnd_range x W). assert (E := point_error a b (rnd x) M (float_rnd x) W' Ha Hb).
    assert (E2 : Rabs (rnd x - x) <= u64 + eta64). { eapply Rle_trans; [apply rnd_err|]. assert (Rabs x <= 1) by (apply Rabs_le; lra). assert (0 <= Rabs x) by apply Rabs_pos. nra. }
    assert (E3 : Rabs (to_interval (a, b) (rnd x) - to_interval (a, b) x) <= M * (u64 + eta64)).
    { unfold to_interval. cbn [fst snd]. replace (_ - _) with (d2 * (rnd x - x)) by (unfold d2; lra). rewrite Rabs_mult, (Rabs_right d2) by lra. apply Rmult_le_compat; [lra|apply Rabs_pos| |exact E2].
      assert (b <= M) by (eapply Rle_trans; [apply Rle_abs|exact Hb]). assert (- a <= M) by (eapply Rle_trans; [apply Rle_abs|]; rewrite Rabs_Ropp; exact Ha). unfold d2. lra. }
    assert (E4 : Rabs (pt x - to_interval (a, b) x) <= r).
    { unfold pt. replace (_ - _) with ((fl_point a b (rnd x) - to_interval (a, b) (rnd x)) + (to_interval (a, b) (rnd x) - to_interval (a, b) x)) by ring. eapply Rle_trans; [apply Rabs_triang|].
      unfold r. rewrite (gamma_S 4). assert (G4 := gamma_nonneg 4). assert (0 <= u64 * gamma 4 * M) by (apply Rmult_le_pos; [apply Rmult_le_pos; lra|lra]). nra. }
    split; auto. assert (T := to_interval_within a b x ltac:(lra) W). unfold Rabs in E4. destruct (Rcase_abs _) in E4; lra. }
  set (qh := map (fun wx => (rnd (fst wx), rnd (snd wx))) q) in *. assert (K := fl_integrate_error qh fh a b v Fa Fb H HI). cbv zeta in K. assert (LQ : length qh = n) by (unfold qh; apply map_length). rewrite LQ in K. fold d2 in K.
  unfold qh in K. rewrite !map_map in K. cbn [fst snd] in K. fold pt in K. change (fun x : R * R => rnd (fst x) * fh (fl_point a b (rnd (snd x)))) with (fun x : R * R => rnd (fst x) * fh (pt (snd x))) in K.
  change (fun x : R * R => Rabs (rnd (fst x) * fh (fl_point a b (rnd (snd x))))) with (fun x : R * R => Rabs (rnd (fst x) * fh (pt (snd x)))) in K.
  set (S1 := Rsum (map (fun x : R * R => rnd (fst x) * fh (pt (snd x))) q)) in *. set (TA := Rsum (map (fun x : R * R => Rabs (rnd (fst x) * fh (pt (snd x)))) q)) in *.
  assert (FH : forall wx, In wx q -> Rabs (fh (pt (snd wx))) <= F + delta /\ Rabs (fh (pt (snd wx)) - f (to_interval (a, b) (snd wx))) <= delta + L * r).
  { intros wx Hi. destruct (PT wx Hi) as (R1 & R2). assert (K1 := HD (pt (snd wx)) (float_rnd _) R1). assert (K2 := HF _ R1). set (y := pt (snd wx)) in *. set (z := to_interval (a, b) (snd wx)) in *. split.
    - replace (fh y) with ((fh y - f y) + f y) by ring. eapply Rle_trans; [apply Rabs_triang|]. lra.
    - replace (fh y - f z) with ((fh y - f y) + (f y - f z)) by ring. eapply Rle_trans; [apply Rabs_triang|]. apply Rplus_le_compat; auto. eapply Rle_trans; [apply HL; auto|apply Rmult_le_compat_l; auto].
      unfold points_within in W. rewrite List.Forall_forall in W. assert (T := to_interval_within a b (snd wx) ltac:(lra) (W wx Hi)). fold z in T. lra. }
  assert (SumN : forall c, Rsum (map (fun _ : R * R => c) q) = INR n * c). { intros c. unfold n. clear. induction q as [|e l IH]; [cbn; ring|]. cbn [map Rsum length]. rewrite IH, S_INR. ring. }
  assert (B1 : TA <= ((1 + u64) * weight_sum q + INR n * eta64) * (F + delta)).
  { unfold TA. apply Rle_trans with (Rsum (map (fun wx => ((1 + u64) * (F + delta)) * Rabs (fst wx) + eta64 * (F + delta)) q)).
    - apply Rsum_le. intros wx Hi. destruct (FH wx Hi) as (H1 & _). rewrite Rabs_mult. apply Rle_trans with (((1 + u64) * Rabs (fst wx) + eta64) * (F + delta)); [|right; ring]. apply Rmult_le_compat; auto using Rabs_pos.
      assert (E := rnd_err (fst wx)). replace (rnd (fst wx)) with ((rnd (fst wx) - fst wx) + fst wx) by ring. eapply Rle_trans; [apply Rabs_triang|]. lra.
    - rewrite Rsum_map_plus, Rsum_map_scal, SumN. unfold weight_sum. right. ring. }
  assert (B2 : Rabs (S1 - Rsum (map (fun wx => fst wx * f (to_interval (a, b) (snd wx))) q)) <= (u64 * weight_sum q + INR n * eta64) * (F + delta) + weight_sum q * (delta + L * r)).
  { unfold S1. replace (_ - _) with (Rsum (map (fun wx => rnd (fst wx) * fh (pt (snd wx)) - fst wx * f (to_interval (a, b) (snd wx))) q)) by (rewrite Rsum_map_minus; auto).
    eapply Rle_trans; [apply Rsum_abs|]. apply Rle_trans with (Rsum (map (fun wx => (u64 * (F + delta) + (delta + L * r)) * Rabs (fst wx) + eta64 * (F + delta)) q)).
    - apply Rsum_le. intros wx Hi. destruct (FH wx Hi) as (H1 & H2). set (y := fh (pt (snd wx))) in *. set (z := f (to_interval (a, b) (snd wx))) in *. set (w := fst wx) in *.
      replace (rnd w * y - w * z) with ((rnd w - w) * y + w * (y - z)) by ring. eapply Rle_trans; [apply Rabs_triang|]. rewrite !Rabs_mult. assert (E := rnd_err w).
      assert (X1 : Rabs (rnd w - w) * Rabs y <= (u64 * Rabs w + eta64) * (F + delta)) by (apply Rmult_le_compat; auto using Rabs_pos). assert (X2 : Rabs w * Rabs (y - z) <= Rabs w * (delta + L * r)) by (apply Rmult_le_compat_l; auto using Rabs_pos). lra.
    - rewrite Rsum_map_plus, Rsum_map_scal, SumN. unfold weight_sum. right. ring. }
  unfold c1_integrate. rewrite interval_length_abs, (Rabs_right (b - a)) by lra. replace (0.5 * (b - a)) with d2 by (unfold d2; lra). set (S2 := Rsum (map (fun wx => fst wx * f (to_interval (a, b) (snd wx))) q)) in *.
  replace (v - d2 * S2) with ((v - d2 * S1) + d2 * (S1 - S2)) by ring. eapply Rle_trans; [apply Rabs_triang|]. rewrite (Rabs_mult d2), (Rabs_right d2) by lra.
  assert (GN := gamma_nonneg (n + 5)). assert (In := pos_INR n). assert (WP : 0 <= weight_sum q). { unfold weight_sum. apply Rsum_nonneg. intros x Hx. apply in_map_iff in Hx. destruct Hx as (e & <- & _). apply Rabs_pos. }
  assert (Y1 : gamma (n + 5) * (d2 * TA) <= gamma (n + 5) * (d2 * (((1 + u64) * weight_sum q + INR n * eta64) * (F + delta)))) by (apply Rmult_le_compat_l; auto; apply Rmult_le_compat_l; lra).
  assert (Y2 : d2 * Rabs (S1 - S2) <= d2 * ((u64 * weight_sum q + INR n * eta64) * (F + delta) + weight_sum q * (delta + L * r))) by (apply Rmult_le_compat_l; lra).
  replace (n + 6)%nat with (S (n + 5)) by lia. rewrite (gamma_S (n + 5)). set (g := gamma (n + 5)) in *.
  apply Rle_trans with (g * (d2 * (((1 + u64) * weight_sum q + INR n * eta64) * (F + delta))) + (1 + INR n * (1 + g) * d2) * eta64 + d2 * ((u64 * weight_sum q + INR n * eta64) * (F + delta) + weight_sum q * (delta + L * r))); [lra|].
  assert (Z : 0 <= d2 * (INR n * (u64 * (1 + g)) * (F + delta + 1) * eta64)) by (repeat apply Rmult_le_pos; lra). nra.
Qed.
Print Assumptions C82_scheme.
(** ... and the distance to the integral, if a polynomial of the degree of the scheme is within [e] of [f]. *)
Theorem C82_total : forall d q f fh a b v L F delta c e,
  let n := length q in let M := Rmax (Rabs a) (Rabs b) in let r := gamma 5 * M + 4 * (1 + M) * eta64 in
  exact1 d q -> points_within q -> float64 a -> float64 b -> / 2 ^ 500 <= b - a -> ex_RInt f a b ->
  (forall x y, a - r <= x <= b + r -> a - r <= y <= b + r -> Rabs (f x - f y) <= L * Rabs (x - y)) ->
  (forall x, a - r <= x <= b + r -> Rabs (f x) <= F) ->
  (forall x, float64 x -> a - r <= x <= b + r -> Rabs (fh x - f x) <= delta) ->
  (length c <= S d)%nat -> (forall x, a <= x <= b -> Rabs (f x - peval c x) <= e) ->
  fl_integrate (map (fun wx => (rnd (fst wx), rnd (snd wx))) q) fh a b v ->
  Rabs (v - RInt f a b) <=
    (b - a) / 2 * (weight_sum q * (gamma (n + 6) * (F + delta) + delta + L * r) + INR n * (1 + gamma (n + 6)) * (F + delta + 1) * eta64) + eta64 + (b - a) / 2 * (2 + weight_sum q) * e.
Proof.
  intros d q f fh a b v L F delta c e n M r X W Fa Fb H I HL HF HD LC HC HI. assert (P0 : 0 < / 2 ^ 500) by (apply Rinv_0_lt_compat, pow_lt; lra).
  assert (K1 := C82_scheme q f fh a b v L F delta Fa Fb H W HL HF HD HI). assert (K2 := C80_error_bound d q a b f c e X W ltac:(lra) I LC HC). fold n M r in K1.
  replace (v - RInt f a b) with ((v - c1_integrate q f (a, b)) + (c1_integrate q f (a, b) - RInt f a b)) by ring. eapply Rle_trans; [apply Rabs_triang|]. lra.
Qed.
Print Assumptions C82_total.
(** The Gauss rule with n points, up to 2^40: the error is at most the best polynomial approximation plus n + 7 roundings of the largest
    value and the error of the points. *)
Theorem C82_gauss_legendre : forall eigh n s f fh a b v L F delta c e, eigen_solver eigh -> (1 <= n)%nat -> gauss_legendre eigh n = Some s -> INR (n + 6) * u64 <= 1 / 100 ->
  let M := Rmax (Rabs a) (Rabs b) in let r := 11 * u64 * M + 4 * (1 + M) * eta64 in
  float64 a -> float64 b -> / 2 ^ 500 <= b - a -> ex_RInt f a b -> 
  (forall x y, a - r <= x <= b + r -> a - r <= y <= b + r -> Rabs (f x - f y) <= L * Rabs (x - y)) ->
  (forall x, a - r <= x <= b + r -> Rabs (f x) <= F) ->
  (forall x, float64 x -> a - r <= x <= b + r -> Rabs (fh x - f x) <= delta) ->
  (length c <= 2 * n)%nat -> (forall x, a <= x <= b -> Rabs (f x - peval c x) <= e) ->
  fl_integrate (map (fun wx => (rnd (fst wx), rnd (snd wx))) (c1_rule s)) fh a b v ->
  Rabs (v - RInt f a b) <= (b - a) * (2 * e + delta + 2 * INR (n + 6) * u64 * (F + delta) + L * r + INR n * (F + delta + 1) * eta64) + eta64.
Proof.
  intros eigh n s f fh a b v L F delta c e HE Hn E HN M r Fa Fb H I HL HF HD LC HC HI. destruct (C33_gauss_legendre eigh n HE Hn) as (s' & E' & _ & LQ & PW & X). rewrite E in E'. injection E' as <-.
  assert (PI : positive_inside (c1_rule s)) by (apply C80_gauss_positive; rewrite LQ; auto). assert (W : points_within (c1_rule s)) by (eapply List.Forall_impl; [|exact PI]; intros wx; cbn; lra).
  assert (WS : weight_sum (c1_rule s) = 2).
  { assert (K := exact1_powers _ _ 0 X ltac:(lia)). unfold apply1, pow_int in K. cbn [Nat.even pow INR] in K. unfold weight_sum. replace (map (fun wx => Rabs (fst wx)) (c1_rule s)) with (map (fun wx => fst wx * 1) (c1_rule s)); [etransitivity; [exact K|lra]|].
    apply map_ext_in. intros wx Hi. rewrite List.Forall_forall in PW. rewrite Rabs_right by (apply Rle_ge, PW; auto). ring. }
  assert (U := u64_pos). assert (ET := eta64_pos). assert (P0 : 0 < / 2 ^ 500) by (apply Rinv_0_lt_compat, pow_lt; lra).
  assert (G5 : gamma 5 <= 11 * u64). { assert (K := gamma_bound 5). cbn [INR] in K. assert (5 * u64 <= 1 / 2); [|lra]. assert (INR 5 <= INR (n + 6)) by (apply le_INR; lia). cbn [INR] in *. nra. }
  assert (PM : 0 <= M) by (unfold M; eapply Rle_trans; [apply Rabs_pos|apply Rmax_l]). set (r' := gamma 5 * M + 4 * (1 + M) * eta64). assert (RR : 0 <= r' <= r) by (assert (G := gamma_nonneg 5); unfold r', r; split; [nra|nra]).
  assert (T : Rabs (v - RInt f a b) <= (b - a) / 2 * (weight_sum (c1_rule s) * (gamma (length (c1_rule s) + 6) * (F + delta) + delta + L * r') + INR (length (c1_rule s)) * (1 + gamma (length (c1_rule s) + 6)) * (F + delta + 1) * eta64) + eta64 + (b - a) / 2 * (2 + weight_sum (c1_rule s)) * e).
  { apply (C82_total (2 * n - 1) (c1_rule s) f fh a b v L F delta c e); auto; fold M; fold r'; try (intros; apply HL; lra); try (intros; apply HF; lra); try (intros; apply HD; auto; lra). lia. }
  rewrite WS, LQ in T. assert (GB := C82_gamma (n + 6) ltac:(lra)).
  assert (LP : 0 <= L). { assert (K := HL a b ltac:(lra) ltac:(lra)). assert (K2 := Rabs_pos (f a - f b)). assert (0 < Rabs (a - b)) by (apply Rabs_pos_lt; lra). nra. }
  assert (FD : 0 <= F + delta). { assert (K := HF a ltac:(lra)). assert (K1 := Rabs_pos (f a)). assert (K2 := HD a Fa ltac:(lra)). assert (K3 := Rabs_pos (fh a - f a)). lra. }
  assert (Y1 : gamma (n + 6) * (F + delta) <= 2 * INR (n + 6) * u64 * (F + delta)) by (apply Rmult_le_compat_r; lra). assert (Y2 : L * r' <= L * r) by (apply Rmult_le_compat_l; lra). assert (In := pos_INR n).
  assert (Y3 : INR n * (1 + gamma (n + 6)) * (F + delta + 1) * eta64 <= INR n * 2 * (F + delta + 1) * eta64). { apply Rmult_le_compat_r; [lra|]. apply Rmult_le_compat_r; [lra|]. apply Rmult_le_compat_l; lra. }
  eapply Rle_trans; [exact T|]. set (g := gamma (n + 6)) in *. set (z := INR n * (1 + g) * (F + delta + 1) * eta64) in *.
  apply Rle_trans with ((b - a) / 2 * (2 * (2 * INR (n + 6) * u64 * (F + delta) + delta + L * r) + INR n * 2 * (F + delta + 1) * eta64) + eta64 + (b - a) / 2 * 4 * e); [|right; field].
  apply Rplus_le_compat; [|lra]. apply Rplus_le_compat_r. apply Rmult_le_compat_l; lra.
Qed.
Print Assumptions C82_gauss_legendre.
(** "The function is only called at points of the interval" is false: with the next number after a as b and the point
    0.8650633666889845 of gauss_legendre(10), the function is called behind b. *)
Theorem C82_points_inside_refuted : exists a b x, float64 a /\ float64 b /\ float64 x /\ a < b /\ -1 < x < 1 /\ b < fl_point a b x.
Proof.
  exists a10, b10, x10. rewrite pt10. repeat split; try (unfold a10, b10, x10; apply float_dyadic; lia); unfold a10, b10, x10; cbn [pow]; lra.
Qed.
Print Assumptions C82_points_inside_refuted.
(** That point is the tenth-order Legendre point to the last bit: the Legendre polynomial changes sign around it. *)
Definition legendre10 (x : R) : R := 46189 * x ^ 10 - 109395 * x ^ 8 + 90090 * x ^ 6 - 30030 * x ^ 4 + 3465 * x ^ 2 - 63.
Example C82_refuted_point : legendre10 (x10 - / 2 ^ 54) < 0 < legendre10 (x10 + / 2 ^ 54) \/ legendre10 (x10 + / 2 ^ 54) < 0 < legendre10 (x10 - / 2 ^ 54).
Proof. unfold legendre10, x10. cbn [pow]. lra. Qed.
(** "The result is accurate for every interval" is false for very short ones: the square of the length underflows and the
    result is 0 for every scheme and every function, however large. *)
Theorem C82_short_refuted : forall q f a b v, a <= b <= a + / 2 ^ 538 -> fl_integrate q f a b v -> v = 0.
Proof. intros q f a b v H (s & _ & ->). rewrite (short_length a b H), Rmult_0_r, rnd_0, Rmult_0_l. apply rnd_0. Qed.
Print Assumptions C82_short_refuted.
Example C82_short_value : c1_integrate [(2, 0)] (fun _ => 2 ^ 540) (0, / 2 ^ 540) = 1.
Proof. assert (P : 0 < 2 ^ 540) by (apply pow_lt; lra). assert (0 < / 2 ^ 540) by (apply Rinv_0_lt_compat; auto). unfold c1_integrate. rewrite interval_length_abs, Rabs_right by lra. cbn [map Rsum fst snd]. rewrite Rminus_0_r. set (p := 2 ^ 540) in *. assert (p * / p = 1) by (apply Rinv_r; lra). lra. Qed.
(** np.dot has a result for every list, so integrate has one for every scheme and function; a rule, a function and an interval that meet
    the hypotheses of C82_scheme *)
Example C82_dot_case : forall l, exists s, fl_dot l s.
Proof. induction l as [|[x y] l [s H]]; [exists 0; constructor|]. exists (rnd (s + x * y)). econstructor; [apply Permutation_refl|exact H]. Qed.
Example C82_integrate_case : forall q f a b, exists v, fl_integrate q f a b v.
Proof. intros q f a b. destruct (C82_dot_case (map (fun wx => (f (fl_point a b (snd wx)), fst wx)) q)) as (s & H). eexists. exists s. split; [exact H|reflexivity]. Qed.
Example C82_scheme_case : float64 0 /\ float64 1 /\ / 2 ^ 500 <= 1 - 0 /\ points_within [(1, -1); (1, 1)] /\ (forall x y : R, Rabs (x - y) <= 1 * Rabs (x - y)) /\ (forall x, float64 x -> Rabs (x - x) <= 0).
Proof.
  split; [apply float_0|]. split; [apply float_1|]. split; [rewrite Rminus_0_r, <- Rinv_1; apply Rinv_le; [lra|apply pow_R1_Rle; lra]|]. split; [repeat constructor; cbn; lra|]. split; [intros; lra|]. intros x _. rewrite Rminus_eq_0, Rabs_R0. lra.
Qed.
