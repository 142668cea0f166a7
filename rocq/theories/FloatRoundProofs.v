From Coq Require Import Reals List ZArith Lia Lra Psatz.
From Verif Require Import Spec RsumLemmas NearProofs GeomModel RoundModel FloatSpec FloatModel FloatProofs FloatRoundModel.
Import ListNotations.
Set Bullet Behavior "Strict Subproofs".
Open Scope R_scope.

Definition abs_weights (q : rule) : R := Rsum (map (fun wp => Rabs (fst wp)) q).
Lemma combine_map {A} (f g : A -> R) l : List.combine (map f l) (map g l) = map (fun a => (f a, g a)) l.
Proof. induction l as [|a l IH]; cbn; [auto|]. rewrite IH. reflexivity. Qed.
(** volume times dot product *)
Lemma vol_dot_error k h V l s : near k h V -> 0 <= V -> fl_dot l s -> let n := length l in
  Rabs (rnd (h * s) - V * Rsum (prods l)) <= gamma (n + k + 1) * (V * Rsum (abs_prods l)) + (1 + INR n * (1 + gamma (n + k + 1)) * V) * eta64.
Proof.
  intros NH PV HS n. assert (D := dot_error _ _ HS). fold n in D. assert (AT := sum_abs l). assert (PT := abs_prods_nonneg l). set (S1 := Rsum (prods l)) in *. set (TA := Rsum (abs_prods l)) in *.
  assert (U := u64_pos). assert (ET := eta64_pos). assert (AH := near_abs _ _ _ NH). unfold near in NH. rewrite (Rabs_right V) in * by lra. assert (R1 := rnd_err (h * s)). rewrite Rabs_mult in R1.
  set (E0 := Rabs (s - S1)) in *. assert (PE : 0 <= E0) by apply Rabs_pos.
  assert (AS : Rabs s <= E0 + TA). { replace s with ((s - S1) + S1) by ring. eapply Rle_trans; [apply Rabs_triang|]. unfold E0. lra. }
  assert (Gk := gamma_nonneg k). assert (Gn := gamma_nonneg n). assert (PH := Rabs_pos h). assert (PS := Rabs_pos s). assert (In := pos_INR n).
  replace (rnd (h * s) - V * S1) with ((rnd (h * s) - h * s) + (h * (s - S1) + (h - V) * S1)) by ring.
  eapply Rle_trans; [apply Rabs_triang|]. eapply Rle_trans; [apply Rplus_le_compat; [exact R1|apply Rabs_triang]|]. rewrite !Rabs_mult. fold E0.
  assert (X1 : Rabs (h - V) * Rabs S1 <= gamma k * V * TA) by (apply Rmult_le_compat; auto using Rabs_pos).
  assert (X2 : Rabs h * E0 <= (1 + gamma k) * V * E0) by (apply Rmult_le_compat_r; auto).
  assert (X3 : Rabs h * Rabs s <= (1 + gamma k) * V * (E0 + TA)) by (apply Rmult_le_compat; auto).
  apply Rle_trans with ((1 + u64) * (1 + gamma k) * V * E0 + (u64 * (1 + gamma k) + gamma k) * V * TA + eta64); [nra|].
  assert (G5 : (1 + u64) * (1 + gamma k) = 1 + gamma (1 + k)) by (rewrite <- gamma_1; apply (gamma_plus 1 k)). replace (u64 * (1 + gamma k) + gamma k) with (gamma (1 + k)) by lra. rewrite G5. set (g1 := gamma (1 + k)) in *. assert (G1 : 0 <= g1) by apply gamma_nonneg.
  assert (X4 : (1 + g1) * V * E0 <= (1 + g1) * V * (gamma n * TA + INR n * (1 + gamma n) * eta64)) by (apply Rmult_le_compat_l; [nra|exact D]).
  assert (GN := gamma_plus n (1 + k)). replace (n + (1 + k))%nat with (n + k + 1)%nat in GN by lia. fold g1 in GN. apply Rle_trans with ((1 + g1) * V * (gamma n * TA + INR n * (1 + gamma n) * eta64) + g1 * V * TA + eta64); [lra|].
  right. replace (gamma (n + k + 1)) with ((1 + gamma n) * (1 + g1) - 1) by lra. ring.
Qed.
(** ... with rounded weights and a function computed with an error *)
Lemma rule_error k h V (q : rule) (g gh : R * point -> R) F eps s : near k h V -> 0 <= V -> 0 <= F ->
  (forall wp, In wp q -> Rabs (gh wp) <= F /\ Rabs (gh wp - g wp) <= eps) ->
  fl_dot (map (fun wp => (gh wp, rnd (fst wp))) q) s -> let n := length q in
  Rabs (rnd (h * s) - V * Rsum (map (fun wp => fst wp * g wp) q)) <= V * (abs_weights q * (gamma (n + k + 2) * F + eps) + INR n * (1 + gamma (n + k + 2)) * (F + 1) * eta64) + eta64.
Proof.
  intros NH PV PF HG HS n. assert (K := vol_dot_error k h V _ s NH PV HS). cbv zeta in K. rewrite map_length in K. fold n in K. unfold prods, abs_prods in K. rewrite !map_map in K. cbn [fst snd] in K.
  assert (U := u64_pos). assert (ET := eta64_pos).
  set (S1 := Rsum (map (fun x : R * point => gh x * rnd (fst x)) q)) in *. set (TA := Rsum (map (fun x : R * point => Rabs (gh x * rnd (fst x))) q)) in *.
  assert (SumN : forall c, Rsum (map (fun _ : R * point => c) q) = INR n * c). { intros c. unfold n. clear. induction q as [|e l IH]; [cbn; ring|]. cbn [map Rsum length]. rewrite IH, S_INR. ring. }
  set (W := abs_weights q) in *.
  assert (B1 : TA <= ((1 + u64) * W + INR n * eta64) * F).
  { unfold TA. apply Rle_trans with (Rsum (map (fun wx : R * point => ((1 + u64) * F) * Rabs (fst wx) + eta64 * F) q)).
    - apply Rsum_le. intros wx Hi. destruct (HG wx Hi) as (H1 & _). rewrite Rabs_mult. apply Rle_trans with (F * ((1 + u64) * Rabs (fst wx) + eta64)); [|right; ring]. apply Rmult_le_compat; auto using Rabs_pos.
      assert (E := rnd_err (fst wx)). replace (rnd (fst wx)) with ((rnd (fst wx) - fst wx) + fst wx) by ring. eapply Rle_trans; [apply Rabs_triang|]. lra.
    - rewrite Rsum_map_plus, Rsum_map_scal, SumN. unfold W, abs_weights. right. ring. }
  set (S2 := Rsum (map (fun wp : R * point => fst wp * g wp) q)).
  assert (B2 : Rabs (S1 - S2) <= (u64 * W + INR n * eta64) * F + W * eps).
  { unfold S1, S2. replace (_ - _) with (Rsum (map (fun wx : R * point => gh wx * rnd (fst wx) - fst wx * g wx) q)) by (rewrite Rsum_map_minus; auto).
    eapply Rle_trans; [apply Rsum_abs|]. apply Rle_trans with (Rsum (map (fun wx : R * point => (u64 * F + eps) * Rabs (fst wx) + eta64 * F) q)).
    - apply Rsum_le. intros wx Hi. destruct (HG wx Hi) as (H1 & H2). set (y := gh wx) in *. set (z := g wx) in *. set (w := fst wx) in *.
      replace (y * rnd w - w * z) with ((rnd w - w) * y + w * (y - z)) by ring. eapply Rle_trans; [apply Rabs_triang|]. rewrite !Rabs_mult. assert (E := rnd_err w).
      assert (X1 : Rabs (rnd w - w) * Rabs y <= (u64 * Rabs w + eta64) * F) by (apply Rmult_le_compat; auto using Rabs_pos). assert (X2 : Rabs w * Rabs (y - z) <= Rabs w * eps) by (apply Rmult_le_compat_l; auto using Rabs_pos). lra.
    - rewrite Rsum_map_plus, Rsum_map_scal, SumN. unfold W, abs_weights. right. ring. }
  replace (rnd (h * s) - V * S2) with ((rnd (h * s) - V * S1) + V * (S1 - S2)) by ring. eapply Rle_trans; [apply Rabs_triang|]. rewrite (Rabs_mult V), (Rabs_right V) by lra.
  assert (GN := gamma_nonneg (n + k + 1)). assert (In := pos_INR n). assert (WP : 0 <= W). { unfold W, abs_weights. apply Rsum_nonneg. intros x Hx. apply in_map_iff in Hx. destruct Hx as (e & <- & _). apply Rabs_pos. }
  assert (Y1 : gamma (n + k + 1) * (V * TA) <= gamma (n + k + 1) * (V * (((1 + u64) * W + INR n * eta64) * F))) by (apply Rmult_le_compat_l; auto; apply Rmult_le_compat_l; lra).
  assert (Y2 : V * Rabs (S1 - S2) <= V * ((u64 * W + INR n * eta64) * F + W * eps)) by (apply Rmult_le_compat_l; lra).
  replace (n + k + 2)%nat with (S (n + k + 1)) by lia. rewrite (gamma_S (n + k + 1)). set (gg := gamma (n + k + 1)) in *.
  apply Rle_trans with (gg * (V * (((1 + u64) * W + INR n * eta64) * F)) + (1 + INR n * (1 + gg) * V) * eta64 + V * ((u64 * W + INR n * eta64) * F + W * eps)); [lra|].
  assert (Z : 0 <= V * (INR n * (u64 * (1 + gg)) * (F + 1) * eta64)) by (repeat apply Rmult_le_pos; lra). nra.
Qed.
(** *** volumes *)
Lemma near_rnd k x y : near k x y -> / 2 ^ 1022 <= Rabs x -> near (S k) (rnd x) y.
Proof. intros H N. apply (near_trans 1 k _ x); auto. apply near_1, rnd_err_normal. exact N. Qed.
Lemma near_mult j k x y z w : near j x y -> near k z w -> near (j + k) (x * z) (y * w).
Proof.
  intros H1 H2. assert (A := near_abs _ _ _ H2). unfold near in *. replace (x * z - y * w) with ((x - y) * z + y * (z - w)) by ring. eapply Rle_trans; [apply Rabs_triang|]. rewrite !Rabs_mult.
  assert (G := gamma_plus j k). assert (P := gamma_nonneg j). assert (P2 := gamma_nonneg k). assert (Q := Rabs_pos w). assert (Q2 := Rabs_pos y). 
  apply Rle_trans with ((gamma j * Rabs y) * ((1 + gamma k) * Rabs w) + Rabs y * (gamma k * Rabs w)).
  - apply Rplus_le_compat; [apply Rmult_le_compat; auto using Rabs_pos|apply Rmult_le_compat_l; auto].
  - right. replace (gamma (j + k)) with ((1 + gamma j) * (1 + gamma k) - 1) by lra. ring.
Qed.
Lemma near_scale c k x y : near k x y -> near k (c * x) (c * y).
Proof. unfold near. intros H. replace (c * x - c * y) with (c * (x - y)) by ring. rewrite !Rabs_mult. assert (P := Rabs_pos c). nra. Qed.
Lemma near_refl x : near 0 x x. Proof. unfold near. rewrite gamma_0, Rminus_eq_0, Rabs_R0. lra. Qed.
Lemma near_mono j k x y : (j <= k)%nat -> near j x y -> near k x y.
Proof. unfold near. intros H N. eapply Rle_trans; [exact N|]. apply Rmult_le_compat_r; [apply Rabs_pos|apply gamma_mono; auto]. Qed.
Lemma gamma_small k : (k <= 16)%nat -> gamma k <= 1 / 2.
Proof.
  intros H. assert (K := u64_small). assert (U := u64_pos). assert (I : INR k <= 16) by (replace 16 with (INR 16) by (cbn; lra); apply le_INR; auto). assert (P := pos_INR k). assert (1 / 2 ^ 20 <= 1 / 100) by (cbn [pow]; lra).
  assert (G := gamma_bound k ltac:(nra)). nra.
Qed.
Lemma near_half_low k x y : (k <= 16)%nat -> near k x y -> Rabs y / 2 <= Rabs x.
Proof. intros H N. assert (K := near_low _ _ _ N). assert (G := gamma_small k H). assert (P := Rabs_pos y). nra. Qed.
Lemma near_pos k x y : (k <= 16)%nat -> 0 < y -> near k x y -> 0 < x.
Proof.
  intros H P N. assert (G := gamma_small k H). unfold near in N. rewrite (Rabs_right y) in N by lra. assert (y - x <= gamma k * y) by (eapply Rle_trans; [apply Rle_abs|rewrite Rabs_minus_sym; exact N]). nra.
Qed.
(** a rounded value stays accurate while it is far from underflow *)
Lemma near_rnd_low k m x y : (k <= 16)%nat -> near k x y -> (m < 1022)%nat -> / 2 ^ m <= Rabs y -> near (S k) (rnd x) y.
Proof.
  intros H N M L. apply near_rnd; auto. assert (K := near_half_low k x y H N). apply Rle_trans with (/ 2 ^ S m); [apply small_pow; lia|]. rewrite half_pow. lra.
Qed.
Lemma pow_le_1 m : / 2 ^ m <= / 2 ^ 0.
Proof. apply (small_pow 0 m). lia. Qed.
Lemma PI_1 : 1 <= PI. Proof. assert (K := PI2_1). lra. Qed.
Lemma pi_near : near 1 fl_pi PI.
Proof. apply (near_rnd_low 0 0); [lia|apply near_refl|lia|]. cbn. assert (K := PI_1). rewrite Rabs_right; lra. Qed.
Lemma scaled_pi_near c : 1 <= c -> near 2 (rnd (c * fl_pi)) (c * PI).
Proof. intros H. apply (near_rnd_low 1 0); [lia|apply near_scale, pi_near|lia|]. cbn. assert (K := PI_1). rewrite Rabs_right; nra. Qed.
Lemma square_low m r : / 2 ^ m <= r -> / 2 ^ (m + m) <= r * r.
Proof. intros H. assert (P : 0 < / 2 ^ m) by (apply Rinv_0_lt_compat, pow_lt; lra). rewrite pow_add, Rinv_mult. apply Rmult_le_compat; lra. Qed.
Lemma square_near r : / 2 ^ 500 <= r -> near 1 (rnd (r * r)) (r ^ 2).
Proof.
  intros H. assert (P : 0 < / 2 ^ 500) by (apply Rinv_0_lt_compat, pow_lt; lra). replace (r ^ 2) with (r * r) by ring. apply (near_rnd_low 0 1000); [lia|apply near_refl|lia|].
  assert (K := square_low 500 r H). rewrite Rabs_right by nra. exact K.
Qed.
Lemma s2_vol r : / 2 ^ 500 <= r -> near 3 (rnd (fl_pi * rnd (r * r))) (PI * r ^ 2).
Proof.
  intros H. assert (P : 0 < / 2 ^ 500) by (apply Rinv_0_lt_compat, pow_lt; lra). assert (K := PI_1). apply (near_rnd_low 2 1000); [lia|apply (near_mult 1 1); [apply pi_near|apply square_near; auto]|lia|].
  assert (Q := square_low 500 r H). cbn [Nat.add] in Q. rewrite Rabs_right by (apply Rle_ge, Rmult_le_pos; [lra|apply pow2_ge_0]). replace (r ^ 2) with (r * r) by ring. set (p := / 2 ^ 1000) in *. nra.
Qed.
Lemma u3_vol r : / 2 ^ 500 <= r -> near 4 (rnd (rnd (4 * fl_pi) * rnd (r * r))) (4 * PI * r ^ 2).
Proof.
  intros H. assert (P : 0 < / 2 ^ 500) by (apply Rinv_0_lt_compat, pow_lt; lra). assert (K := PI_1). apply (near_rnd_low 3 1000); [lia|apply (near_mult 2 1); [apply scaled_pi_near; lra|apply square_near; auto]|lia|].
  assert (Q := square_low 500 r H). cbn [Nat.add] in Q. rewrite Rabs_right by (apply Rle_ge, Rmult_le_pos; [lra|apply pow2_ge_0]). replace (r ^ 2) with (r * r) by ring. set (p := / 2 ^ 1000) in *. nra.
Qed.
Lemma u2_vol r : / 2 ^ 500 <= r -> near 3 (rnd (rnd (2 * fl_pi) * r)) (2 * PI * r).
Proof.
  intros H. assert (P : 0 < / 2 ^ 500) by (apply Rinv_0_lt_compat, pow_lt; lra). assert (K := PI_1). apply (near_rnd_low 2 500); [lia|apply (near_mult 2 0); [apply scaled_pi_near; lra|apply near_refl]|lia|].
  rewrite Rabs_right by nra. set (p := / 2 ^ 500) in *. nra.
Qed.
Lemma s3_vol r cube : / 2 ^ 300 <= r -> fl_pow r 3 cube -> near 6 (rnd (rnd (rnd (4 / 3) * fl_pi) * cube)) (4 / 3 * PI * r ^ 3).
Proof.
  intros H C. assert (P : 0 < / 2 ^ 300) by (apply Rinv_0_lt_compat, pow_lt; lra). assert (K := PI_1).
  assert (N1 : near 1 (rnd (4 / 3)) (4 / 3)) by (apply (near_rnd_low 0 0); [lia|apply near_refl|lia|]; cbn; rewrite Rabs_right; lra).
  assert (N2 : near 3 (rnd (rnd (4 / 3) * fl_pi)) (4 / 3 * PI)) by (apply (near_rnd_low 2 0); [lia|apply (near_mult 1 1); [exact N1|apply pi_near]|lia|]; cbn; rewrite Rabs_right; lra).
  apply (near_rnd_low 5 900); [lia|apply (near_mult 3 2); [exact N2|exact C]|lia|].
  assert (Q : / 2 ^ 900 <= r ^ 3). { change 900%nat with (300 * 3)%nat. rewrite pow_mult, <- pow_inv. apply pow_incr. lra. }
  assert (P9 : 0 < / 2 ^ 900) by (apply Rinv_0_lt_compat, pow_lt; lra). set (c := r ^ 3) in *. rewrite Rabs_right by nra. nra.
Qed.
Lemma sqrt_near x y : 1 <= y -> near 1 x y -> near 1 (sqrt x) (sqrt y).
Proof.
  intros H N. assert (X := near_pos 1 x y ltac:(lia) ltac:(lra) N). assert (U := u64_pos). unfold near in *. rewrite gamma_1 in *. assert (Y : 0 < sqrt y) by (apply sqrt_lt_R0; lra). rewrite (Rabs_right y) in N by lra. rewrite (Rabs_right (sqrt y)) by lra.
  assert (X' := sqrt_lt_R0 x X). assert (Ex := sqrt_sqrt x ltac:(lra)). assert (Ey := sqrt_sqrt y ltac:(lra)).
  assert (E : Rabs (sqrt x - sqrt y) * (sqrt x + sqrt y) = Rabs (x - y)). { rewrite <- (Rabs_right (sqrt x + sqrt y)) at 1 by lra. rewrite <- Rabs_mult. f_equal. nra. }
  assert (Q := Rabs_pos (sqrt x - sqrt y)). nra.
Qed.
Lemma e3r2_vol cube : fl_pow (rnd (sqrt fl_pi)) 3 cube -> near 8 cube (sqrt PI ^ 3).
Proof.
  intros C. assert (K := PI_1). assert (S1 : 1 <= sqrt PI) by (rewrite <- sqrt_1; apply sqrt_le_1; lra).
  assert (N1 : near 2 (rnd (sqrt fl_pi)) (sqrt PI)) by (apply (near_rnd_low 1 0); [lia|apply sqrt_near; [lra|apply pi_near]|lia|]; cbn; rewrite Rabs_right; lra).
  apply (near_trans 2 6 _ (rnd (sqrt fl_pi) ^ 3)); [exact C|]. set (x := rnd (sqrt fl_pi)) in *. replace (x ^ 3) with (x * x * x) by ring. replace (sqrt PI ^ 3) with (sqrt PI * sqrt PI * sqrt PI) by ring. apply (near_mult 4 2); [apply (near_mult 2 2)|]; exact N1.
Qed.
(** *** points *)
Lemma round_coord c r p M : float64 c -> 0 <= r -> Rabs c <= M -> Rabs p <= 1 -> Rabs (rnd (rnd (r * rnd p) + c) - (c + r * p)) <= gamma 3 * (M + r) + 3 * (1 + r) * eta64.
Proof.
  intros Fc Hr Hc Hp. assert (U := u64_pos). assert (U20 : u64 <= 1 / 100) by (assert (K := u64_small); assert (1 / 2 ^ 20 <= 1 / 100) by (cbn [pow]; lra); lra). assert (ET := eta64_pos).
  assert (E1 := rnd_err p). set (ph := rnd p) in *. assert (PP := Rabs_pos p). assert (A1 : Rabs (ph - p) <= u64 + eta64) by nra.
  assert (A2 : Rabs ph <= 1 + u64 + eta64) by (replace ph with ((ph - p) + p) by ring; eapply Rle_trans; [apply Rabs_triang|lra]).
  assert (E2 := rnd_err (r * ph)). rewrite Rabs_mult, (Rabs_right r) in E2 by lra. set (m := rnd (r * ph)) in *.
  assert (A3 : Rabs (m - r * p) <= (u64 * (1 + u64) + u64) * r + ((1 + u64) * r + 1) * eta64).
  { replace (m - r * p) with ((m - r * ph) + r * (ph - p)) by ring. eapply Rle_trans; [apply Rabs_triang|]. rewrite (Rabs_mult r), (Rabs_right r) by lra. 
    assert (X1 : u64 * (r * Rabs ph) <= u64 * (r * (1 + u64 + eta64))) by (apply Rmult_le_compat_l; [lra|]; apply Rmult_le_compat_l; lra). assert (X2 : r * Rabs (ph - p) <= r * (u64 + eta64)) by (apply Rmult_le_compat_l; lra). lra. }
  assert (E3 := rnd_add m c (float_rnd _) Fc). set (E0 := Rabs (m - r * p)) in *.
  assert (A4 : Rabs (m + c) <= E0 + (M + r)). { replace (m + c) with ((m - r * p) + (c + r * p)) by ring. eapply Rle_trans; [apply Rabs_triang|]. apply Rplus_le_compat_l. eapply Rle_trans; [apply Rabs_triang|]. rewrite Rabs_mult, (Rabs_right r) by lra. nra. }
  replace (rnd (m + c) - (c + r * p)) with ((rnd (m + c) - (m + c)) + (m - r * p)) by ring. eapply Rle_trans; [apply Rabs_triang|]. fold E0. assert (PM : 0 <= M) by (eapply Rle_trans; [apply Rabs_pos|exact Hc]).
  apply Rle_trans with (u64 * (M + r) + (1 + u64) * E0); [nra|].
  apply Rle_trans with (u64 * (M + r) + (1 + u64) * ((u64 * (1 + u64) + u64) * r + ((1 + u64) * r + 1) * eta64)); [nra|].
  rewrite (gamma_S 2), (gamma_S 1), gamma_1. assert (X : (1 + u64) * (((1 + u64) * r + 1) * eta64) <= 3 * (1 + r) * eta64).
  { assert ((1 + u64) * (1 + u64) <= 1.1) by nra. assert (0 <= r * eta64) by nra. replace ((1 + u64) * (((1 + u64) * r + 1) * eta64)) with (((1 + u64) * (1 + u64)) * (r * eta64) + (1 + u64) * eta64) by ring. nra. }
  assert (0 <= (u64 + u64 * (1 + u64)) * M) by (apply Rmult_le_pos; nra). assert (0 <= u64 * ((u64 + u64 * (1 + u64)) * M)) by (apply Rmult_le_pos; lra). nra.
Qed.
Lemma round_point_error c r p M : Forall float64 c -> 0 <= r -> Forall (fun x => Rabs x <= M) c -> Forall (fun x => Rabs x <= 1) p -> length c = length p ->
  Forall2 (fun x y => Rabs (x - y) <= gamma 3 * (M + r) + 3 * (1 + r) * eta64) (fl_round_point c r (map rnd p)) (vadd c (vscale r p)).
Proof.
  intros Fc Hr. revert p. induction Fc as [|x c Hx Fc IH]; intros [|y p] Hc Hp L; try discriminate; [constructor|]. inversion Hc; subst. inversion Hp; subst. injection L as L.
  unfold fl_round_point, vadd, vscale in *. cbn [map List.combine]. constructor; [|apply IH; auto]. cbn [fst snd]. apply round_coord; auto.
Qed.
(** barycentric coordinates *)
Lemma bary_error simplex lam x i : fl_bary simplex lam x -> (i < length (hd [] simplex))%nat -> length lam = length simplex ->
  let n := length simplex in
  Rabs (nth i x 0 - nth i (bary_map simplex lam) 0) <= gamma n * Rsum (map (fun e => Rabs (fst e * nth i (snd e) 0)) (List.combine lam simplex)) + INR n * (1 + gamma n) * eta64.
Proof.
  intros H Hi L n. assert (D := dot_error _ _ (H i Hi)). rewrite combine_length, map_length, L, Nat.min_id in D. fold n in D.
  assert (E1 : forall (g : R * R -> R) (h : R * point -> R), (forall a v, g (nth i v 0, a) = h (a, v)) -> map g (List.combine (map (fun vtx => nth i vtx 0) simplex) lam) = map h (List.combine lam simplex)).
  { intros g h E. clear - E L. revert lam L. induction simplex as [|v s IH]; intros [|a lam] L; try discriminate; [reflexivity|]. cbn [map List.combine]. rewrite E, IH by (injection L; auto). reflexivity. }
  unfold prods, abs_prods in D. rewrite (E1 _ (fun e => fst e * nth i (snd e) 0)) in D by (intros; cbn [fst snd]; ring). rewrite (E1 _ (fun e => Rabs (fst e * nth i (snd e) 0))) in D by (intros; cbn [fst snd]; f_equal; ring).
  unfold bary_map. replace (nth i (map _ _) 0) with (Rsum (map (fun e => fst e * nth i (snd e) 0) (List.combine lam simplex))); [exact D|].
  symmetry. rewrite (nth_indep _ 0 (Rsum (map (fun e => fst e * nth 0 (snd e) 0) (List.combine lam simplex)))) by (rewrite map_length, seq_length; auto). rewrite (map_nth (fun k => Rsum (map (fun e => fst e * nth k (snd e) 0) (List.combine lam simplex)))). rewrite seq_nth by auto. reflexivity.
Qed.
