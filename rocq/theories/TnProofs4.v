(** n-simplex schemes whose parameters are roots of polynomials. *)
From Coq Require Import Reals List Arith Lia Lra Permutation Bool Sorted.
From Verif Require Import Spec RsumLemmas CombSpec CombModel CombProofs CombProofs2 Moments SymExact
  IntegralSpec IntegralProofs PyBase MiscModel CnModel SchemeTools CnTools TnBase TnModel TnTools TnProofs RootSpec.
Import ListNotations.
Open Scope R_scope.

(* ------------------------------------------------------------ Stroud 1966-II *)
Definition cubic2 (N r : R) : R := 2 * (N - 2) * (N + 1) * (N + 3) * r ^ 3 - (5 * N ^ 2 + 5 * N - 18) * r ^ 2 + 4 * N * r - 1.
Lemma cubic2_den N r : 1 <= N -> N <> 2 -> cubic2 N r = 0 -> 1 - 2 * N * r ^ 2 - 2 * (1 - N * r) ^ 2 <> 0.
Proof.
  unfold cubic2. intros HN H2 Hf Hg.
  assert (E : r * (r * ((N - 2) * (N + 3) * (2 * (N + 1) * r - 3))) = 0).
  { transitivity ((2 * (N - 2) * (N + 1) * (N + 3) * r ^ 3 - (5 * N ^ 2 + 5 * N - 18) * r ^ 2 + 4 * N * r - 1) - (1 - 2 * N * r ^ 2 - 2 * (1 - N * r) ^ 2)); [ring|rewrite Hf, Hg; ring]. }
  apply Rmult_integral in E. destruct E as [E|E]; [rewrite E in Hf; lra|].
  apply Rmult_integral in E. destruct E as [E|E]; [rewrite E in Hf; lra|].
  apply Rmult_integral in E. destruct E as [E|E].
  - apply Rmult_integral in E. lra.
  - assert (Er : r = 3 / (2 * (N + 1))) by (apply (Rmult_eq_reg_r (2 * (N + 1))); [field_simplify; lra|lra]).
    apply H2. subst r. apply (Rmult_eq_compat_r (N + 1)) in Hg.
    replace ((1 - 2 * N * (3 / (2 * (N + 1))) ^ 2 - 2 * (1 - N * (3 / (2 * (N + 1)))) ^ 2) * (N + 1)) with (N / 2 - 1) in Hg by (field; lra).
    lra.
Qed.

Lemma INR_2 n : n <> 2%nat -> INR n <> 2.
Proof. intros H E. apply H. apply INR_eq. simpl. lra. Qed.

Theorem stroud_1966_2_exact min_root n : (1 <= n)%nat -> n <> 2%nat ->
  cubic2 (INR n) (min_root [2 * (INR n - 2) * (INR n + 1) * (INR n + 3); - (5 * INR n ^ 2 + 5 * INR n - 18); 4 * INR n; -1]) = 0 ->
  simplex_scheme n 3 (stroud_1966_2 min_root n).
Proof.
  intros H H2 Hr. unfold stroud_1966_2. set (r := min_root _) in *. clearbody r. n_bound n.
  assert (Hd := cubic2_den _ _ B (INR_2 n H2) Hr).
  apply bind_div; [exact Hd|]. intros b Eb. apply bind_div; [lra|]. intros c Ec.
  rd_step (b / (INR n + 1) / (INR n + 2)). rd_step c.
  match goal with |- context [from_data n [(?B1, _); (?C1, _)]] =>
    apply (from_data_simplex n [(B1, [(r, n); (1 - INR n * r, 1%nat)]); (C1, [(1/2, 2%nat)])]) end.
  subst c. set (B1 := b / (INR n + 1) / (INR n + 2)).
  set (g := 1 - 2 * INR n * r ^ 2 - 2 * (1 - INR n * r) ^ 2) in *.
  assert (HB : B1 * g = (INR n - 2) / ((INR n + 1) * (INR n + 2))) by (unfold B1; rewrite Eb; field; tside).
  assert (N2 := INR_2 n H2). clearbody B1. clear Eb b B.
  tn_split n; [field; tside|field; tside| | |]; apply Rminus_diag_uniq;
  match goal with |- ?L = 0 =>
    first [ replace L with ((-3/4 + INR n * (INR n - 1) / (2 * (INR n - 2) * (INR n + 3))) * (B1 * g - (INR n - 2) / ((INR n + 1) * (INR n + 2)))
               - INR n * (INR n - 1) / (2 * (INR n - 2) * (INR n + 3)) * B1 * cubic2 (INR n) r) by (unfold cubic2, g; field; tside)
          | replace L with ((1 / (4 * INR n) - (INR n - 1) / (2 * (INR n - 2) * (INR n + 3))) * (B1 * g - (INR n - 2) / ((INR n + 1) * (INR n + 2)))
               + (INR n - 1) / (2 * (INR n - 2) * (INR n + 3)) * B1 * cubic2 (INR n) r) by (unfold cubic2, g; field; tside)
          | replace L with (1 / ((INR n - 2) * (INR n + 3)) * (B1 * g - (INR n - 2) / ((INR n + 1) * (INR n + 2)))
               - 1 / ((INR n - 2) * (INR n + 3)) * B1 * cubic2 (INR n) r) by (unfold cubic2, g; field; tside) ];
    rewrite Hr, HB; ring end.
Qed.

Lemma poly_val4 a b c d x : poly_val [a; b; c; d] x = a * x ^ 3 + b * x ^ 2 + c * x + d.
Proof. unfold poly_val. cbn [fold_left]. ring. Qed.
Lemma poly_val3 a b c x : poly_val [a; b; c] x = a * x ^ 2 + b * x + c.
Proof. unfold poly_val. cbn [fold_left]. ring. Qed.

Lemma IVT' (f : R -> R) x y : continuity f -> x < y -> f x < 0 -> 0 < f y -> exists z, x < z < y /\ f z = 0.
Proof.
  intros Hc Hxy Hx Hy. destruct (IVT f x y Hc Hxy Hx Hy) as [z [[H1 H2] Hz]]. exists z. split; auto.
  split; [destruct H1 as [H1| ->]|destruct H2 as [H2| ->]]; auto; lra.
Qed.
Lemma IVT_dec (f : R -> R) x y : continuity f -> x < y -> 0 < f x -> f y < 0 -> exists z, x < z < y /\ f z = 0.
Proof.
  intros Hc Hxy Hx Hy. destruct (IVT' (fun t => - f t) x y) as [z [Hz E]]; try lra.
  - apply continuity_opp in Hc. exact Hc.
  - exists z. split; auto. lra.
Qed.

(** Existence of the root that stroud_1966_2 asks for. *)
Lemma cubic2_root n : (1 <= n)%nat -> n <> 2%nat -> exists x, cubic2 (INR n) x = 0.
Proof.
  intros H H2. assert (C : continuity (cubic2 (INR n))) by (unfold cubic2; reg).
  assert (Z0 : cubic2 (INR n) 0 < 0) by (unfold cubic2; lra).
  destruct (Nat.eq_dec n 1) as [->|H1].
  - destruct (IVT' _ 0 (1/2) C) as [z [_ E]]; eauto; try lra. unfold cubic2. inr_lits. lra.
  - assert (3 <= n)%nat by lia. n_bound n.
    assert (P : 0 < 3 / (2 * (INR n + 1))) by (apply Rdiv_lt_0_compat; lra).
    destruct (IVT' _ 0 (3 / (2 * (INR n + 1))) C) as [z [_ E]]; eauto.
    replace (cubic2 (INR n) _) with ((INR n / 2 - 1) / (INR n + 1)) by (unfold cubic2; field; lra).
    apply Rdiv_lt_0_compat; lra.
Qed.

Theorem stroud_1966_2_built min_root n : min_root_finder min_root -> (1 <= n)%nat -> n <> 2%nat ->
  simplex_scheme n 3 (stroud_1966_2 min_root n).
Proof.
  intros Hm H H2. apply stroud_1966_2_exact; auto.
  destruct (cubic2_root n H H2) as [x Hx].
  assert (E : forall y, poly_val [2 * (INR n - 2) * (INR n + 1) * (INR n + 3); - (5 * INR n ^ 2 + 5 * INR n - 18); 4 * INR n; -1] y
             = cubic2 (INR n) y) by (intros; rewrite poly_val4; unfold cubic2; ring).
  rewrite <- E. apply (Hm _ x); [rewrite E; auto|]. exists 0. rewrite E. unfold cubic2. lra.
Qed.

(** In dimension 2 the denominator vanishes at every root. *)
Theorem stroud_1966_2_dim2 min_root : min_root_finder min_root -> stroud_1966_2 min_root 2 = None.
Proof.
  intros Hm. unfold stroud_1966_2. set (c := [_; _; _; _]).
  assert (E : forall y, poly_val c y = -12 * y ^ 2 + 8 * y - 1) by (intros; unfold c; rewrite poly_val4; inr_lits; ring).
  destruct (Hm c (1/6)) as [Hr _]; [rewrite E; lra|exists 0; rewrite E; lra|].
  rewrite E in Hr. unfold rdiv at 1.
  destruct (Req_EM_T _ 0) as [_|Hn]; [reflexivity|]. exfalso. apply Hn. inr_lits. lra.
Qed.

(* ------------------------------------------------------------ Stroud 1964 *)
Definition prodroots (l : list R) (x : R) : R := fold_right Rmult 1 (map (fun r => x - r) l).

Lemma cubic_roots a3 a2 a1 a0 x0 x1 x2 x3 :
  let p := poly_val [a3; a2; a1; a0] in
  x0 < x1 -> x1 < x2 -> x2 < x3 -> p x0 < 0 -> 0 < p x1 -> p x2 < 0 -> 0 < p x3 ->
  exists l, all_real_roots [a3; a2; a1; a0] l.
Proof.
  intros p H01 H12 H23 P0 P1 P2 P3.
  assert (E : forall x, p x = a3 * x ^ 3 + a2 * x ^ 2 + a1 * x + a0) by (intros; apply poly_val4).
  assert (C : continuity (fun x => a3 * x ^ 3 + a2 * x ^ 2 + a1 * x + a0)) by reg.
  rewrite E in *.
  destruct (IVT' _ x0 x1 C H01 P0 P1) as [u [Hu Eu]].
  destruct (IVT_dec _ x1 x2 C H12 P1 P2) as [v [Hv Ev]].
  destruct (IVT' _ x2 x3 C H23 P2 P3) as [w [Hw Ew]]. cbn beta in *.
  assert (Quv : a3 * (u * u + u * v + v * v) + a2 * (u + v) + a1 = 0).
  { apply (Rmult_eq_reg_l (v - u)); [|lra].
    transitivity ((a3 * v ^ 3 + a2 * v ^ 2 + a1 * v + a0) - (a3 * u ^ 3 + a2 * u ^ 2 + a1 * u + a0)); [ring|lra]. }
  assert (Qvw : a3 * (w * w + w * v + v * v) + a2 * (w + v) + a1 = 0).
  { apply (Rmult_eq_reg_l (v - w)); [|lra].
    transitivity ((a3 * v ^ 3 + a2 * v ^ 2 + a1 * v + a0) - (a3 * w ^ 3 + a2 * w ^ 2 + a1 * w + a0)); [ring|lra]. }
  assert (E2 : a2 = - a3 * (u + v + w)).
  { apply (Rmult_eq_reg_l (w - u)); [|lra].
    transitivity ((a3 * (w * w + w * v + v * v) + a2 * (w + v) + a1) - (a3 * (u * u + u * v + v * v) + a2 * (u + v) + a1)
       - (w - u) * a3 * (u + v + w)); [ring|lra]. }
  assert (E1 : a1 = a3 * (u * v + u * w + v * w)) by (subst a2; lra).
  assert (E0 : a0 = - a3 * (u * v * w)) by (subst a2 a1; lra).
  exists [u; v; w]. split; [|split; [reflexivity|]].
  - repeat constructor; lra.
  - exists a3. split.
    + intros Z. rewrite E0, E1, E2, Z in P1. ring_simplify in P1. lra.
    + intros x. change (p x = a3 * prodroots [u; v; w] x). rewrite E, E0, E1, E2. unfold prodroots. cbn. ring.
Qed.

Lemma quadratic_roots b c : 0 <= b * b - 4 * c -> exists l, all_real_roots [1; b; c] l.
Proof.
  intros H. set (s := sqrt (b * b - 4 * c)). assert (Hs : s * s = b * b - 4 * c) by (apply sqrt_sqrt; auto).
  assert (0 <= s) by apply sqrt_pos.
  exists [(- b - s) / 2; (- b + s) / 2]. split; [|split; [reflexivity|]].
  - constructor; [constructor; constructor|constructor; lra].
  - exists 1. split; [lra|]. intros x. rewrite poly_val3. cbn. nra.
Qed.

Lemma all_real_roots_3 a b c d l : all_real_roots [a; b; c; d] l -> exists r s t, l = [r; s; t] /\ r <= s <= t /\
  a <> 0 /\ b = - a * (r + s + t) /\ c = a * (r * s + r * t + s * t) /\ d = - a * (r * s * t).
Proof.
  intros [Hs [Hl [e [He H]]]]. destruct l as [|r [|s [|t [|? ?]]]]; try discriminate Hl.
  exists r, s, t. split; auto.
  inversion Hs as [|? ? Hs2 Hr1]; subst. inversion Hr1; subst. inversion Hs2 as [|? ? Hs3 Hr2]; subst. inversion Hr2; subst.
  assert (X0 := H 0). assert (X1 := H 1). assert (X2 := H 2). assert (X3 := H (-1)). cbn [map fold_right] in X0, X1, X2, X3.
  rewrite poly_val4 in X0, X1, X2, X3. assert (a = e) by lra. subst e.
  repeat split; auto; lra.
Qed.
Lemma all_real_roots_2 b c l : all_real_roots [1; b; c] l -> exists s t, l = [s; t] /\ s + t = - b /\ s * t = c.
Proof.
  intros [Hs [Hl [e [He H]]]]. destruct l as [|s [|t [|? ?]]]; try discriminate Hl.
  exists s, t. split; auto.
  assert (X0 := H 0). assert (X1 := H 1). assert (X3 := H (-1)). cbn [map fold_right] in X0, X1, X3.
  rewrite poly_val3 in X0, X1, X3. assert (1 = e) by lra. subst e. split; lra.
Qed.

Lemma stroud_1964_dim2 roots v : root_finder roots -> simplex_scheme 2 3 (stroud_1964 roots v 2).
Proof.
  intros Hf. unfold stroud_1964. cbn [Nat.eqb].
  destruct (cubic_roots 1 (-1) (1/4) (- (1/60)) 0 (1/6) (1/2) 1) as [l Hl]; rewrite ?poly_val4; try lra.
  apply Hf in Hl. destruct (all_real_roots_3 _ _ _ _ _ Hl) as (r & s & t & -> & _ & _ & E1 & E2 & E3).
  rd_step (1 / (INR 2 * (INR 2 + 1))).
  apply (from_data_simplex 2 [(1 / (INR 2 * (INR 2 + 1)), [(r, 1%nat); (s, 1%nat); (t, 1%nat)])]).
  assert (F1 : r + s + t = 1) by lra. assert (F2 : r * s + r * t + s * t = 1/4) by lra. assert (F3 : r * s * t = 1/60) by lra.
  assert (P3 : r ^ 3 + s ^ 3 + t ^ 3 = 3/10).
  { transitivity ((r + s + t) ^ 3 - 3 * (r + s + t) * (r * s + r * t + s * t) + 3 * (r * s * t)); [ring|]. rewrite F1, F2, F3. lra. }
  assert (P21 : r ^ 2 * s + r ^ 2 * t + s ^ 2 * r + s ^ 2 * t + t ^ 2 * r + t ^ 2 * s = 1/5).
  { transitivity ((r + s + t) * (r * s + r * t + s * t) - 3 * (r * s * t)); [ring|]. rewrite F1, F2, F3. lra. }
  clear Hl E1 E2 E3.
  tn_split 2%nat; lra.
Qed.

(** Product of the roots' monic polynomial at a point, by position of the point. *)
Definition p1964 (N x : R) : R := (N + 1) * x ^ 3 - 3 * x ^ 2 + 3 / (N + 2) * x - 1 / ((N + 2) * (N + 3)).
Definition disc1964 (N r : R) : R := - (N - 2) / (N + 2) + 2 * (N - 1) * r - (N ^ 2 - 1) * r ^ 2.

Lemma p1964_shape N : 3 <= N -> exists xm xp, 0 < xm /\ xm < xp /\ xp < 1 /\ xm <= 1 / (N + 1) /\ 0 < p1964 N xm /\ p1964 N xp < 0 /\
  0 < disc1964 N xm /\ 0 < disc1964 N xp /\ xm = (1 - sqrt (1 / (N + 2))) / (N + 1).
Proof.
  intros HN. set (q := sqrt (1 / (N + 2))).
  assert (P0 : 0 < 1 / (N + 2)) by (apply Rdiv_lt_0_compat; lra).
  assert (Pq : 0 < q) by (apply sqrt_lt_R0; auto).
  assert (Qq : q * q = 1 / (N + 2)) by (apply sqrt_sqrt; lra).
  assert (Q5 : q * q <= 1/5).
  { rewrite Qq. unfold Rdiv. rewrite !Rmult_1_l. apply Rinv_le_contravar; lra. }
  assert (Ql : q < 1/2) by nra.
  assert (EN : N = 1 / (q * q) - 2) by (rewrite Qq; field; lra).
  assert (Q1 : 0 < 1 - q * q) by nra.
  exists ((1 - q) / (N + 1)), ((1 + q) / (N + 1)).
  assert (Em : (1 - q) / (N + 1) = q * q / (1 + q)) by (rewrite EN; field; repeat split; nra).
  assert (Ep : (1 + q) / (N + 1) = q * q / (1 - q)) by (rewrite EN; field; repeat split; nra).
  assert (Pm : p1964 N ((1 - q) / (N + 1)) = 2 * q ^ 7 / ((1 + q) ^ 2 * (1 + q * q))).
  { rewrite Em, EN. unfold p1964. field. repeat split; nra. }
  assert (Pp : p1964 N ((1 + q) / (N + 1)) = - (2 * q ^ 7 / ((1 - q) ^ 2 * (1 + q * q)))).
  { rewrite Ep, EN. unfold p1964. field. repeat split; nra. }
  assert (Dm : disc1964 N ((1 - q) / (N + 1)) = q * q).
  { rewrite Em, EN. unfold disc1964. field. repeat split; nra. }
  assert (Dp : disc1964 N ((1 + q) / (N + 1)) = q * q).
  { rewrite Ep, EN. unfold disc1964. field. repeat split; nra. }
  assert (q7 : 0 < q ^ 7) by (apply pow_lt; auto).
  rewrite Pm, Pp, Dm, Dp.
  assert (X : forall a b, a < b -> a / (N + 1) < b / (N + 1)).
  { intros a b Hab. apply Rmult_lt_compat_r; auto. apply Rinv_0_lt_compat. lra. }
  repeat split.
  - apply Rdiv_lt_0_compat; lra.
  - apply X. lra.
  - apply (Rlt_le_trans _ ((N + 1) / (N + 1))); [apply X; lra|]. right. field. lra.
  - left. apply X. lra.
  - apply Rdiv_lt_0_compat; [lra|]. apply Rmult_lt_0_compat; [apply pow_lt; lra|nra].
  - assert (0 < 2 * q ^ 7 / ((1 - q) ^ 2 * (1 + q * q))); [|lra].
    apply Rdiv_lt_0_compat; [lra|]. apply Rmult_lt_0_compat; [apply pow_lt; lra|nra].
  - nra.
  - nra.
Qed.

Lemma disc_between N x y r : 1 <= N -> 0 <= disc1964 N x -> 0 <= disc1964 N y -> x <= r <= y -> 0 <= disc1964 N r.
Proof.
  intros HN Hx Hy [H1 H2]. destruct (Rle_lt_or_eq_dec x y) as [Hxy| <-]; [lra| |].
  - assert (E : (y - x) * disc1964 N r = (y - r) * disc1964 N x + (r - x) * disc1964 N y + (N ^ 2 - 1) * ((y - x) * (y - r) * (r - x))).
    { unfold disc1964, Rdiv. ring. }
    assert (0 <= (y - r) * disc1964 N x) by (apply Rmult_le_pos; lra).
    assert (0 <= (r - x) * disc1964 N y) by (apply Rmult_le_pos; lra).
    assert (0 <= (N ^ 2 - 1) * ((y - x) * (y - r) * (r - x))).
    { apply Rmult_le_pos; [nra|]. apply Rmult_le_pos; [apply Rmult_le_pos|]; lra. }
    apply (Rmult_le_reg_l (y - x)); lra.
  - replace r with x by lra. auto.
Qed.

(** Lower bound for the smallest root that keeps the discriminant non-negative, variant a, n <= 8. *)
Lemma variant_a_bound n : (3 <= n <= 8)%nat -> exists x0, p1964 (INR n) x0 < 0 /\ 0 <= disc1964 (INR n) x0 /\
   x0 < (1 - sqrt (1 / (INR n + 2))) / (INR n + 1).
Proof.
  intros H.
  assert (X : forall N x0 y, 3 <= N -> p1964 N x0 < 0 -> 0 <= disc1964 N x0 -> 0 < y -> 1 < y * y * (N + 2) -> x0 * (N + 1) <= 1 - y ->
     p1964 N x0 < 0 /\ 0 <= disc1964 N x0 /\ x0 < (1 - sqrt (1 / (N + 2))) / (N + 1)).
  { intros N x0 y HN H1 H2 H3 H4 H5. repeat split; auto.
    assert (sqrt (1 / (N + 2)) < y).
    { rewrite <- (sqrt_square y) by lra. apply sqrt_lt_1; try nra.
      - left. apply Rdiv_lt_0_compat; lra.
      - apply (Rmult_lt_reg_r (N + 2)); [lra|]. unfold Rdiv. rewrite Rmult_1_l, Rinv_l by lra. lra. }
    apply (Rmult_lt_reg_r (N + 1)); [lra|]. unfold Rdiv. rewrite Rmult_assoc, Rinv_l by lra. lra. }
  assert (C : n = 3%nat \/ n = 4%nat \/ n = 5%nat \/ n = 6%nat \/ n = 7%nat \/ n = 8%nat) by lia.
  decompose [or] C; subst n; inr_lits.
  - exists (1/11). apply (X _ _ (1/2)); unfold p1964, disc1964; lra.
  - exists (1/12). apply (X _ _ (1/2)); unfold p1964, disc1964; lra.
  - exists (1/14). apply (X _ _ (1/2)); unfold p1964, disc1964; lra.
  - exists (1/15). apply (X _ _ (2/5)); unfold p1964, disc1964; lra.
  - exists (1/16). apply (X _ _ (2/5)); unfold p1964, disc1964; lra.
  - exists (5/86). apply (X _ _ (2/5)); unfold p1964, disc1964; lra.
Qed.

Lemma stroud_1964_core roots n r : root_finder roots -> (3 <= n)%nat -> p1964 (INR n) r = 0 -> 0 <= disc1964 (INR n) r ->
  simplex_scheme n 3 (
    match roots [1; - (1 - (INR n - 1) * r); INR n / (2 * (INR n + 2)) - (INR n - 1) * r + INR n * (INR n - 1) / 2 * r ^ 2] with
    | [s; t] =>
        let! p := Rrd (n + 1) [(r, (n - 1)%nat); (s, 1%nat); (t, 1%nat)] in
        Some (from_data n [(1 / (INR n * (INR n + 1)), p)] 3)
    | _ => None
    end).
Proof.
  intros Hf H Hr Hd. n_bound n.
  destruct (quadratic_roots (- (1 - (INR n - 1) * r)) (INR n / (2 * (INR n + 2)) - (INR n - 1) * r + INR n * (INR n - 1) / 2 * r ^ 2)) as [l Hl].
  { replace (_ - _) with (disc1964 (INR n) r); auto. unfold disc1964. field. lra. }
  apply Hf in Hl. apply all_real_roots_2 in Hl. destruct Hl as (s & t & -> & E1 & E2).
  rd_step (1 / (INR n * (INR n + 1))).
  apply (from_data_simplex n [(1 / (INR n * (INR n + 1)), [(r, (n - 1)%nat); (s, 1%nat); (t, 1%nat)])]).
  clear B. tn_split n; [lra| | |];
  match goal with |- ?L = ?R0 => apply Rminus_diag_uniq;
    first [ transitivity ((((INR n - 1) * r ^ 3 + ((s + t) ^ 3 - 3 * (s + t) * (s * t))) / (INR n + 1)) - R0); [field; tside|];
            rewrite E1, E2; transitivity (INR n * (INR n - 1) / (2 * (INR n + 1)) * p1964 (INR n) r); [unfold p1964; field; tside|]
          | transitivity ((((INR n - 1) * (INR n - 2) * r ^ 3 + (INR n - 1) * r ^ 2 * (s + t) + (INR n - 1) * r * ((s + t) ^ 2 - 2 * (s * t)) + (s + t) * (s * t))
               / ((INR n + 1) * INR n)) - R0); [field; tside|];
            rewrite E1, E2; transitivity (- (INR n - 1) / (2 * (INR n + 1)) * p1964 (INR n) r); [unfold p1964; field; tside|]
          | transitivity ((((INR n - 1) * (INR n - 2) * (INR n - 3) * r ^ 3 + 3 * (INR n - 1) * (INR n - 2) * r ^ 2 * (s + t) + 6 * (INR n - 1) * r * (s * t))
               / ((INR n + 1) * INR n * (INR n - 1))) - R0); [field; tside|];
            rewrite E1, E2; transitivity (1 / (INR n + 1) * p1964 (INR n) r); [unfold p1964; field; tside|] ];
    rewrite Hr; ring end.
Qed.

Theorem stroud_1964_exact roots (variant_a : bool) n : root_finder roots -> (2 <= n)%nat -> (variant_a = true -> (n <= 8)%nat) ->
  simplex_scheme n 3 (stroud_1964 roots variant_a n).
Proof.
  intros Hf H Ha. destruct (Nat.eq_dec n 2) as [->|H2]; [apply stroud_1964_dim2; auto|].
  assert (H3 : (3 <= n)%nat) by lia. n_bound n.
  unfold stroud_1964. replace (n =? 2)%nat with false by (symmetry; apply Nat.eqb_neq; auto).
  apply bind_guard; [apply Nat.ltb_lt; lia|].
  apply bind_guard. { destruct (8 <? n)%nat eqn:E8; auto. apply Nat.ltb_lt in E8. destruct variant_a; auto. specialize (Ha eq_refl). lia. }
  destruct (p1964_shape (INR n) B) as (xm & xp & M0 & M1 & M2 & M3 & Pm & Pp & Dm & Dp & Em).
  assert (EP : forall x, poly_val [INR n + 1; -3; 3 / (INR n + 2); -1 / ((INR n + 2) * (INR n + 3))] x = p1964 (INR n) x).
  { intros x. rewrite poly_val4. unfold p1964. field. lra. }
  assert (Z : p1964 (INR n) 0 < 0).
  { unfold p1964. assert (0 < 1 / ((INR n + 2) * (INR n + 3))) by (apply Rdiv_lt_0_compat; nra). lra. }
  destruct (cubic_roots (INR n + 1) (-3) (3 / (INR n + 2)) (-1 / ((INR n + 2) * (INR n + 3))) 0 xm xp 1) as [l Hl]; rewrite ?EP; auto.
  { unfold p1964. assert (1 / ((INR n + 2) * (INR n + 3)) <= 1 / (INR n + 2)).
    { replace (1 / ((INR n + 2) * (INR n + 3))) with (1 / (INR n + 2) * / (INR n + 3)) by (field; lra).
      rewrite <- (Rmult_1_r (1 / (INR n + 2))) at 2. apply Rmult_le_compat_l.
      - left. apply Rdiv_lt_0_compat; lra.
      - rewrite <- Rinv_1. apply Rinv_le_contravar; lra. }
    assert (0 < 1 / (INR n + 2)) by (apply Rdiv_lt_0_compat; lra).
    replace (3 / (INR n + 2)) with (3 * (1 / (INR n + 2))) by (field; lra). lra. }
  apply Hf in Hl. destruct (all_real_roots_3 _ _ _ _ _ Hl) as (r0 & r1 & r2 & -> & [O1 O2] & A0 & E1 & E2 & E3).
  assert (EF : forall x, p1964 (INR n) x = (INR n + 1) * ((x - r0) * (x - r1) * (x - r2))).
  { intros x. rewrite <- EP, poly_val4. rewrite E1, E2, E3. ring. }
  clear Hl EP E1 E2 E3 A0.
  assert (S1 : forall x, 0 < p1964 (INR n) x -> 0 < (x - r0) * (x - r1) * (x - r2)).
  { intros x Hx. rewrite EF in Hx. apply (Rmult_lt_reg_l (INR n + 1)); lra. }
  assert (S2 : forall x, p1964 (INR n) x < 0 -> (x - r0) * (x - r1) * (x - r2) < 0).
  { intros x Hx. rewrite EF in Hx. apply (Rmult_lt_reg_l (INR n + 1)); lra. }
  assert (Q1 := S1 _ Pm). assert (Q2 := S2 _ Pp).
  assert (R2 : xp < r2).
  { destruct (Rlt_le_dec xp r2) as [|G]; auto. exfalso.
    assert (0 <= (xp - r0) * (xp - r1) * (xp - r2)) by (apply Rmult_le_pos; [apply Rmult_le_pos|]; lra). lra. }
  assert (R0 : r0 < xm).
  { destruct (Rlt_le_dec r0 xm) as [|G]; auto. exfalso.
    assert (0 <= (r0 - xm) * (r1 - xm) * (r2 - xm)) by (apply Rmult_le_pos; [apply Rmult_le_pos|]; lra). lra. }
  assert (R1 : xm < r1).
  { destruct (Rlt_le_dec xm r1) as [|G]; auto. exfalso.
    assert (0 <= (xm - r0) * (xm - r1) * (r2 - xm)) by (apply Rmult_le_pos; [apply Rmult_le_pos|]; lra). lra. }
  assert (R1' : r1 < xp).
  { destruct (Rlt_le_dec r1 xp) as [|G]; auto. exfalso.
    assert (0 <= (xp - r0) * (r1 - xp) * (r2 - xp)) by (apply Rmult_le_pos; [apply Rmult_le_pos|]; lra). lra. }
  apply stroud_1964_core; auto.
  - rewrite EF. destruct variant_a; ring.
  - destruct variant_a.
    + destruct (variant_a_bound n) as (x0 & X1 & X2 & X3); [specialize (Ha eq_refl); lia|].
      rewrite <- Em in X3. apply S2 in X1.
      assert (x0 < r0).
      { destruct (Rlt_le_dec x0 r0) as [|G]; auto. exfalso.
        assert (0 <= (x0 - r0) * (r1 - x0) * (r2 - x0)) by (apply Rmult_le_pos; [apply Rmult_le_pos|]; lra). lra. }
      apply (disc_between _ x0 xm); lra.
    + apply (disc_between _ xm xp); lra.
Qed.
