(** Uniform continuity on the cube and Weierstrass' theorem in several variables. *)
From Coq Require Import Reals List Arith Lia Lra ClassicalEpsilon.
From Coquelicot Require Import Coquelicot.
From Verif Require Import Spec Spec1 RsumLemmas ConvSpec ConvNdSpec Weier PolyFun.
Import ListNotations.
Set Bullet Behavior "Strict Subproofs".
Open Scope R_scope.

Definition ucont (n : nat) (f : point -> R) : Prop := forall eps, 0 < eps -> exists delta, 0 < delta /\
  forall x y, in_cube n x -> in_cube n y -> close delta x y -> Rabs (f x - f y) < eps.
Lemma in_cube_0 x : in_cube 0 x -> x = [].
Proof. intros [L _]. destruct x; [auto|discriminate]. Qed.
Lemma in_cube_S n x : in_cube (S n) x -> exists t y, x = t :: y /\ -1 <= t <= 1 /\ in_cube n y.
Proof. intros [L F]. destruct x as [|t y]; [discriminate|]. inversion F; subst. injection L as L. exists t, y. repeat split; auto; lra. Qed.
Lemma in_cube_cons n t y : -1 <= t <= 1 -> in_cube n y -> in_cube (S n) (t :: y).
Proof. intros H [L F]. split; [cbn; auto|constructor; auto]. Qed.
Lemma close_refl d x : 0 < d -> close d x x.
Proof. intros H. induction x; constructor; auto. rewrite Rminus_eq_0, Rabs_R0. auto. Qed.
Lemma close_sym d x y : close d x y -> close d y x.
Proof. induction 1; constructor; auto. rewrite Rabs_minus_sym. auto. Qed.
Lemma close_le d e x y : d <= e -> close d x y -> close e x y.
Proof. intros H. induction 1; constructor; auto. lra. Qed.
Lemma close_trans d e x y z : close d x y -> close e y z -> close (d + e) x z.
Proof.
  intros H. revert z. induction H as [|a b x y H0 H IH]; intros z Hz; inversion Hz; subst; [constructor|]. constructor; [|apply IH; auto].
  replace (a - y0) with ((a - b) + (b - y0)) by ring. eapply Rle_lt_trans; [apply Rabs_triang|]. lra.
Qed.
(** *** Heine's theorem *)
Fixpoint tn (n : nat) (x : point) : Tn n R :=
  match n return Tn n R with O => tt | S m => (hd 0 x, tn m (tl x)) end.
Fixpoint nt (n : nat) : Tn n R -> point :=
  match n return Tn n R -> point with O => fun _ => [] | S m => fun t => fst t :: nt m (snd t) end.
Lemma nt_tn n : forall x, length x = n -> nt n (tn n x) = x.
Proof. induction n as [|n IH]; intros [|t x] L; try discriminate; [reflexivity|]. cbn. rewrite IH by (injection L; auto). reflexivity. Qed.
Lemma tn_bounded n : forall x, in_cube n x -> bounded_n n (tn n (repeat (-1) n)) (tn n (repeat 1 n)) (tn n x).
Proof. induction n as [|n IH]; intros x H; [exact I|]. destruct (in_cube_S _ _ H) as (t & y & -> & Ht & Hy). cbn. split; [lra|]. apply IH. auto. Qed.
Lemma bounded_nt n : forall t, bounded_n n (tn n (repeat (-1) n)) (tn n (repeat 1 n)) t -> in_cube n (nt n t).
Proof. induction n as [|n IH]; intros t H; [split; [reflexivity|constructor]|]. destruct t as [u t]. cbn in H. destruct H as [H1 H2]. cbn [nt fst snd]. apply in_cube_cons; [lra|]. apply IH. auto. Qed.
Lemma close_nt n : forall d x t, length x = n -> close_n n d (tn n x) t -> close d x (nt n t).
Proof. induction n as [|n IH]; intros d [|u x] t L H; try discriminate; [constructor|]. destruct t as [v t]. cbn in H. destruct H as [H1 H2]. cbn [nt fst snd]. constructor; [auto|]. apply IH; auto. Qed.
Lemma continuous_ucont n f : continuous_in (in_cube n) f -> ucont n f.
Proof.
  intros C eps He.
  assert (CH : forall t : Tn n R, {d : posreal | in_cube n (nt n t) -> forall y, in_cube n y -> close (2 * d) y (nt n t) -> Rabs (f y - f (nt n t)) < eps / 2}).
  { intros t. apply constructive_indefinite_description. destruct (excluded_middle_informative (in_cube n (nt n t))) as [H|H].
    - destruct (C _ H (eps / 2) ltac:(lra)) as (d & Hd & K). assert (Hd2 : 0 < d / 2) by lra. exists (mkposreal _ Hd2). cbn. intros _ y Hy Hc. apply K; auto. eapply close_le; [|exact Hc]. lra.
    - exists (mkposreal 1 Rlt_0_1). intros K. contradiction. }
  destruct (compactness_value n (tn n (repeat (-1) n)) (tn n (repeat 1 n)) (fun t => proj1_sig (CH t))) as (d & D). exists d. split; [apply cond_pos|]. intros x y Hx Hy Hc.
  destruct (Rlt_dec (Rabs (f x - f y)) eps) as [L|L]; [exact L|exfalso]. apply (D (tn n x)); [apply tn_bounded; auto|]. intros (t & Bt & Ct & Dt). apply L.
  destruct (CH t) as (e & He2). cbn [proj1_sig] in *. assert (Ht := bounded_nt n t Bt). assert (X : close e x (nt n t)) by (apply close_nt; auto; apply Hx).
  assert (P := cond_pos e). assert (K1 := He2 Ht x Hx ltac:(eapply close_le; [|exact X]; lra)).
  assert (K2 := He2 Ht y Hy ltac:(apply close_le with (d + e); [lra|]; eapply close_trans; [apply close_sym; exact Hc|exact X])).
  replace (f x - f y) with ((f x - f (nt n t)) + - (f y - f (nt n t))) by ring. eapply Rle_lt_trans; [apply Rabs_triang|]. rewrite Rabs_Ropp. lra.
Qed.
(** *** operations *)
Lemma ucont_slice n f t : -1 <= t <= 1 -> ucont (S n) f -> ucont n (fun xs => f (t :: xs)).
Proof.
  intros H U eps He. destruct (U eps He) as (d & Hd & K). exists d. split; auto. intros x y Hx Hy Hc. apply K; auto using in_cube_cons. constructor; auto. rewrite Rminus_eq_0, Rabs_R0. auto.
Qed.
Lemma ucont_lin n f g a b : ucont n f -> ucont n g -> ucont n (fun x => a * f x + b * g x).
Proof.
  intros Uf Ug eps He. assert (Pa := Rabs_pos a). assert (Pb := Rabs_pos b).
  destruct (Uf (eps / 2 / (Rabs a + 1)) ltac:(apply Rdiv_lt_0_compat; lra)) as (d1 & H1 & K1). destruct (Ug (eps / 2 / (Rabs b + 1)) ltac:(apply Rdiv_lt_0_compat; lra)) as (d2 & H2 & K2).
  exists (Rmin d1 d2). split; [apply Rmin_pos; auto|]. intros x y Hx Hy Hc. specialize (K1 x y Hx Hy (close_le _ _ _ _ (Rmin_l _ _) Hc)). specialize (K2 x y Hx Hy (close_le _ _ _ _ (Rmin_r _ _) Hc)).
  replace (a * f x + b * g x - (a * f y + b * g y)) with (a * (f x - f y) + b * (g x - g y)) by ring. eapply Rle_lt_trans; [apply Rabs_triang|]. rewrite !Rabs_mult.
  assert (A : Rabs a * Rabs (f x - f y) <= (Rabs a + 1) * Rabs (f x - f y)) by (apply Rmult_le_compat_r; [apply Rabs_pos|lra]). assert (B : Rabs b * Rabs (g x - g y) <= (Rabs b + 1) * Rabs (g x - g y)) by (apply Rmult_le_compat_r; [apply Rabs_pos|lra]).
  assert (A2 : (Rabs a + 1) * Rabs (f x - f y) < eps / 2) by (replace (eps / 2) with ((Rabs a + 1) * (eps / 2 / (Rabs a + 1))) by (field; lra); apply Rmult_lt_compat_l; lra).
  assert (B2 : (Rabs b + 1) * Rabs (g x - g y) < eps / 2) by (replace (eps / 2) with ((Rabs b + 1) * (eps / 2 / (Rabs b + 1))) by (field; lra); apply Rmult_lt_compat_l; lra). lra.
Qed.
Lemma ucont_const n c : ucont n (fun _ => c).
Proof. intros eps He. exists 1. split; [lra|]. intros. rewrite Rminus_eq_0, Rabs_R0. auto. Qed.
Lemma ucont_ext n f g : (forall x, in_cube n x -> f x = g x) -> ucont n f -> ucont n g.
Proof. intros E U eps He. destruct (U eps He) as (d & Hd & K). exists d. split; auto. intros x y Hx Hy Hc. rewrite <- !E; auto. Qed.
Lemma ucont_bounded n : forall f, ucont n f -> exists M, 0 <= M /\ forall x, in_cube n x -> Rabs (f x) <= M.
Proof.
  induction n as [|n IH]; intros f U.
  - exists (Rabs (f [])). split; [apply Rabs_pos|]. intros x Hx. rewrite (in_cube_0 _ Hx). lra.
  - destruct (IH _ (ucont_slice n f 0 ltac:(lra) U)) as (M & HM & B). destruct (U 1 Rlt_0_1) as (d & Hd & K). destruct (archimed_cor1 d Hd) as (N & HN & PN). exists (M + INR N).
    assert (P : 0 < INR N) by (apply lt_0_INR; auto). split; [lra|]. intros x Hx. destruct (in_cube_S _ _ Hx) as (t & y & -> & Ht & Hy).
    assert (S : forall k, (k <= N)%nat -> Rabs (f (INR k / INR N * t :: y)) <= M + INR k).
    { assert (R : forall k, (k <= N)%nat -> 0 <= INR k / INR N <= 1). { intros k Hk. apply le_INR in Hk. assert (0 <= INR k) by apply pos_INR. split; [apply Rdiv_le_0_compat; auto|]. apply Rmult_le_reg_r with (INR N); auto. unfold Rdiv. rewrite Rmult_assoc, Rinv_l by lra. lra. }
      induction k as [|k IHk]; intros Hk.
      - cbn [INR]. unfold Rdiv. rewrite Rmult_0_l, Rmult_0_l, Rplus_0_r. apply B. auto.
      - specialize (IHk ltac:(lia)). assert (R1 := R k ltac:(lia)). assert (R2 := R (S k) Hk). rewrite S_INR in *.
        assert (Q : Rabs (f ((INR k + 1) / INR N * t :: y) - f (INR k / INR N * t :: y)) < 1).
        { apply K; [apply in_cube_cons; auto; nra|apply in_cube_cons; auto; nra|]. constructor; [|apply close_refl; auto]. replace ((INR k + 1) / INR N * t - INR k / INR N * t) with (/ INR N * t) by (field; lra).
          rewrite Rabs_mult, (Rabs_right (/ INR N)) by (left; apply Rinv_0_lt_compat; auto). assert (Rabs t <= 1) by (apply Rabs_le; lra). assert (0 < / INR N) by (apply Rinv_0_lt_compat; auto). assert (0 <= Rabs t) by apply Rabs_pos. nra. }
        replace (f ((INR k + 1) / INR N * t :: y)) with ((f ((INR k + 1) / INR N * t :: y) - f (INR k / INR N * t :: y)) + f (INR k / INR N * t :: y)) by ring. eapply Rle_trans; [apply Rabs_triang|]. lra. }
    specialize (S N ltac:(lia)). replace (INR N / INR N * t) with t in S by (field; lra). lra.
Qed.
(** *** Bernstein polynomials of a family of functions *)
Lemma bern_family d M eps : 0 < d -> 0 <= M -> 0 < eps -> exists n, (1 <= n)%nat /\ forall f : R -> R,
  (forall x y, 0 <= x <= 1 -> 0 <= y <= 1 -> Rabs (x - y) < d -> Rabs (f x - f y) < eps / 2) -> (forall x, 0 <= x <= 1 -> Rabs (f x) <= M) ->
  forall x, 0 <= x <= 1 -> Rabs (f x - bern n (fun k => f (INR k / INR n)) x) < eps.
Proof.
  intros Hd HM He. assert (D2 : 0 < d ^ 2) by (apply pow_lt; auto).
  destruct (archimed_cor1 (eps * d ^ 2 / (M + 1)) ) as (n & Hn & Pn); [apply Rdiv_lt_0_compat; nra|].
  exists n. split; [lia|]. intros f U B x Hx.
  assert (N : 0 < INR n) by (apply lt_0_INR; auto).
  assert (T : forall k, (k <= n)%nat -> Rabs (f (INR k / INR n) - f x) <= eps / 2 + 2 * M / (d ^ 2 * INR n ^ 2) * (INR k - INR n * x) ^ 2).
  { intros k Hk. assert (Ik : 0 <= INR k / INR n <= 1).
    { apply le_INR in Hk. assert (0 <= INR k) by apply pos_INR. split; [apply Rdiv_le_0_compat; auto|]. apply Rmult_le_reg_r with (INR n); auto. unfold Rdiv. rewrite Rmult_assoc, Rinv_l by lra. lra. }
    assert (Z : 0 <= 2 * M / (d ^ 2 * INR n ^ 2) * (INR k - INR n * x) ^ 2).
    { apply Rmult_le_pos; [apply Rdiv_le_0_compat; [lra|apply Rmult_lt_0_compat; [auto|apply pow_lt; auto]]|apply pow2_ge_0]. }
    destruct (Rlt_le_dec (Rabs (INR k / INR n - x)) d) as [L|L].
    - specialize (U _ _ Ik Hx L). lra.
    - apply Rle_trans with (2 * M).
      + specialize (B _ Ik) as B1. specialize (B _ Hx) as B2. revert B1 B2. unfold Rabs. repeat destruct (Rcase_abs _); lra.
      + apply Rle_trans with (2 * M / (d ^ 2 * INR n ^ 2) * (INR k - INR n * x) ^ 2); [|lra].
        replace (2 * M / (d ^ 2 * INR n ^ 2) * (INR k - INR n * x) ^ 2) with (2 * M * ((INR k / INR n - x) ^ 2 / d ^ 2)) by (field; lra).
        assert (1 <= (INR k / INR n - x) ^ 2 / d ^ 2).
        { assert (S : d ^ 2 <= (INR k / INR n - x) ^ 2) by (rewrite <- (pow2_abs (INR k / INR n - x)); apply pow_incr; lra).
          apply Rmult_le_reg_r with (d ^ 2); [auto|]. replace ((INR k / INR n - x) ^ 2 / d ^ 2 * d ^ 2) with ((INR k / INR n - x) ^ 2) by (field; lra). lra. }
        nra. }
  assert (Up := bern_le n (fun k => f (INR k / INR n)) (fun k => 1 * (f x + eps / 2) + 2 * M / (d ^ 2 * INR n ^ 2) * (INR k - INR n * x) ^ 2) x Hx).
  assert (Lo := bern_le n (fun k => 1 * (f x - eps / 2) + - (2 * M / (d ^ 2 * INR n ^ 2)) * (INR k - INR n * x) ^ 2) (fun k => f (INR k / INR n)) x Hx).
  rewrite (bern_lin n (fun _ => f x + eps / 2) (fun k => (INR k - INR n * x) ^ 2)) in Up. rewrite (bern_lin n (fun _ => f x - eps / 2) (fun k => (INR k - INR n * x) ^ 2)) in Lo.
  rewrite bern_const, bern_var in Up, Lo.
  assert (V : 2 * M / (d ^ 2 * INR n ^ 2) * (INR n * x * (1 - x) + (INR n * x - INR n * x) ^ 2) < eps / 2).
  { replace (2 * M / (d ^ 2 * INR n ^ 2) * (INR n * x * (1 - x) + (INR n * x - INR n * x) ^ 2)) with (2 * M * (x * (1 - x)) / d ^ 2 * / INR n) by (field; lra).
    assert (X : x * (1 - x) <= / 4) by (assert (0 <= (x - / 2) ^ 2) by apply pow2_ge_0; lra). assert (0 <= x * (1 - x)) by (apply Rmult_le_pos; lra). assert (Q : 0 < / INR n) by (apply Rinv_0_lt_compat; auto).
    apply Rle_lt_trans with (M / 2 / d ^ 2 * / INR n).
    { apply Rmult_le_compat_r; [lra|]. apply Rmult_le_compat_r; [left; apply Rinv_0_lt_compat; auto|]. nra. }
    apply Rle_lt_trans with ((M + 1) / 2 / d ^ 2 * / INR n).
    { apply Rmult_le_compat_r; [lra|]. apply Rmult_le_compat_r; [left; apply Rinv_0_lt_compat; auto|]. lra. }
    apply Rlt_le_trans with ((M + 1) / 2 / d ^ 2 * (eps * d ^ 2 / (M + 1))); [|right; field; lra].
    apply Rmult_lt_compat_l; [|auto]. apply Rdiv_lt_0_compat; lra. }
  apply Rabs_def1.
  - assert (W : bern n (fun k => f (INR k / INR n)) x >= 1 * (f x - eps / 2) + - (2 * M / (d ^ 2 * INR n ^ 2)) * (INR n * x * (1 - x) + (INR n * x - INR n * x) ^ 2)).
    { apply Rle_ge. apply Lo. intros k Hk. specialize (T k Hk). apply Rabs_le_between in T. lra. }
    lra.
  - assert (W : bern n (fun k => f (INR k / INR n)) x <= 1 * (f x + eps / 2) + 2 * M / (d ^ 2 * INR n ^ 2) * (INR n * x * (1 - x) + (INR n * x - INR n * x) ^ 2)).
    { apply Up. intros k Hk. specialize (T k Hk). apply Rabs_le_between in T. lra. }
    lra.
Qed.
Lemma bern_near n g h e x : 0 <= x <= 1 -> (forall k, (k <= n)%nat -> Rabs (g k - h k) <= e) -> Rabs (bern n g x - bern n h x) <= e.
Proof.
  intros Hx H. assert (A := bern_le n g (fun k => 1 * h k + e * 1) x Hx ltac:(intros k Hk; specialize (H k Hk); apply Rabs_le_between in H; lra)).
  assert (B := bern_le n h (fun k => 1 * g k + e * 1) x Hx ltac:(intros k Hk; specialize (H k Hk); apply Rabs_le_between in H; lra)).
  rewrite (bern_lin n h (fun _ => 1)), bern_const in A. rewrite (bern_lin n g (fun _ => 1)), bern_const in B. apply Rabs_le. lra.
Qed.
Lemma polyfun_tail n d f : polyfun n d f -> polyfun (S n) d (fun z => f (tl z)).
Proof.
  intros (p & Hp & E). exists (map (fun ck => (fst ck, 0%nat :: snd ck)) p). split.
  - unfold mp_ok in *. rewrite List.Forall_forall in *. intros ck Hc. apply in_map_iff in Hc. destruct Hc as (c0 & <- & Hc). destruct (Hp _ Hc). cbn [snd length]. unfold tdeg in *. cbn [list_sum fold_right]. split; [lia|]. exact H0.
  - intros [|t x] L; [discriminate|]. cbn [tl]. rewrite E by (injection L; auto). unfold mpeval. rewrite map_map. apply Rsum_map_ext. intros ck _. cbn [fst snd mono pow]. ring.
Qed.
Lemma polyfun_bern n d m : forall G, (forall k, polyfun n d (G k)) -> polyfun (S n) (m + d) (fun z => bern m (fun k => G k (tl z)) ((hd 0 z + 1) / 2)).
Proof.
  induction m as [|m IH]; intros G H; cbn [bern Nat.add]; [apply (polyfun_tail n d (G 0%nat)); auto|].
  assert (X : polyfun (S n) 1 (fun z => (hd 0 z + 1) / 2)).
  { apply (polyfun_ext _ _ (fun z => 1 / 2 * nth 0 z 0 + 1 / 2)); [intros [|t z] L; [discriminate|]; cbn; field|]. apply polyfun_add; [|apply polyfun_const]. apply polyfun_scal, polyfun_coord. lia. }
  apply polyfun_add; apply (polyfun_mul _ 1 (m + d)).
  - exact X.
  - apply (IH (fun k => G (S k))). auto.
  - apply (polyfun_ext _ _ (fun z => 1 + -1 * ((hd 0 z + 1) / 2))); [intros; ring|]. apply polyfun_add; [apply polyfun_const|apply polyfun_scal; auto].
  - apply (IH G). auto.
Qed.
Theorem weierstrass_nd n : forall f, ucont n f -> forall eps, 0 < eps -> exists d p, polyfun n d p /\ forall x, in_cube n x -> Rabs (f x - p x) < eps.
Proof.
  induction n as [|n IH]; intros f U eps He.
  - exists 0%nat, (fun _ => f []). split; [apply polyfun_const|]. intros x Hx. rewrite (in_cube_0 _ Hx), Rminus_eq_0, Rabs_R0. auto.
  - destruct (U (eps / 2 / 2) ltac:(lra)) as (d & Hd & K). destruct (ucont_bounded _ _ U) as (M & HM & B). destruct (bern_family (d / 2) M (eps / 2) ltac:(lra) HM ltac:(lra)) as (m & Hm & BF).
    assert (P : 0 < INR m) by (apply lt_0_INR; lia).
    assert (G : forall k, exists g, (k <= m)%nat -> exists e, polyfun n e g /\ forall x, in_cube n x -> Rabs (f (2 * (INR k / INR m) - 1 :: x) - g x) < eps / 2).
    { intros k. destruct (le_dec k m) as [Hk|Hk]; [|exists (fun _ => 0); intros; lia].
      assert (Ik : 0 <= INR k / INR m <= 1). { apply le_INR in Hk. assert (0 <= INR k) by apply pos_INR. split; [apply Rdiv_le_0_compat; auto|]. apply Rmult_le_reg_r with (INR m); auto. unfold Rdiv. rewrite Rmult_assoc, Rinv_l by lra. lra. }
      destruct (IH _ (ucont_slice n f (2 * (INR k / INR m) - 1) ltac:(lra) U) (eps / 2) ltac:(lra)) as (e & g & Pg & Hg). exists g. intros _. exists e. auto. }
    assert (G2 : exists e g, forall k, (k <= m)%nat -> polyfun n e (g k) /\ forall x, in_cube n x -> Rabs (f (2 * (INR k / INR m) - 1 :: x) - g k x) < eps / 2).
    { clear - G. set (Q := fun k g e => polyfun n e g /\ forall x, in_cube n x -> Rabs (f (2 * (INR k / INR m) - 1 :: x) - g x) < eps / 2).
      assert (SS : forall j, (j <= S m)%nat -> exists e g, forall k, (k < j)%nat -> Q k (g k) e).
      { induction j as [|j IHj]; intros Hj; [exists 0%nat, (fun _ _ => 0); intros; lia|]. destruct (IHj ltac:(lia)) as (e & g & Hg). destruct (G j) as (g0 & H0). destruct (H0 ltac:(lia)) as (e0 & P0 & A0).
        exists (max e e0), (fun k => if Nat.eq_dec k j then g0 else g k). intros k Hk. destruct (Nat.eq_dec k j) as [->|N].
        - split; auto. eapply polyfun_le; [|exact P0]. lia.
        - destruct (Hg k ltac:(lia)) as (P1 & A1). split; auto. eapply polyfun_le; [|exact P1]. lia. }
      destruct (SS (S m) ltac:(lia)) as (e & g & H). exists e, g. intros k Hk. apply H. lia. }
    destruct G2 as (e & g & Hg). exists (m + e)%nat, (fun z => bern m (fun k => (if le_dec k m then g k else fun _ => 0) (tl z)) ((hd 0 z + 1) / 2)). split.
    + apply polyfun_bern. intros k. destruct (le_dec k m) as [Hk|Hk]; [apply Hg; auto|apply polyfun_const].
    + intros x Hx. destruct (in_cube_S _ _ Hx) as (t & y & -> & Ht & Hy). cbn [hd tl]. set (s := (t + 1) / 2). assert (Hs : 0 <= s <= 1) by (unfold s; lra).
      assert (A := BF (fun u => f (2 * u - 1 :: y))). cbv beta in A. 
      assert (A1 : Rabs (f (2 * s - 1 :: y) - bern m (fun k => f (2 * (INR k / INR m) - 1 :: y)) s) < eps / 2).
      { apply A; auto.
        - intros u v Hu Hv Huv. apply K; [apply in_cube_cons; auto; lra|apply in_cube_cons; auto; lra|]. constructor; [|apply close_refl; auto]. replace (2 * u - 1 - (2 * v - 1)) with (2 * (u - v)) by ring. rewrite Rabs_mult, (Rabs_right 2) by lra. lra.
        - intros u Hu. apply B. apply in_cube_cons; auto. lra. }
      replace (2 * s - 1) with t in A1 by (unfold s; lra).
      assert (A2 : Rabs (bern m (fun k => f (2 * (INR k / INR m) - 1 :: y)) s - bern m (fun k => (if le_dec k m then g k else fun _ => 0) y) s) <= eps / 2).
      { apply bern_near; auto. intros k Hk. destruct (le_dec k m) as [_|N]; [|lia]. left. apply Hg; auto. }
      match goal with |- Rabs (?u - ?w) < _ => replace (u - w) with ((u - bern m (fun k => f (2 * (INR k / INR m) - 1 :: y)) s) + (bern m (fun k => f (2 * (INR k / INR m) - 1 :: y)) s - w)) by ring end. eapply Rle_lt_trans; [apply Rabs_triang|]. lra.
Qed.
