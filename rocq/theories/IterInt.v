(** Iterated integrals of continuous functions over the cube, the simplex, the ball and the sphere. *)
From Coq Require Import Reals List Arith Lia Lra.
From Coquelicot Require Import Coquelicot.
From Verif Require Import Spec RsumLemmas IntegralSpec IntegralProofs IntegralPoly SphereSpec SphereInt RadialInt ConvSpec ConvNdSpec Weier WeierNd TnModel2 PolyFun.
Import ListNotations.
Set Bullet Behavior "Strict Subproofs".
Open Scope R_scope.

(** *** polynomials are uniformly continuous *)
Lemma ucont_mul n f g : ucont n f -> ucont n g -> ucont n (fun x => f x * g x).
Proof.
  intros Uf Ug eps He. destruct (ucont_bounded _ _ Uf) as (A & HA & BA). destruct (ucont_bounded _ _ Ug) as (B & HB & BB).
  destruct (Uf (eps / 2 / (B + 1)) ltac:(apply Rdiv_lt_0_compat; lra)) as (d1 & H1 & K1). destruct (Ug (eps / 2 / (A + 1)) ltac:(apply Rdiv_lt_0_compat; lra)) as (d2 & H2 & K2).
  exists (Rmin d1 d2). split; [apply Rmin_pos; auto|]. intros x y Hx Hy Hc. specialize (K1 x y Hx Hy (close_le _ _ _ _ (Rmin_l _ _) Hc)). specialize (K2 x y Hx Hy (close_le _ _ _ _ (Rmin_r _ _) Hc)).
  replace (f x * g x - f y * g y) with ((f x - f y) * g x + f y * (g x - g y)) by ring. eapply Rle_lt_trans; [apply Rabs_triang|]. rewrite !Rabs_mult. specialize (BA y Hy). specialize (BB x Hx).
  assert (P1 := Rabs_pos (f x - f y)). assert (P2 := Rabs_pos (g x - g y)). assert (P3 := Rabs_pos (f y)). assert (P4 := Rabs_pos (g x)).
  assert (A2 : (B + 1) * Rabs (f x - f y) < eps / 2) by (replace (eps / 2) with ((B + 1) * (eps / 2 / (B + 1))) by (field; lra); apply Rmult_lt_compat_l; lra).
  assert (B2 : (A + 1) * Rabs (g x - g y) < eps / 2) by (replace (eps / 2) with ((A + 1) * (eps / 2 / (A + 1))) by (field; lra); apply Rmult_lt_compat_l; lra). nra.
Qed.
Lemma ucont_hd n : ucont (S n) (fun x => hd 0 x).
Proof. intros eps He. exists eps. split; auto. intros x y _ _ H. destruct H; cbn; auto. rewrite Rminus_eq_0, Rabs_R0. auto. Qed.
Lemma in_cube_tl n x : in_cube (S n) x -> in_cube n (tl x).
Proof. intros H. destruct (in_cube_S _ _ H) as (t & y & -> & _ & Hy). auto. Qed.
Lemma ucont_tl n f : ucont n f -> ucont (S n) (fun x => f (tl x)).
Proof. intros U eps He. destruct (U eps He) as (d & Hd & K). exists d. split; auto. intros x y Hx Hy H. apply K; auto using in_cube_tl. destruct H; [constructor|]; auto. Qed.
Lemma ucont_pow n f k : ucont n f -> ucont n (fun x => f x ^ k).
Proof. intros U. induction k; cbn; [apply ucont_const|]. apply (ucont_mul n f (fun x => f x ^ k)); auto. Qed.
Lemma ucont_plus n f g : ucont n f -> ucont n g -> ucont n (fun x => f x + g x).
Proof. intros Uf Ug. apply (ucont_ext n (fun x => 1 * f x + 1 * g x)); [intros; ring|]. apply ucont_lin; auto. Qed.
Lemma ucont_scal n c f : ucont n f -> ucont n (fun x => c * f x).
Proof. intros U. apply (ucont_mul n (fun _ => c) f); auto using ucont_const. Qed.
Lemma ucont_mono n : forall k, ucont n (mono k).
Proof.
  induction n as [|n IH]; intros k.
  - intros eps He. exists 1. split; [lra|]. intros x y Hx Hy _. rewrite (in_cube_0 _ Hx), (in_cube_0 _ Hy), Rminus_eq_0, Rabs_R0. auto.
  - destruct k as [|a k]; [apply (ucont_ext _ (fun _ => 1)); [intros [|] ?; reflexivity|apply ucont_const]|].
    apply (ucont_ext _ (fun x => hd 0 x ^ a * mono k (tl x))).
    + intros x Hx. destruct (in_cube_S _ _ Hx) as (t & y & -> & _). reflexivity.
    + apply (ucont_mul _ (fun x => hd 0 x ^ a) (fun x => mono k (tl x))); [apply ucont_pow, ucont_hd|apply (ucont_tl n (mono k)); auto].
Qed.
Lemma ucont_polyfun n d p : polyfun n d p -> ucont n p.
Proof.
  intros (q & _ & E). apply (ucont_ext n (mpeval q)); [intros x [L _]; symmetry; auto|]. unfold mpeval. induction q as [|ck q IH]; cbn; [apply ucont_const|].
  - apply (ucont_plus n (fun x => fst ck * mono (snd ck) x) (fun x => Rsum (map (fun ck => fst ck * mono (snd ck) x) q))).
    + apply (ucont_scal n (fst ck) (mono (snd ck))), ucont_mono.
    + clear E. clear IH. induction q as [|c q IH]; cbn; [apply ucont_const|]. apply (ucont_plus n (fun x => fst c * mono (snd c) x) (fun x => Rsum (map (fun ck => fst ck * mono (snd ck) x) q))); auto. apply (ucont_scal n (fst c) (mono (snd c))), ucont_mono.
Qed.
(** *** the general iterated integral *)
Section Iter.
Context (a b : R -> R) (s : R -> R -> R).
Fixpoint iter_int (n : nat) (r : R) (f : point -> R) : R :=
  match n with O => f [] | S m => RInt (fun x => iter_int m (s r x) (fun xs => f (x :: xs))) (a r) (b r) end.
Fixpoint dom (n : nat) (r : R) (x : point) : Prop :=
  match n, x with
  | O, [] => True
  | S m, t :: y => a r <= t <= b r /\ dom m (s r t) y
  | _, _ => False
  end.
Context (range : forall r, 0 <= r <= 1 -> -1 <= a r /\ a r <= b r /\ b r <= 1).
Context (next : forall r x, 0 <= r <= 1 -> a r <= x <= b r -> 0 <= s r x <= 1).
Context (polys : forall n d r p, 0 <= r <= 1 -> polyfun (S n) d p -> continuous_on (a r) (b r) (fun x => iter_int n (s r x) (fun xs => p (x :: xs)))).
Lemma dom_cube n : forall r x, 0 <= r <= 1 -> dom n r x -> in_cube n x.
Proof.
  induction n as [|n IH]; intros r [|t y] Hr H; cbn in H; try contradiction; [split; [reflexivity|constructor]|]. destruct H as [Ht Hy]. destruct (range r Hr) as (A & B & C). apply in_cube_cons; [lra|]. apply (IH (s r t)); auto.
Qed.
Definition mono_at n := forall r f g, 0 <= r <= 1 -> ucont n f -> ucont n g -> (forall x, dom n r x -> f x <= g x) -> iter_int n r f <= iter_int n r g.
Definition lin_at n := forall r f g u v, 0 <= r <= 1 -> ucont n f -> ucont n g -> iter_int n r (fun x => u * f x + v * g x) = u * iter_int n r f + v * iter_int n r g.
Definition one_at n := forall r, 0 <= r <= 1 -> 0 <= iter_int n r (fun _ => 1) <= 2 ^ n.
Lemma scal_of n r f u : lin_at n -> 0 <= r <= 1 -> ucont n f -> iter_int n r (fun x => u * f x + 0 * f x) = u * iter_int n r f.
Proof. intros L Hr U. rewrite L by auto. ring. Qed.
Lemma near_of n r f g e : mono_at n -> lin_at n -> 0 <= r <= 1 -> ucont n f -> ucont n g -> (forall x, dom n r x -> Rabs (f x - g x) <= e) ->
  Rabs (iter_int n r f - iter_int n r g) <= e * iter_int n r (fun _ => 1).
Proof.
  intros M L Hr Uf Ug H. assert (C := ucont_const n 1).
  assert (A := M r f (fun x => 1 * g x + e * 1) Hr Uf (ucont_lin n g (fun _ => 1) 1 e Ug C) ltac:(intros x Hx; specialize (H x Hx); apply Rabs_le_between in H; lra)).
  assert (B := M r g (fun x => 1 * f x + e * 1) Hr Ug (ucont_lin n f (fun _ => 1) 1 e Uf C) ltac:(intros x Hx; specialize (H x Hx); apply Rabs_le_between in H; lra)).
  rewrite (L r g (fun _ => 1) 1 e Hr Ug C) in A. rewrite (L r f (fun _ => 1) 1 e Hr Uf C) in B. apply Rabs_le. lra.
Qed.
Lemma inner_cont n r f : mono_at n -> lin_at n -> one_at n -> 0 <= r <= 1 -> ucont (S n) f -> continuous_on (a r) (b r) (fun x => iter_int n (s r x) (fun xs => f (x :: xs))).
Proof.
  intros M L O Hr U x Hx eps He. destruct (range r Hr) as (R1 & R2 & R3). assert (P : 0 < 2 ^ n) by (apply pow_lt; lra).
  destruct (weierstrass_nd (S n) f U (eps / 4 / 2 ^ n) ltac:(apply Rdiv_lt_0_compat; lra)) as (d & p & Pp & A). destruct (polys n d r p Hr Pp x Hx (eps / 4) ltac:(lra)) as (delta & Hd & K).
  exists delta. split; auto. intros y Hy Hyx. specialize (K y Hy Hyx). cbv beta in K.
  assert (N : forall t, a r <= t <= b r -> Rabs (iter_int n (s r t) (fun xs => f (t :: xs)) - iter_int n (s r t) (fun xs => p (t :: xs))) <= eps / 4).
  { intros t Ht. assert (Hs := next r t Hr Ht). apply Rle_trans with (eps / 4 / 2 ^ n * iter_int n (s r t) (fun _ => 1)).
    - apply near_of; auto; [apply ucont_slice; auto; lra|apply ucont_slice; [lra|apply (ucont_polyfun _ d); auto]|]. intros z Hz. left. apply A. apply in_cube_cons; [lra|]. apply (dom_cube n (s r t)); auto.
    - destruct (O _ Hs) as (O1 & O2). assert (0 < eps / 4 / 2 ^ n) by (apply Rdiv_lt_0_compat; lra). replace (eps / 4) with (eps / 4 / 2 ^ n * 2 ^ n) at 2 by (field; lra). apply Rmult_le_compat_l; lra. }
  assert (N1 := N x Hx). assert (N2 := N y Hy). apply Rabs_def2 in K. apply Rabs_le_between in N1. apply Rabs_le_between in N2. apply Rabs_def1; lra.
Qed.
Lemma iter_all n : mono_at n /\ lin_at n /\ one_at n.
Proof.
  induction n as [|n (M & L & O)].
  - split; [|split].
    + intros r f g _ _ _ H. cbn. apply H. exact I.
    + intros r f g u v _ _ _. reflexivity.
    + intros r _. cbn. lra.
  - assert (EX : forall r f, 0 <= r <= 1 -> ucont (S n) f -> ex_RInt (fun x => iter_int n (s r x) (fun xs => f (x :: xs))) (a r) (b r)).
    { intros r f Hr U. apply continuous_on_ex_RInt; [apply range; auto|]. apply inner_cont; auto. }
    split; [|split].
    + intros r f g Hr Uf Ug H. cbn [iter_int]. destruct (range r Hr) as (R1 & R2 & R3). apply RInt_le; auto. intros x Hx. apply M; [apply next; auto; lra|apply ucont_slice; auto; lra|apply ucont_slice; auto; lra|]. intros y Hy. apply H. cbn. split; [lra|auto].
    + intros r f g u v Hr Uf Ug. cbn [iter_int]. destruct (range r Hr) as (R1 & R2 & R3).
      rewrite (RInt_ext _ (fun x => plus (scal u (iter_int n (s r x) (fun xs => f (x :: xs)))) (scal v (iter_int n (s r x) (fun xs => g (x :: xs)))))).
      * rewrite (RInt_plus (V := R_CompleteNormedModule)); [|apply (ex_RInt_scal (V := R_NormedModule)); auto|apply (ex_RInt_scal (V := R_NormedModule)); auto]. rewrite !(RInt_scal (V := R_CompleteNormedModule)) by auto. reflexivity.
      * intros x Hx. rewrite Rmin_left, Rmax_right in Hx by auto. apply (L (s r x) (fun xs => f (x :: xs)) (fun xs => g (x :: xs))); [apply next; auto; lra|apply ucont_slice; auto; lra|apply ucont_slice; auto; lra].
    + intros r Hr. cbn [iter_int]. destruct (range r Hr) as (R1 & R2 & R3). assert (E := EX r (fun _ => 1) Hr (ucont_const _ 1)). cbv beta in E.
      assert (P : 0 < 2 ^ n) by (apply pow_lt; lra). split.
      * apply RInt_ge_0; auto. intros x Hx. apply O. apply next; auto; lra.
      * apply Rle_trans with (RInt (fun _ => 2 ^ n) (a r) (b r)).
        -- apply RInt_le; auto; [apply ex_RInt_const|]. intros x Hx. apply O. apply next; auto; lra.
        -- rewrite RInt_const. unfold scal. cbn. unfold mult. cbn. nra.
Qed.
Lemma iter_near n r f g e : 0 <= r <= 1 -> ucont n f -> ucont n g -> (forall x, dom n r x -> Rabs (f x - g x) <= e) ->
  Rabs (iter_int n r f - iter_int n r g) <= e * iter_int n r (fun _ => 1).
Proof. destruct (iter_all n) as (M & L & _). intros. apply near_of; auto. Qed.
Lemma iter_ext n r f g : 0 <= r <= 1 -> ucont n f -> ucont n g -> (forall x, dom n r x -> f x = g x) -> iter_int n r f = iter_int n r g.
Proof. destruct (iter_all n) as (M & _). intros Hr Uf Ug H. apply Rle_antisym; apply M; auto; intros x Hx; rewrite H; auto; lra. Qed.
(** the integral only depends on the values on the domain, whatever the function *)
Lemma iter_ext_dom n : forall r f g, 0 <= r <= 1 -> (forall x, dom n r x -> f x = g x) -> iter_int n r f = iter_int n r g.
Proof.
  induction n as [|n IH]; intros r f g Hr H; cbn [iter_int]; [apply H; exact I|]. destruct (range r Hr) as (R1 & R2 & R3). apply RInt_ext. intros x Hx. rewrite Rmin_left, Rmax_right in Hx by auto.
  apply IH; [apply next; auto; lra|]. intros y Hy. apply H. split; [lra|auto].
Qed.
End Iter.
(** *** the three instances *)
Lemma cube_iter n r : forall f, cube_int n f = iter_int (fun _ => -1) (fun _ => 1) (fun r _ => r) n r f.
Proof. induction n as [|n IH]; intros f; cbn [cube_int iter_int]; [reflexivity|]. apply RInt_ext. intros x _. apply IH. Qed.
Lemma simplex_iter n : forall r f, simplex_int n r f = iter_int (fun _ => 0) (fun r => r) (fun r x => r - x) n r f.
Proof. induction n as [|n IH]; intros r f; cbn [simplex_int iter_int]; [reflexivity|]. apply RInt_ext. intros x _. apply IH. Qed.
Lemma ball_iter n : forall r f, ball_int n r f = iter_int (fun r => - r) (fun r => r) (fun r x => sqrt (r ^ 2 - x ^ 2)) n r f.
Proof. induction n as [|n IH]; intros r f; cbn [ball_int iter_int]; [reflexivity|]. apply RInt_ext. intros x _. apply IH. Qed.
Lemma continuous_continuous_on a b f : (forall x, continuous f x) -> continuous_on a b f.
Proof.
  intros C x _ eps He. specialize (C x). assert (K : continuity_pt f x) by (apply continuity_pt_filterlim; exact C). destruct (K eps He) as (d & Hd & D). exists d. split; auto. intros y _ Hy.
  destruct (Req_dec x y) as [->|N]; [rewrite Rminus_eq_0, Rabs_R0; auto|]. apply D. split; [split; [exact I|auto]|]. exact Hy.
Qed.
Lemma continuous_on_ext a b f g : (forall x, a <= x <= b -> f x = g x) -> continuous_on a b f -> continuous_on a b g.
Proof. intros E C x Hx eps He. destruct (C x Hx eps He) as (d & Hd & K). exists d. split; auto. intros y Hy Hd'. rewrite <- !E by auto. auto. Qed.
Lemma continuous_Rsum {A} (l : list A) (F : A -> R -> R) x : (forall c, In c l -> continuous (F c) x) -> continuous (fun t => Rsum (map (fun c => F c t) l)) x.
Proof. induction l as [|c l IH]; intros H; cbn; [apply continuous_const|]. apply (continuous_plus (F c) (fun t => Rsum (map (fun c => F c t) l))); [apply H; left; auto|apply IH; intros; apply H; right; auto]. Qed.
Lemma mp_slice n d p : mp_ok (S n) d p -> forall t x, mpeval p (t :: x) = mpeval (map (fun ck => (fst ck * t ^ hd 0%nat (snd ck), tl (snd ck))) p) x.
Proof.
  intros Hp t x. unfold mpeval. rewrite map_map. apply Rsum_map_ext. intros [c k] Hk. unfold mp_ok in Hp. rewrite List.Forall_forall in Hp. apply Hp in Hk. destruct k as [|a k]; [cbn in Hk; destruct Hk; discriminate|]. cbn [fst snd hd tl mono]. ring.
Qed.
Lemma mp_slice_len n d p t : mp_ok (S n) d p -> List.Forall (fun ck => length (snd ck) = n) (map (fun ck : R * list nat => (fst ck * t ^ hd 0%nat (snd ck), tl (snd ck))) p).
Proof.
  intros Hp. unfold mp_ok in Hp. rewrite List.Forall_forall in *. intros ck Hc. apply in_map_iff in Hc. destruct Hc as ([c k] & <- & Hc). apply Hp in Hc. cbn in *. destruct k; cbn in *; [destruct Hc; discriminate|]. destruct Hc as [Hc _]. congruence.
Qed.
Lemma ball_polys n d r p : 0 <= r <= 1 -> polyfun (S n) d p -> continuous_on (- r) r (fun x => iter_int (fun r => - r) (fun r => r) (fun r x => sqrt (r ^ 2 - x ^ 2)) n (sqrt (r ^ 2 - x ^ 2)) (fun xs => p (x :: xs))).
Proof.
  intros Hr (q & Hq & E). apply (continuous_on_ext _ _ (fun x => Rsum (map (fun ck => (fst ck * bal (tl (snd ck))) * (x ^ hd 0%nat (snd ck) * sqrt (r ^ 2 - x ^ 2) ^ (n + tdeg (tl (snd ck))))) q))).
  - intros x _. rewrite <- ball_iter. rewrite (ball_int_ext _ _ _ (mpeval (map (fun ck => (fst ck * x ^ hd 0%nat (snd ck), tl (snd ck))) q))) by (intros y Hy; rewrite <- (mp_slice n d) by auto; apply E; cbn; congruence).
    rewrite ball_int_mpeval; [|apply sqrt_pos|apply (mp_slice_len n d); auto]. rewrite map_map. apply Rsum_map_ext. intros [c k] _. cbn [fst snd]. ring.
  - apply continuous_continuous_on. intros x. apply (continuous_Rsum q (fun ck x => fst ck * bal (tl (snd ck)) * (x ^ hd 0%nat (snd ck) * sqrt (r ^ 2 - x ^ 2) ^ (n + tdeg (tl (snd ck)))))). intros ck _. apply (continuous_scal_r (K := R_AbsRing) (V := R_NormedModule)). apply cap_cont.
Qed.
Lemma cube_polys n d r p : 0 <= r <= 1 -> polyfun (S n) d p -> continuous_on (-1) 1 (fun x => iter_int (fun _ => -1) (fun _ => 1) (fun r _ => r) n r (fun xs => p (x :: xs))).
Proof.
  intros Hr (q & Hq & E). apply (continuous_on_ext _ _ (fun x => Rsum (map (fun ck => (fst ck * Rprod (map pow_int (tl (snd ck)))) * x ^ hd 0%nat (snd ck)) q))).
  - intros x _. rewrite <- cube_iter. rewrite (cube_int_ext _ _ (mpeval (map (fun ck => (fst ck * x ^ hd 0%nat (snd ck), tl (snd ck))) q))) by (intros y Hy; rewrite <- (mp_slice n d) by auto; apply E; cbn; congruence).
    rewrite cube_int_mpeval; [|apply (mp_slice_len n d); auto]. rewrite map_map. apply Rsum_map_ext. intros [c k] _. cbn [fst snd]. ring.
  - apply continuous_continuous_on. intros x. apply (continuous_Rsum q (fun ck x => fst ck * Rprod (map pow_int (tl (snd ck))) * x ^ hd 0%nat (snd ck))). intros ck _. apply (ex_derive_continuous (K := R_AbsRing) (V := R_NormedModule)). auto_derive. auto.
Qed.
Lemma mpeval_bary h : forall q y, mpeval q y = mpeval (map (fun ck => (fst ck, 0%nat :: snd ck)) q) (h :: y).
Proof. intros q y. unfold mpeval. rewrite map_map. apply Rsum_map_ext. intros [c k] _. cbn [fst snd mono pow]. ring. Qed.
Lemma simplex_polys n d r p : 0 <= r <= 1 -> polyfun (S n) d p -> continuous_on 0 r (fun x => iter_int (fun _ => 0) (fun r => r) (fun r x => r - x) n (r - x) (fun xs => p (x :: xs))).
Proof.
  intros Hr (q & Hq & E). apply (continuous_on_ext _ _ (fun x => Rsum (map (fun ck => fst ck * x ^ hd 0%nat (snd ck) * sval n (r - x) (0%nat :: tl (snd ck))) q))).
  - intros x _. rewrite <- simplex_iter. set (q' := map (fun ck => (fst ck * x ^ hd 0%nat (snd ck), tl (snd ck))) q).
    rewrite (simplex_int_ext _ _ _ (fun y => mpeval (map (fun ck => (fst ck, 0%nat :: snd ck)) q') ((r - x - Rsum y) :: y))) by (intros y Hy; rewrite <- mpeval_bary; unfold q'; rewrite <- (mp_slice n d) by auto; apply E; cbn; congruence).
    rewrite simplex_int_mpeval.
    + unfold q'. rewrite !map_map. apply Rsum_map_ext. intros [c k] _. cbn [fst snd]. ring.
    + assert (Q := mp_slice_len n d q x Hq). fold q' in Q. rewrite List.Forall_forall in *. intros ck Hc. apply in_map_iff in Hc. destruct Hc as (c & <- & Hc). cbn [snd length]. rewrite (Q c Hc). reflexivity.
  - apply continuous_continuous_on. intros x. apply (continuous_Rsum q (fun ck x => fst ck * x ^ hd 0%nat (snd ck) * sval n (r - x) (0%nat :: tl (snd ck)))). intros ck _. unfold sval. apply (ex_derive_continuous (K := R_AbsRing) (V := R_NormedModule)). auto_derive. auto.
Qed.
Lemma cube_dom n r : forall x, dom (fun _ => -1) (fun _ => 1) (fun r _ => r) n r x -> in_cube n x.
Proof. induction n as [|n IH]; intros [|t x] H; cbn in H; try contradiction; [split; [reflexivity|constructor]|]. destruct H. apply in_cube_cons; auto. Qed.
Lemma simplex_dom n : forall r x, dom (fun _ => 0) (fun r => r) (fun r x => r - x) n r x -> 0 <= r -> length x = n /\ List.Forall (fun t => 0 <= t) x /\ Rsum x <= r.
Proof.
  induction n as [|n IH]; intros r [|t x] H Hr; cbn in H; try contradiction; [cbn; auto|]. destruct H as [Ht H]. destruct (IH _ _ H ltac:(lra)) as (L & F & S). cbn [length Rsum]. repeat split; [congruence|constructor; auto; lra|lra].
Qed.
Lemma ball_dom n : forall r x, dom (fun r => - r) (fun r => r) (fun r x => sqrt (r ^ 2 - x ^ 2)) n r x -> 0 <= r -> length x = n /\ Rsum (map (fun t => t ^ 2) x) <= r ^ 2.
Proof.
  induction n as [|n IH]; intros r [|t x] H Hr; cbn [dom] in H; try contradiction; [cbn [length map Rsum]; split; auto; nra|]. destruct H as [Ht H]. destruct (IH _ _ H (sqrt_pos _)) as (L & S). cbn [length map Rsum]. split; [congruence|].
  rewrite pow2_sqrt in S by nra. lra.
Qed.
Definition D_range a b := forall r, 0 <= r <= 1 -> -1 <= a r /\ a r <= b r /\ b r <= 1.
Lemma cube_near n f g e : ucont n f -> ucont n g -> (forall x, in_cube n x -> Rabs (f x - g x) <= e) -> Rabs (cube_int n f - cube_int n g) <= e * cube_int n (fun _ => 1).
Proof.
  intros Uf Ug H. rewrite !(cube_iter n 1). apply iter_near; auto; try lra.
  - intros; cbv beta; repeat split; lra.
  - intros m d r p Hr. apply cube_polys. auto.
  - intros x Hx. apply H. apply (cube_dom n 1). auto.
Qed.
Lemma simplex_near n f g e : ucont n f -> ucont n g -> (forall x, length x = n -> List.Forall (fun t => 0 <= t) x -> Rsum x <= 1 -> Rabs (f x - g x) <= e) -> Rabs (simplex_int n 1 f - simplex_int n 1 g) <= e * simplex_int n 1 (fun _ => 1).
Proof.
  intros Uf Ug H. rewrite !simplex_iter. apply iter_near; auto; try lra.
  - intros; cbv beta; repeat split; lra.
  - intros; cbv beta; repeat split; lra.
  - intros m d r p Hr. apply simplex_polys. auto.
  - intros x Hx. destruct (simplex_dom _ _ _ Hx ltac:(lra)) as (L & F & S). apply H; auto.
Qed.
Lemma ball_near n f g e : ucont n f -> ucont n g -> (forall x, in_ball n x -> Rabs (f x - g x) <= e) -> Rabs (ball_int n 1 f - ball_int n 1 g) <= e * ball_int n 1 (fun _ => 1).
Proof.
  intros Uf Ug H. rewrite !ball_iter. apply iter_near; auto; try lra.
  - intros; cbv beta; repeat split; lra.
  - intros r x Hr Hx. split; [apply sqrt_pos|]. rewrite <- sqrt_1. apply sqrt_le_1_alt. nra.
  - intros m d r p Hr. apply ball_polys. auto.
  - intros x Hx. destruct (ball_dom _ _ _ Hx ltac:(lra)) as (L & S). apply H. split; [auto|]. rewrite pow1 in S. auto.
Qed.
Lemma cube_ext n f g : (forall x, in_cube n x -> f x = g x) -> cube_int n f = cube_int n g.
Proof. intros H. rewrite !(cube_iter n 1). apply iter_ext_dom; try (intros; cbv beta; repeat split; lra). intros x Hx. apply H. apply (cube_dom n 1). auto. Qed.
Lemma simplex_ext n f g : (forall x, length x = n -> List.Forall (fun t => 0 <= t) x -> Rsum x <= 1 -> f x = g x) -> simplex_int n 1 f = simplex_int n 1 g.
Proof. intros H. rewrite !simplex_iter. apply iter_ext_dom; try (intros; cbv beta; repeat split; lra). intros x Hx. destruct (simplex_dom _ _ _ Hx ltac:(lra)) as (L & F & S). apply H; auto. Qed.
Lemma ball_ext n f g : (forall x, in_ball n x -> f x = g x) -> ball_int n 1 f = ball_int n 1 g.
Proof.
  intros H. rewrite !ball_iter. apply iter_ext_dom; try (intros; cbv beta; repeat split; lra).
  - intros r x Hr Hx. split; [apply sqrt_pos|]. rewrite <- sqrt_1. apply sqrt_le_1_alt. nra.
  - intros x Hx. destruct (ball_dom _ _ _ Hx ltac:(lra)) as (L & S). apply H. split; [auto|]. rewrite pow1 in S. auto.
Qed.
(** *** the sphere *)
Lemma on_sphere_slice n t y : on_sphere n y -> on_sphere (S n) (cos t :: map (Rmult (sin t)) y).
Proof.
  intros [L S]. split; [cbn; rewrite map_length; congruence|]. cbn [map Rsum]. rewrite map_map, (map_ext _ (fun u => sin t ^ 2 * u ^ 2)) by (intros; ring). rewrite Rsum_map_scal, S. assert (E := sin2_cos2 t). unfold Rsqr in E. nra.
Qed.
Lemma on_sphere_cube n y : on_sphere n y -> in_cube n y.
Proof.
  intros [L S]. split; auto. assert (H : Rsum (map (fun t => t ^ 2) y) <= 1) by lra. clear L S.
  assert (P : forall z : list R, 0 <= Rsum (map (fun t => t ^ 2) z)) by (induction z; cbn [map Rsum]; [lra|]; assert (0 <= a ^ 2) by apply pow2_ge_0; lra).
  induction y as [|t y IH]; constructor; cbn [map Rsum] in H; [specialize (P y); nra|]. apply IH. assert (0 <= t ^ 2) by apply pow2_ge_0. lra.
Qed.
Lemma in_cube_scale n u y : -1 <= u <= 1 -> in_cube n y -> in_cube n (map (Rmult u) y).
Proof.
  intros Hu [L F]. split; [rewrite map_length; auto|]. clear L. induction F; cbn; constructor; auto. nra.
Qed.
Lemma ucont_polar n f t : ucont (S n) f -> ucont n (fun y => f (cos t :: map (Rmult (sin t)) y)).
Proof.
  intros U eps He. destruct (U eps He) as (d & Hd & K). exists d. split; auto. assert (C := COS_bound t). assert (S := SIN_bound t).
  intros x y Hx Hy Hc. apply K; [apply in_cube_cons; auto; apply in_cube_scale; auto|apply in_cube_cons; auto; apply in_cube_scale; auto|].
  constructor; [rewrite Rminus_eq_0, Rabs_R0; auto|]. clear - Hc S. induction Hc as [|a b x y H Hc IH]; cbn; constructor; auto. replace (sin t * a - sin t * b) with (sin t * (a - b)) by ring. rewrite Rabs_mult.
  assert (Rabs (sin t) <= 1) by (apply Rabs_le; lra). assert (0 <= Rabs (a - b)) by apply Rabs_pos. assert (0 <= Rabs (sin t)) by apply Rabs_pos. nra.
Qed.
Lemma polar_near n f : ucont (S n) f -> forall t eps, 0 < eps -> exists delta, 0 < delta /\ forall u, Rabs (u - t) < delta -> forall y, in_cube n y ->
  Rabs (f (cos u :: map (Rmult (sin u)) y) - f (cos t :: map (Rmult (sin t)) y)) < eps.
Proof.
  intros U t eps He. destruct (U eps He) as (d & Hd & K).
  destruct (continuity_cos t d Hd) as (d1 & H1 & K1). destruct (continuity_sin t d Hd) as (d2 & H2 & K2). exists (Rmin d1 d2). split; [apply Rmin_pos; auto|]. intros u Hu y Hy.
  assert (C := COS_bound t). assert (S := SIN_bound t). assert (C' := COS_bound u). assert (S' := SIN_bound u).
  apply K; [apply in_cube_cons; auto; apply in_cube_scale; auto|apply in_cube_cons; auto; apply in_cube_scale; auto|].
  destruct (Req_dec t u) as [->|N]; [apply close_refl; auto|].
  assert (Q1 : Rabs (cos u - cos t) < d) by (apply K1; split; [split; [exact I|auto]|]; apply Rlt_le_trans with (1 := Hu), Rmin_l).
  assert (Q2 : Rabs (sin u - sin t) < d) by (apply K2; split; [split; [exact I|auto]|]; apply Rlt_le_trans with (1 := Hu), Rmin_r).
  constructor; auto. destruct Hy as [_ F]. clear - F Q2. induction F as [|z y Hz F IH]; cbn; constructor; auto. replace (sin u * z - sin t * z) with ((sin u - sin t) * z) by ring. rewrite Rabs_mult.
  assert (Rabs z <= 1) by (apply Rabs_le; lra). assert (0 <= Rabs (sin u - sin t)) by apply Rabs_pos. assert (0 <= Rabs z) by apply Rabs_pos. nra.
Qed.
Definition smono n := forall f g, ucont n f -> ucont n g -> (forall x, on_sphere n x -> f x <= g x) -> sphere_int n f <= sphere_int n g.
Definition slin n := forall f g u v, ucont n f -> ucont n g -> sphere_int n (fun x => u * f x + v * g x) = u * sphere_int n f + v * sphere_int n g.
Lemma snear_of n f g e : smono n -> slin n -> ucont n f -> ucont n g -> (forall x, on_sphere n x -> Rabs (f x - g x) <= e) ->
  Rabs (sphere_int n f - sphere_int n g) <= e * sphere_int n (fun _ => 1).
Proof.
  intros M L Uf Ug H. assert (C := ucont_const n 1).
  assert (A := M f (fun x => 1 * g x + e * 1) Uf (ucont_lin n g (fun _ => 1) 1 e Ug C) ltac:(intros x Hx; specialize (H x Hx); apply Rabs_le_between in H; lra)).
  assert (B := M g (fun x => 1 * f x + e * 1) Ug (ucont_lin n f (fun _ => 1) 1 e Uf C) ltac:(intros x Hx; specialize (H x Hx); apply Rabs_le_between in H; lra)).
  rewrite (L g (fun _ => 1) 1 e Ug C) in A. rewrite (L f (fun _ => 1) 1 e Uf C) in B. apply Rabs_le. lra.
Qed.
Lemma sone n : 0 <= sphere_int (S n) (fun _ => 1).
Proof. rewrite sphere_int_1. left. apply sph0_pos. Qed.
Lemma sphere_all n : smono (S n) /\ slin (S n).
Proof.
  induction n as [|n (M & L)].
  - assert (P1 : on_sphere 1 [1]) by (split; [reflexivity|cbn; lra]). assert (P2 : on_sphere 1 [-1]) by (split; [reflexivity|cbn; lra]). split.
    + intros f g _ _ H. cbn. assert (A := H _ P1). assert (B := H _ P2). lra.
    + intros f g u v _ _. cbn. ring.
  - assert (EX : forall f, ucont (S (S n)) f -> ex_RInt (fun t => sin t ^ n * sphere_int (S n) (fun y => f (cos t :: map (Rmult (sin t)) y))) 0 PI).
    { intros f U. apply (ex_RInt_continuous (V := R_CompleteNormedModule)). intros t _. apply (continuous_mult (K := R_AbsRing)); [apply (ex_derive_continuous (K := R_AbsRing) (V := R_NormedModule)); auto_derive; auto|].
      apply continuity_pt_filterlim. intros eps He. assert (O := sone n).
      destruct (polar_near (S n) f U t (eps / (sphere_int (S n) (fun _ => 1) + 1)) ltac:(apply Rdiv_lt_0_compat; lra)) as (d & Hd & K). exists d. split; auto. intros u [_ Hu]. change (Rabs (u - t) < d) in Hu. match goal with |- dist _ ?x ?y < _ => change (Rabs (x - y) < eps) end.
      eapply Rle_lt_trans; [apply (snear_of (S n) _ _ (eps / (sphere_int (S n) (fun _ => 1) + 1)) M L); try apply ucont_polar; auto; intros y Hy; left; apply K; auto; apply on_sphere_cube; auto|].
      set (o := sphere_int (S n) (fun _ => 1)) in *. apply Rmult_lt_reg_r with (o + 1); [lra|]. replace (eps / (o + 1) * o * (o + 1)) with (eps * o) by (field; lra). nra. }
    split.
    + intros f g Uf Ug H. rewrite !sphere_int_SS. assert (P := PI_RGT_0). apply RInt_le; auto; try lra. intros t Ht. apply Rmult_le_compat_l; [apply pow_le; apply sin_ge_0; lra|]. apply M; try apply ucont_polar; auto. intros y Hy. apply H. apply on_sphere_slice. auto.
    + intros f g u v Uf Ug. rewrite !sphere_int_SS.
      rewrite (RInt_ext _ (fun t => plus (scal u (sin t ^ n * sphere_int (S n) (fun y => f (cos t :: map (Rmult (sin t)) y)))) (scal v (sin t ^ n * sphere_int (S n) (fun y => g (cos t :: map (Rmult (sin t)) y)))))).
      * rewrite (RInt_plus (V := R_CompleteNormedModule)); [|apply (ex_RInt_scal (V := R_NormedModule)); auto|apply (ex_RInt_scal (V := R_NormedModule)); auto]. rewrite !(RInt_scal (V := R_CompleteNormedModule)) by auto. reflexivity.
      * intros t _. rewrite (L (fun y => f (cos t :: map (Rmult (sin t)) y)) (fun y => g (cos t :: map (Rmult (sin t)) y))) by (apply ucont_polar; auto). unfold plus, scal, mult. cbn. unfold mult. cbn. ring.
Qed.
Lemma sphere_near n f g e : (1 <= n)%nat -> ucont n f -> ucont n g -> (forall x, on_sphere n x -> Rabs (f x - g x) <= e) -> Rabs (sphere_int n f - sphere_int n g) <= e * sphere_int n (fun _ => 1).
Proof. intros Hn. destruct n; [lia|]. destruct (sphere_all n). intros. apply snear_of; auto. Qed.
Lemma sphere_ext n : forall f g, (forall x, on_sphere n x -> f x = g x) -> sphere_int n f = sphere_int n g.
Proof.
  induction n as [|[|n] IH]; intros f g H; [reflexivity| |].
  - cbn. rewrite (H [1]), (H [-1]) by (split; [reflexivity|cbn; lra]). reflexivity.
  - rewrite !sphere_int_SS. apply RInt_ext. intros t _. f_equal. apply IH. intros y Hy. apply H. apply on_sphere_slice. auto.
Qed.
