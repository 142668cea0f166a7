(** Balls and spheres with centre and radius. *)
From Coq Require Import Reals List Arith Lia Lra.
From Coquelicot Require Import Coquelicot.
From Verif Require Import Spec RsumLemmas IntegralSpec IntegralProofs IntegralPoly SphereSpec SphereInt RadialInt PolyFun RoundSpec TrigPoly PyBase UnModel C1Model C1Proofs GeomModel RoundModel.
Import ListNotations.
Set Bullet Behavior "Strict Subproofs".
Open Scope R_scope.

Lemma shifted_eq c r y : vadd c (vscale r y) = shifted c r y.
Proof. unfold vadd, vscale, shifted. revert y. induction c as [|a c IH]; intros [|b y]; cbn; auto. rewrite IH. auto. Qed.
Lemma shifted_length c r y : length y = length c -> length (shifted c r y) = length c.
Proof. intros H. unfold shifted. rewrite map_length, combine_length, H. lia. Qed.
Lemma shifted_map c r : forall y, length y = length c -> shifted c r y = map (fun l => l y) (map (fun i => fun y : point => nth i c 0 + r * nth i y 0) (seq 0 (length c))).
Proof.
  unfold shifted. induction c as [|a c IH]; intros [|b y] H; try discriminate; auto. cbn [List.combine map length seq fst snd]. f_equal. rewrite IH by (cbn in H; lia).
  rewrite <- seq_shift, !map_map. apply map_ext. intros i. auto.
Qed.
Lemma polyfun_shifted d f c r : polyfun (length c) d f -> polyfun (length c) d (fun y => f (shifted c r y)).
Proof.
  intros H. apply (polyfun_ext _ d (fun y => f (map (fun l => l y) (map (fun i => fun y : point => nth i c 0 + r * nth i y 0) (seq 0 (length c)))))).
  - intros y Hy. rewrite <- shifted_map; auto.
  - apply (polyfun_comp _ (length c)); auto; [rewrite map_length, seq_length; auto|]. apply List.Forall_forall. intros l Hl. apply in_map_iff in Hl. destruct Hl as [i [<- Hi]]. apply in_seq in Hi.
    apply polyfun_add; [apply polyfun_const|]. apply polyfun_scal. apply polyfun_coord. lia.
Qed.
(* ------------------------------------------------------------------ integrals of polynomial functions *)
Lemma polyfun_len n d p : mp_ok n d p -> List.Forall (fun ck => length (snd ck) = n) p.
Proof. intros H. eapply List.Forall_impl; [|exact H]. cbn. intros ? []; auto. Qed.
Lemma ball_scale n d f r : 0 <= r -> polyfun n d f -> ball_int n r f = r ^ n * ball_int n 1 (fun y => f (map (Rmult r) y)).
Proof.
  intros Hr [p [Hp E]]. rewrite (ball_int_ext n r f (mpeval p)) by auto. rewrite (ball_int_ext n 1 _ (mpeval (map (fun ck => (fst ck * r ^ tdeg (snd ck), snd ck)) p))).
  - assert (Hl := polyfun_len _ _ _ Hp). rewrite (ball_int_mpeval n r p), (ball_int_mpeval n 1); auto; try lra.
    + rewrite map_map, <- Rsum_map_scal. apply Rsum_map_ext. intros ck _. cbn [fst snd]. rewrite pow1, pow_add. ring.
    + apply List.Forall_forall. intros ck Hc. apply in_map_iff in Hc. destruct Hc as [[c k] [<- Hc]]. apply polyfun_len in Hp. rewrite List.Forall_forall in Hp. exact (Hp _ Hc).
  - intros x Hx. rewrite E by (rewrite map_length; auto). unfold mpeval. rewrite map_map. apply Rsum_map_ext. intros ck Hc. cbn [fst snd]. apply polyfun_len in Hp. rewrite List.Forall_forall in Hp. rewrite mono_scale by (rewrite (Hp _ Hc); auto). ring.
Qed.
Lemma slice_mpeval t p n x : List.Forall (fun ck => length (snd ck) = S n) p -> mpeval p (t :: x) = mpeval (map (fun ck => (fst ck * t ^ hd 0%nat (snd ck), tl (snd ck))) p) x.
Proof.
  intros Hp. rewrite List.Forall_forall in Hp. unfold mpeval. rewrite map_map. apply Rsum_map_ext. intros [c k] Hk. apply Hp in Hk. destruct k as [|a k]; [discriminate|]. cbn [fst snd hd tl mono]. ring.
Qed.
Lemma ball_slices n d f r : 0 <= r -> polyfun (S n) d f -> is_RInt (fun x => ball_int n (sqrt (r ^ 2 - x ^ 2)) (fun xs => f (x :: xs))) (- r) r (ball_int (S n) r f).
Proof.
  intros Hr [p [Hp E]]. apply polyfun_len in Hp. cbn [ball_int]. apply (@RInt_correct R_CompleteNormedModule).
  exists (Rsum (map (fun ck => (fst ck * bal (tl (snd ck))) * (r ^ (hd 0%nat (snd ck) + (n + tdeg (tl (snd ck))) + 1) * W (hd 0%nat (snd ck)) (n + tdeg (tl (snd ck)) + 1))) p)).
  apply (is_RInt_ext (fun x => Rsum (map (fun ck => (fst ck * bal (tl (snd ck))) * (x ^ hd 0%nat (snd ck) * sqrt (r ^ 2 - x ^ 2) ^ (n + tdeg (tl (snd ck))))) p))).
  - intros t _. rewrite (ball_int_ext n _ _ (mpeval (map (fun ck => (fst ck * t ^ hd 0%nat (snd ck), tl (snd ck))) p))) by (intros; rewrite E by (cbn; lia); rewrite (slice_mpeval t p n); auto).
    rewrite ball_int_mpeval.
    + rewrite map_map. apply Rsum_map_ext. intros ck _. cbn [fst snd]. ring.
    + apply sqrt_pos.
    + apply List.Forall_forall. intros ck Hc. apply in_map_iff in Hc. destruct Hc as [[c k] [<- Hc]]. rewrite List.Forall_forall in Hp. apply Hp in Hc. cbn [snd] in *. destruct k; [discriminate|]. cbn in *. lia.
  - apply (is_RInt_Rsum (fun ck x => (fst ck * bal (tl (snd ck))) * (x ^ hd 0%nat (snd ck) * sqrt (r ^ 2 - x ^ 2) ^ (n + tdeg (tl (snd ck)))))). intros ck _. apply is_RInt_scalR. apply is_RInt_cap. auto.
Qed.
Lemma polyfun_slice n d f x : polyfun (S n) d f -> polyfun n d (fun xs => f (x :: xs)).
Proof.
  intros [p [Hp E]]. exists (map (fun ck => (fst ck * x ^ hd 0%nat (snd ck), tl (snd ck))) p). split.
  - unfold mp_ok in *. rewrite List.Forall_forall in *. intros ck Hc. apply in_map_iff in Hc. destruct Hc as [[c k] [<- Hc]]. apply Hp in Hc. cbn [snd] in *. destruct k as [|a k]; [cbn in Hc; lia|]. unfold tdeg in *. cbn in *. lia.
  - intros y Hy. rewrite E by (cbn; lia). apply (slice_mpeval x p n). eapply polyfun_len. eauto.
Qed.
Lemma ball_at_shift c : forall d f r, 0 <= r -> polyfun (length c) d f -> ball_int_at c r f = ball_int (length c) r (fun y => f (shifted c 1 y)).
Proof.
  induction c as [|c1 c IH]; intros d f r Hr Hf; [reflexivity|]. cbn [ball_int_at length].
  rewrite (RInt_ext _ (fun x => ball_int (length c) (sqrt (r ^ 2 - (x - c1) ^ 2)) (fun y => f (x :: shifted c 1 y)))).
  - assert (P : polyfun (S (length c)) d (fun y => f (shifted (c1 :: c) 1 y))) by (apply (polyfun_shifted d f (c1 :: c) 1); exact Hf).
    assert (I := ball_slices (length c) d _ r Hr P).
    set (G := fun x => ball_int (length c) _ _) in I. set (L := ball_int (S (length c)) r _) in *.
    assert (I' : is_RInt G (1 * (c1 - r) + - c1) (1 * (c1 + r) + - c1) L) by (replace (1 * (c1 - r) + - c1) with (- r) by ring; replace (1 * (c1 + r) + - c1) with r by ring; exact I).
    clear I. apply (is_RInt_comp_lin (V := R_NormedModule)) in I'. rename I' into I. apply is_RInt_unique.
    refine (is_RInt_ext _ _ _ _ _ _ I). intros x _. change (1 * G (1 * x + - c1) = ball_int (length c) (sqrt (r ^ 2 - (x - c1) ^ 2)) (fun y => f (x :: shifted c 1 y))).
    rewrite Rmult_1_l. replace (1 * x + - c1) with (x - c1) by ring. unfold G.
    apply ball_int_ext. intros y Hy. f_equal. unfold shifted. cbn [List.combine map fst snd]. f_equal. ring.
  - intros x _. apply (IH d); [apply sqrt_pos|]. apply polyfun_slice. exact Hf.
Qed.
Lemma shifted_scale c r y : shifted c 1 (map (Rmult r) y) = shifted c r y.
Proof. unfold shifted. revert y. induction c as [|a c IH]; intros [|b y]; cbn; auto. rewrite IH. f_equal. ring. Qed.
Theorem ball_at c d f r : 0 <= r -> polyfun (length c) d f -> ball_int_at c r f = r ^ length c * ball_int (length c) 1 (fun y => f (shifted c r y)).
Proof.
  intros Hr Hf. rewrite (ball_at_shift c d) by auto. rewrite (ball_scale _ d) by (auto; apply polyfun_shifted; auto). f_equal. apply ball_int_ext. intros y Hy. rewrite shifted_scale. auto.
Qed.
(* ------------------------------------------------------------------ rules and means *)
Lemma rule_polyfun n d q M (f : point -> R) p : points_in_dim n q -> (forall k, length k = n -> (tdeg k <= d)%nat -> apply q (mono k) = M k) ->
  mp_ok n d p -> (forall x, length x = n -> f x = mpeval p x) -> apply q f = Rsum (map (fun ck => fst ck * M (snd ck)) p).
Proof.
  intros Hq HM Hp E. rewrite (apply_polyfun_ext n q f (mpeval p)) by auto. unfold mpeval. unfold apply.
  rewrite (Rsum_map_ext _ (fun wp => Rsum (map (fun ck => fst wp * (fst ck * mono (snd ck) (snd wp))) p))) by (intros; rewrite <- Rsum_map_scal; auto).
  rewrite (Rsum_swap (fun wp ck => fst wp * (fst ck * mono (snd ck) (snd wp)))). apply Rsum_map_ext. intros ck Hc. unfold mp_ok in Hp. rewrite List.Forall_forall in Hp. destruct (Hp _ Hc).
  rewrite <- HM by auto. unfold apply. rewrite <- Rsum_map_scal. apply Rsum_map_ext. intros. ring.
Qed.
Lemma ball_rule_polyfun n d q f : points_in_dim n q -> (forall k, length k = n -> (tdeg k <= d)%nat -> apply q (mono k) = ball_mean n (mono k)) ->
  polyfun n d f -> apply q f = ball_mean n f.
Proof.
  intros Hq HM [p [Hp E]]. rewrite (rule_polyfun n d q (fun k => ball_mean n (mono k)) f p) by auto. unfold ball_mean. rewrite (ball_int_ext n 1 f (mpeval p)) by auto.
  assert (L := polyfun_len _ _ _ Hp). rewrite ball_int_mpeval by (auto; lra). unfold Rdiv. rewrite <- Rsum_map_scal_r. apply Rsum_map_ext. intros ck Hc. rewrite List.Forall_forall in L.
  rewrite ball_int_k by auto. rewrite pow1. ring.
Qed.
Lemma sphere_rule_polyfun n d q f : points_in_dim (S n) q -> (forall k, length k = S n -> (tdeg k <= d)%nat -> apply q (mono k) = sphere_mean (S n) (mono k)) ->
  polyfun (S n) d f -> apply q f = sphere_mean (S n) f.
Proof.
  intros Hq HM [p [Hp E]]. rewrite (rule_polyfun (S n) d q (fun k => sphere_mean (S n) (mono k)) f p) by auto. unfold sphere_mean. rewrite (sphere_int_ext (S n) f (mpeval p)) by auto.
  assert (L := polyfun_len _ _ _ Hp). rewrite sphere_int_mpeval by auto. unfold Rdiv. rewrite <- Rsum_map_scal_r. apply Rsum_map_ext. intros ck Hc. rewrite List.Forall_forall in L.
  rewrite sphere_int_k by auto. ring.
Qed.
Lemma round_dot_apply q f c r : round_dot q f c r = apply q (fun y => f (shifted c r y)).
Proof. unfold round_dot, apply. apply Rsum_map_ext. intros. rewrite shifted_eq. auto. Qed.
Lemma ball_volume n r : 0 <= r -> ball_int n r (fun _ => 1) = r ^ n * ball_int n 1 (fun _ => 1).
Proof. intros H. apply (ball_scale n 0 (fun _ => 1) r H). apply polyfun_const. Qed.
Theorem sn_integrate_exact n d q c r p : points_in_dim n q -> (forall k, length k = n -> (tdeg k <= d)%nat -> apply q (mono k) = ball_mean n (mono k)) ->
  length c = n -> 0 <= r -> mp_ok n d p -> sn_integrate n q (mpeval p) c r = ball_int_at c r (mpeval p).
Proof.
  intros Hq HM Hc Hr Hp. subst n. assert (F := polyfun_mpeval _ _ _ Hp). unfold sn_integrate. rewrite round_dot_apply, (ball_rule_polyfun (length c) d) by (auto; apply polyfun_shifted; auto).
  rewrite (ball_at c d), ball_volume by auto. unfold ball_mean. field. rewrite ball_int_1. assert (B := bal0_pos (length c)). lra.
Qed.
Theorem un_integrate_exact n d q c r p : (1 <= n)%nat -> points_in_dim n q -> (forall k, length k = n -> (tdeg k <= d)%nat -> apply q (mono k) = sphere_mean n (mono k)) ->
  length c = n -> mp_ok n d p -> un_integrate n q (mpeval p) c r = sphere_int_at c r (mpeval p).
Proof.
  intros Hn Hq HM Hc Hp. subst n. destruct (length c) as [|n] eqn:L; [lia|]. assert (F : polyfun (length c) d (mpeval p)) by (rewrite L; apply polyfun_mpeval; auto). unfold un_integrate, sphere_int_at. rewrite L.
  rewrite round_dot_apply, (sphere_rule_polyfun n d) by (auto; rewrite <- L; apply polyfun_shifted; auto). unfold sphere_mean. field. rewrite sphere_int_1. assert (B := sph0_pos n). lra.
Qed.
(* ------------------------------------------------------------------ the volumes written out in the fixed-dimension classes *)
Lemma sphere_2 : sphere_int 2 (fun _ => 1) = 2 * PI.
Proof. rewrite sphere_int_1, sph0_SS, W_00. unfold sph0. cbn. ring. Qed.
Lemma sphere_3 : sphere_int 3 (fun _ => 1) = 4 * PI.
Proof. rewrite sphere_int_1, sph0_SS, W_01, sph0_SS, W_00. unfold sph0. cbn. ring. Qed.
Lemma ball_2 : ball_int 2 1 (fun _ => 1) = PI.
Proof. rewrite ball_int_1, !bal0_S. cbn [Nat.add]. rewrite W_01. assert (E := W_step_sin 0 0). cbn [Nat.add INR] in E. rewrite W_00 in E. unfold bal0. cbn [repeat bal]. lra. Qed.
Lemma ball_3 : ball_int 3 1 (fun _ => 1) = 4 / 3 * PI.
Proof.
  rewrite ball_int_1, bal0_S. rewrite <- ball_int_1, ball_2. cbn [Nat.add]. assert (E := W_step_sin 0 1). cbn [Nat.add INR] in E. rewrite W_01 in E. replace (W 0 3) with (4 / 3) by lra. ring.
Qed.
Lemma s2_is_sn q f c r : 0 <= r -> s2_integrate q f c r = sn_integrate 2 q f c r.
Proof. intros H. unfold s2_integrate, sn_integrate. rewrite ball_volume, ball_2 by auto. ring. Qed.
Lemma s3_is_sn q f c r : 0 <= r -> s3_integrate q f c r = sn_integrate 3 q f c r.
Proof. intros H. unfold s3_integrate, sn_integrate. rewrite ball_volume, ball_3 by auto. ring. Qed.
Lemma u2_is_un q f c r : u2_integrate q f c r = un_integrate 2 q f c r.
Proof. unfold u2_integrate, un_integrate. rewrite sphere_2. cbn [Nat.sub pow]. ring. Qed.
Lemma u3_is_un q f c r : u3_integrate q f c r = un_integrate 3 q f c r.
Proof. unfold u3_integrate, un_integrate. rewrite sphere_3. cbn [Nat.sub]. ring. Qed.
(* ------------------------------------------------------------------ the circle *)
Lemma trigpoly_scal d c f : trigpoly d f -> trigpoly d (fun t => c * f t).
Proof.
  intros [l [Hl E]]. exists (map (fun e => (fst e, (c * fst (snd e), c * snd (snd e)))) l). split.
  - apply List.Forall_forall. intros e He. apply in_map_iff in He. destruct He as [e' [<- He]]. rewrite List.Forall_forall in Hl. cbn [fst]. auto.
  - intros t. rewrite E. unfold trigval. rewrite map_map, <- Rsum_map_scal. apply Rsum_map_ext. intros. cbn [fst snd]. ring.
Qed.
Lemma trigpoly_le d d' f : (d <= d')%nat -> trigpoly d f -> trigpoly d' f.
Proof. intros H [l [Hl E]]. exists l. split; auto. eapply List.Forall_impl; [|exact Hl]. cbn. intros. lia. Qed.
Lemma trigpoly_circle_mono x y r a b : trigpoly (a + b) (fun t => (x + r * cos t) ^ a * (y + r * sin t) ^ b).
Proof.
  induction a as [|a IH].
  - induction b as [|b IH]; [apply (trigpoly_ext 0 (fun _ => 1)); [intros; cbn; ring|apply trigpoly_const]|]. cbn [Nat.add] in *.
    apply (trigpoly_ext _ (fun t => y * ((x + r * cos t) ^ 0 * (y + r * sin t) ^ b) + r * (sin t * ((x + r * cos t) ^ 0 * (y + r * sin t) ^ b)))); [intros; cbn [pow]; ring|].
    apply trigpoly_add; [apply trigpoly_scal; apply (trigpoly_le b); auto|]. apply trigpoly_scal. apply (trigpoly_mul_sin b). auto.
  - cbn [Nat.add]. apply (trigpoly_ext _ (fun t => x * ((x + r * cos t) ^ a * (y + r * sin t) ^ b) + r * (cos t * ((x + r * cos t) ^ a * (y + r * sin t) ^ b)))); [intros; cbn [pow]; ring|].
    apply trigpoly_add; [apply trigpoly_scal; apply (trigpoly_le (a + b)); auto|]. apply trigpoly_scal. apply (trigpoly_mul_cos (a + b)). auto.
Qed.
Lemma trigpoly_circle d p x y r : mp_ok 2 d p -> trigpoly d (fun t => mpeval p [x + r * cos t; y + r * sin t]).
Proof.
  intros Hp. unfold mpeval. apply (trigpoly_sum d p (fun ck t => fst ck * mono (snd ck) [x + r * cos t; y + r * sin t])). intros [c k] Hc. unfold mp_ok in Hp. rewrite List.Forall_forall in Hp. destruct (Hp _ Hc) as [Hk Hd]. cbn [snd fst] in *.
  destruct k as [|a [|b [|? ?]]]; try discriminate. unfold tdeg in Hd. cbn in Hd. apply trigpoly_scal. apply (trigpoly_le (a + b)); [lia|]. apply (trigpoly_ext _ (fun t => (x + r * cos t) ^ a * (y + r * sin t) ^ b)); [intros; cbn; ring|]. apply trigpoly_circle_mono.
Qed.
Theorem krylov_circle n p x y r : (1 <= n)%nat -> mp_ok 2 (n - 1) p -> u2_integrate (krylov_rule n) (mpeval p) [x; y] r = circle_int_at x y r (mpeval p).
Proof.
  intros Hn Hp. destruct (trigpoly_circle (n - 1) p x y r Hp) as [l [Hl E]]. unfold u2_integrate. rewrite round_dot_apply.
  assert (K := krylov_trig_exact n l Hn). rewrite (K ltac:(eapply List.Forall_impl; [|exact Hl]; cbn; intros; lia) (fun z : point => mpeval p (shifted [x; y] r z)) E).
  unfold circle_int_at. change (fun t => mpeval p (shifted [x; y] r [cos t; sin t])) with (fun t => mpeval p [x + r * cos t; y + r * sin t]).
  assert (I : is_RInt (fun t => mpeval p [x + r * cos t; y + r * sin t]) 0 (2 * PI) (2 * PI * trig_mean l)) by (apply (is_RInt_ext (trigval l)); [intros; symmetry; apply E|apply is_RInt_trigval]).
  rewrite (is_RInt_unique _ _ _ _ I). assert (J := is_RInt_scalR _ _ _ r _ I). rewrite (is_RInt_unique _ _ _ _ J). field. apply PI_neq0.
Qed.
(* ------------------------------------------------------------------ arrays of centres and radii *)
Lemma nth_map_seq0 {A} (f : nat -> A) n m d : (m < n)%nat -> nth m (map f (seq 0 n)) d = f m.
Proof. intros H. rewrite (nth_indep _ d (f 0%nat)) by (rewrite map_length, seq_length; lia). rewrite map_nth, seq_nth by lia. auto. Qed.
Lemma as_map_nth {A} (l : list A) d : l = map (fun i => nth i l d) (seq 0 (length l)).
Proof. induction l as [|a l IH]; cbn [length seq map nth]; auto. f_equal. rewrite <- seq_shift, map_map. auto. Qed.
Lemma combine_nth_map {A B} (l : list A) (m : list B) a b : length l = length m -> List.combine l m = map (fun k => (nth k l a, nth k m b)) (seq 0 (length l)).
Proof. intros H. rewrite (as_map_nth l a) at 1. rewrite (as_map_nth m b) at 1. rewrite <- H. apply combine_map2. Qed.
Theorem round_many_spec vol q f centers radii : length centers = length radii ->
  round_many vol q f centers radii = map (fun cr => vol (snd cr) * round_dot q f (fst cr) (snd cr)) (List.combine centers radii).
Proof.
  intros H. unfold round_many. rewrite (combine_nth_map centers radii [] 0) by auto. rewrite H.
  set (K := length radii). set (N := length (map snd q)).
  rewrite (combine_nth_map radii _ 0 []) by (rewrite map_length, seq_length; auto). fold K. rewrite !map_map. apply map_ext_in. intros k Hk. apply in_seq in Hk. cbn [fst snd]. f_equal.
  rewrite nth_map_seq0 by lia. unfold round_dot.
  assert (LN : length q = N) by (unfold N; rewrite map_length; auto).
  rewrite (combine_nth_map _ (map fst q) 0 0) by (rewrite !map_length, seq_length; auto). rewrite map_length, seq_length, map_map. cbn [fst snd].
  set (F := fun wp : R * point => fst wp * f (vadd (nth k centers []) (vscale (nth k radii 0) (snd wp)))).
  assert (RQ : Rsum (map F q) = Rsum (map (fun i => F (nth i q (0, []))) (seq 0 N))) by (rewrite (as_map_nth q (0, [])) at 1; rewrite LN, map_map; auto).
  etransitivity; [|symmetry; exact RQ]. unfold F. apply Rsum_map_ext. intros i Hi. apply in_seq in Hi. rewrite nth_map_seq0 by lia.
  rewrite Rmult_comm. f_equal; [change 0 with (fst (0, @nil R)) at 1; apply (map_nth fst)|]. f_equal. unfold swapaxes. rewrite map_map, nth_map_seq0 by lia.
  rewrite (@combine_nth_map point point _ centers [] []) by (rewrite map_length, seq_length; auto). rewrite map_length, seq_length, map_map. rewrite nth_map_seq0 by lia. cbn [fst snd]. rewrite nth_map_seq0 by lia. f_equal.
  rewrite (nth_indep _ [] (map (vscale 0) (map snd q))) by (rewrite map_length; lia). rewrite (map_nth (fun r => map (vscale r) (map snd q))).
  rewrite (nth_indep _ [] (vscale (nth k radii 0) [])) by (rewrite map_length; unfold N in *; lia). rewrite map_nth. f_equal. change (@nil R) with (snd (0, @nil R)) at 1. apply (map_nth snd).
Qed.
