(** Proofs for C66. *)
From Coq Require Import Reals List Arith Lia Lra Bool ZArith QArith Qreals.
From Coquelicot Require Import Coquelicot.
From Verif Require Import Spec RsumLemmas CombModel PyBase GeomModel PyraModel IntegralSpec IntegralProofs IntegralPoly C1Tools PolyFun PyraSpec Tower TowerSym TowerMoments FixSpec FixTools FelippaModel.
Import ListNotations.
Set Bullet Behavior "Strict Subproofs".
Open Scope R_scope.

(* --- moments *)
(** Integral over [-1,1] of z^c ((1-z)/2)^m. *)
Fixpoint hm (c m : nat) : R := match c with O => 2 / INR (S m) | S c' => hm c' m - 2 * hm c' (S m) end.
Fixpoint hmQ (c m : nat) : Q := match c with O => (2 / qnat (S m))%Q | S c' => Qred (hmQ c' m - 2 * hmQ c' (S m)) end.
Lemma hmQ_ok c : forall m, Q2R (hmQ c m) = hm c m.
Proof.
  induction c as [|c IH]; intros m; cbn [hm hmQ].
  - rewrite Q2R_divnz, Q2R_qnat; [f_equal; exact (Q2R_IZR 2)|]. rewrite Q2R_qnat. apply not_0_INR. lia.
  - rewrite Q2R_red, Q2R_minus, Q2R_mult, !IH. f_equal. f_equal. exact (Q2R_IZR 2).
Qed.
Lemma is_RInt_half_pow m : is_RInt (fun z => ((1 - z) / 2) ^ m) (-1) 1 (2 / INR (S m)).
Proof.
  assert (N : INR (S m) <> 0) by (apply not_0_INR; lia).
  apply (is_RInt_ext (fun z => (-2) * ((- (1/2)) * ((- (1/2)) * z + 1/2) ^ m))).
  { intros z _. replace ((- (1/2)) * z + 1/2) with ((1 - z) / 2) by field. change (-2 * (- (1 / 2) * ((1 - z) / 2) ^ m) = ((1 - z) / 2) ^ m). field. }
  replace (2 / INR (S m)) with ((-2) * (- (1 / INR (S m)))) by (field; auto).
  apply is_RInt_scalR. apply (is_RInt_comp_lin (fun x => x ^ m) (- (1/2)) (1/2) (-1) 1).
  replace (- (1/2) * -1 + 1/2) with 1 by lra. replace (- (1/2) * 1 + 1/2) with 0 by lra.
  replace (- (1 / INR (S m))) with ((0 ^ S m - 1 ^ S m) / INR (S m)); [apply is_RInt_pow|]. rewrite pow1, pow_i by lia. field. auto.
Qed.
Lemma is_RInt_hm c : forall m, is_RInt (fun z => z ^ c * ((1 - z) / 2) ^ m) (-1) 1 (hm c m).
Proof.
  induction c as [|c IH]; intros m; cbn [hm].
  - apply (is_RInt_ext (fun z => ((1 - z) / 2) ^ m)); [intros z _; change (((1 - z) / 2) ^ m = 1 * ((1 - z) / 2) ^ m); ring|]. apply is_RInt_half_pow.
  - apply (is_RInt_ext (fun z => minus (z ^ c * ((1 - z) / 2) ^ m) (2 * (z ^ c * ((1 - z) / 2) ^ S m)))).
    { intros z _. change (z ^ c * ((1 - z) / 2) ^ m + - (2 * (z ^ c * ((1 - z) / 2 * ((1 - z) / 2) ^ m))) = z * z ^ c * ((1 - z) / 2) ^ m). field. }
    apply (is_RInt_minus (V := R_NormedModule)); [apply IH|]. apply is_RInt_scalR. apply IH.
Qed.
Lemma sym_pow a h : (h ^ S a - (- h) ^ S a) / INR (S a) = (if Nat.even a then 2 / INR (S a) else 0) * h ^ S a.
Proof.
  assert (N : INR (S a) <> 0) by (apply not_0_INR; lia).
  replace (- h) with ((-1) * h) by ring. rewrite Rpow_mult_distr, pow_m1. destruct (Nat.even a); field; auto.
Qed.
Definition pyraQ (k : list nat) : Q :=
  match k with [a; b; c] => (if Nat.even a then 2 / qnat (S a) else 0) * (if Nat.even b then 2 / qnat (S b) else 0) * hmQ c (S a + S b) | _ => 0 end%Q.
Lemma evQ a : Q2R (if Nat.even a then 2 / qnat (S a) else 0)%Q = if Nat.even a then 2 / INR (S a) else 0.
Proof.
  destruct (Nat.even a); [|apply Q2R_0]. rewrite Q2R_divnz, Q2R_qnat; [f_equal; exact (Q2R_IZR 2)|]. rewrite Q2R_qnat. apply not_0_INR. lia.
Qed.
(** Iterated integrals that exist, between bounds that depend on the outer variables. *)
Definition iterated (l1 u1 : R -> R -> R) (l2 u2 : R -> R) (f : R -> R -> R -> R) (v : R) : Prop :=
  exists (g : R -> R -> R) (e : R -> R),
    (forall s z, is_RInt (fun t => f t s z) (l1 s z) (u1 s z) (g s z)) /\ (forall z, is_RInt (fun s => g s z) (l2 z) (u2 z) (e z)) /\ is_RInt e (-1) 1 v.
Lemma iterated_value l1 u1 l2 u2 f v : iterated l1 u1 l2 u2 f v ->
  RInt (fun z => RInt (fun s => RInt (fun t => f t s z) (l1 s z) (u1 s z)) (l2 z) (u2 z)) (-1) 1 = v.
Proof.
  intros (g & e & Hg & He & Hv). apply is_RInt_unique. apply (is_RInt_ext e); [|exact Hv]. intros z _. symmetry. apply is_RInt_unique.
  apply (is_RInt_ext (fun s => g s z)); [|apply He]. intros s _. symmetry. apply is_RInt_unique. apply Hg.
Qed.
Lemma iterated_plus l1 u1 l2 u2 f f' v v' : iterated l1 u1 l2 u2 f v -> iterated l1 u1 l2 u2 f' v' -> iterated l1 u1 l2 u2 (fun t s z => f t s z + f' t s z) (v + v').
Proof.
  intros (g & e & Hg & He & Hv) (g' & e' & Hg' & He' & Hv'). exists (fun s z => g s z + g' s z), (fun z => e z + e' z).
  split; [|split]; intros; apply (is_RInt_plus (V := R_NormedModule)); auto.
Qed.
Lemma iterated_scal l1 u1 l2 u2 f v c : iterated l1 u1 l2 u2 f v -> iterated l1 u1 l2 u2 (fun t s z => c * f t s z) (c * v).
Proof.
  intros (g & e & Hg & He & Hv). exists (fun s z => c * g s z), (fun z => c * e z). split; [|split]; intros; apply is_RInt_scalR; auto.
Qed.
Lemma iterated_zero l1 u1 l2 u2 : iterated l1 u1 l2 u2 (fun _ _ _ => 0) 0.
Proof.
  exists (fun _ _ => 0), (fun _ => 0).
  assert (Z : forall a b, is_RInt (fun _ : R => 0) a b 0).
  { intros a b. assert (C := is_RInt_const (V := R_NormedModule) a b 0). change (is_RInt (fun _ : R => 0) a b ((b - a) * 0)) in C. rewrite Rmult_0_r in C. exact C. }
  split; [|split]; intros; apply Z.
Qed.
Lemma iterated_poly l1 u1 l2 u2 (P : R -> R -> R -> point) (Q : list nat -> Q) p :
  (forall k, length k = 3%nat -> iterated l1 u1 l2 u2 (fun t s z => mono k (P t s z)) (Q2R (Q k))) -> List.Forall (fun ck => length (snd ck) = 3%nat) p ->
  iterated l1 u1 l2 u2 (fun t s z => mpeval p (P t s z)) (Rsum (map (fun ck => fst ck * Q2R (Q (snd ck))) p)).
Proof.
  intros H. induction 1 as [|[c k] p Hk Hp IH]; [apply iterated_zero|]. unfold mpeval. cbn [map Rsum fst snd].
  apply (iterated_plus _ _ _ _ (fun t s z => c * mono k (P t s z)) (fun t s z => mpeval p (P t s z))); [apply iterated_scal, H, Hk|exact IH].
Qed.
Definition half (z : R) : R := (1 - z) / 2.
Lemma pyramid_mono k : length k = 3%nat -> iterated (fun _ z => - half z) (fun _ z => half z) (fun z => - half z) half (fun x y z => mono k [x; y; z]) (Q2R (pyraQ k)).
Proof.
  destruct k as [|a [|b [|c [|]]]]; try discriminate. intros _.
  unfold pyraQ. rewrite !Q2R_mult, !evQ, hmQ_ok. set (A := if Nat.even a then _ else _). set (B := if Nat.even b then _ else _).
  exists (fun y z => (A * half z ^ S a * z ^ c) * y ^ b), (fun z => (A * B) * (z ^ c * half z ^ (S a + S b))). split; [|split].
  - intros y z. set (h := half z). apply (is_RInt_ext (fun x => (y ^ b * z ^ c) * x ^ a)).
    { intros x _. change (y ^ b * z ^ c * x ^ a = x ^ a * (y ^ b * (z ^ c * 1))). ring. }
    replace (A * h ^ S a * z ^ c * y ^ b) with ((y ^ b * z ^ c) * ((h ^ S a - (- h) ^ S a) / INR (S a))) by (rewrite sym_pow; fold A; ring).
    apply is_RInt_scalR, is_RInt_pow.
  - intros z. set (h := half z). replace (A * B * (z ^ c * h ^ (S a + S b))) with ((A * h ^ S a * z ^ c) * ((h ^ S b - (- h) ^ S b) / INR (S b))).
    + apply is_RInt_scalR, is_RInt_pow.
    + rewrite sym_pow. fold B. rewrite pow_add. ring.
  - apply is_RInt_scalR. apply is_RInt_hm.
Qed.
Definition wedgeQ (k : list nat) : Q :=
  match k with [a; b; c] => (inject_Z (zfact a) * inject_Z (zfact b) / inject_Z (zfact (a + S b + 1))) * (if Nat.even c then 2 / qnat (S c) else 0) | _ => 0 end%Q.
Lemma wedge_mono k : length k = 3%nat -> iterated (fun _ _ => 0) (fun x _ => 1 - x) (fun _ => 0) (fun _ => 1) (fun y x z => mono k [x; y; z]) (Q2R (wedgeQ k)).
Proof.
  destruct k as [|a [|b [|c [|]]]]; try discriminate. intros _.
  unfold wedgeQ. rewrite Q2R_mult, evQ, Q2R_divnz, Q2R_mult, !zfact_fact by (rewrite zfact_fact; apply INR_fact_neq_0).
  set (C := if Nat.even c then _ else _). set (F := INR (fact a) * INR (fact b) / INR (fact (a + S b + 1))).
  assert (N : INR (S b) <> 0) by (apply not_0_INR; lia).
  exists (fun x z => (z ^ c / INR (S b)) * (x ^ a * (1 - x) ^ S b)), (fun z => F * z ^ c). split; [|split].
  - intros x z. apply (is_RInt_ext (fun y => (x ^ a * z ^ c) * y ^ b)).
    { intros y _. change (x ^ a * z ^ c * y ^ b = x ^ a * (y ^ b * (z ^ c * 1))). ring. }
    replace (z ^ c / INR (S b) * (x ^ a * (1 - x) ^ S b)) with ((x ^ a * z ^ c) * (((1 - x) ^ S b - 0 ^ S b) / INR (S b))).
    + apply is_RInt_scalR, is_RInt_pow.
    + rewrite pow_i by lia. field. auto.
  - intros z. replace (F * z ^ c) with ((z ^ c / INR (S b)) * (INR (fact a) * INR (fact (S b)) / INR (fact (a + S b + 1)) * 1 ^ (a + S b + 1))).
    + apply is_RInt_scalR. apply (is_RInt_beta (S b) a 1).
    + rewrite pow1. unfold F. rewrite fact_simpl, mult_INR. field. split; first [exact N | apply INR_fact_neq_0].
  - apply is_RInt_scalR. replace C with ((1 ^ S c - (-1) ^ S c) / INR (S c)); [apply is_RInt_pow|]. rewrite pow1, pow_m1. unfold C. destruct (Nat.even c); field; apply not_0_INR; lia.
Qed.
Lemma pyramid_poly d p : mp_ok 3 d p -> pyramid_int (mpeval p) = Rsum (map (fun ck => fst ck * Q2R (pyraQ (snd ck))) p).
Proof.
  intros H. unfold pyramid_int. apply (iterated_value (fun _ z => - half z) (fun _ z => half z) (fun z => - half z) half (fun x y z => mpeval p [x; y; z])).
  apply iterated_poly; [apply pyramid_mono|]. eapply List.Forall_impl; [|exact H]. cbn. tauto.
Qed.
Lemma wedge_poly d p : mp_ok 3 d p -> wedge_int (mpeval p) = Rsum (map (fun ck => fst ck * Q2R (wedgeQ (snd ck))) p).
Proof.
  intros H. unfold wedge_int. apply (iterated_value (fun _ _ => 0) (fun x _ => 1 - x) (fun _ => 0) (fun _ => 1) (fun y x z => mpeval p [x; y; z])).
  apply (iterated_poly _ _ _ _ (fun y x z => [x; y; z])); [apply wedge_mono|]. eapply List.Forall_impl; [|exact H]. cbn. tauto.
Qed.

(* --- integrate on affine images *)
(** The rule of a pyramid scheme moved to the reference pyramid. *)
Definition p3_ref (q : rule) : rule :=
  map (fun wp => let z := nth 2 (snd wp) 0 in
    (fst wp * ((1 - z) / 2) ^ 2, [nth 0 (snd wp) 0 * ((1 - z) / 2); nth 1 (snd wp) 0 * ((1 - z) / 2); z])) q.
Lemma p3_point o a b c xi : p3_transform xi (pyramid_vertices o a b c) = affine o a b c [nth 0 xi 0 * ((1 - nth 2 xi 0) / 2); nth 1 xi 0 * ((1 - nth 2 xi 0) / 2); nth 2 xi 0].
Proof.
  unfold p3_transform, vlin, pyramid_vertices, affine. cbn [map seq List.combine fst snd nth Rsum]. repeat (apply (f_equal2 (@cons R)); [lra|]). reflexivity.
Qed.
Lemma p3_factor o a b c xi : length a = 3%nat -> length b = 3%nat -> length c = 3%nat ->
  p3_det xi (pyramid_vertices o a b c) = det 3 [a; b; c] * ((1 - nth 2 xi 0) / 2) ^ 2.
Proof.
  intros Ha Hb Hc. destruct a as [|a0 [|a1 [|a2 [|]]]]; try discriminate. destruct b as [|b0 [|b1 [|b2 [|]]]]; try discriminate. destruct c as [|c0 [|c1 [|c2 [|]]]]; try discriminate.
  unfold p3_det, det_rows, p3_J0, p3_J1, p3_J2, vlin, pyramid_vertices, affine, det, drop_nth. replace 0.125 with (1/8) by lra. replace 0.500 with (1/2) by lra. replace 1.0 with 1 by lra. cbn. field.
Qed.
Lemma w3_point o a b c xi : w3_transform xi (wedge_vertices o a b c) = affine o a b c [nth 0 xi 0; nth 1 xi 0; nth 2 xi 0].
Proof.
  unfold w3_transform, vlin, wedge_vertices, affine. cbn [map seq List.combine fst snd nth Rsum]. repeat (apply (f_equal2 (@cons R)); [lra|]). reflexivity.
Qed.
Lemma w3_factor o a b c xi : length a = 3%nat -> length b = 3%nat -> length c = 3%nat ->
  w3_det xi (wedge_vertices o a b c) = det 3 [a; b; c].
Proof.
  intros Ha Hb Hc. destruct a as [|a0 [|a1 [|a2 [|]]]]; try discriminate. destruct b as [|b0 [|b1 [|b2 [|]]]]; try discriminate. destruct c as [|c0 [|c1 [|c2 [|]]]]; try discriminate.
  unfold w3_det, det_rows, w3_J0, w3_J1, w3_J2, vlin, wedge_vertices, affine, det, drop_nth. replace 0.5 with (1/2) by lra. replace 1.0 with 1 by lra. cbn. field.
Qed.
Lemma affine_polyfun o a b c d p : mp_ok 3 d p -> polyfun 3 d (fun xi => mpeval p (affine o a b c xi)).
Proof.
  intros Hp. unfold affine.
  apply (polyfun_ext 3 d (fun xi => mpeval p (map (fun l => l xi) (map (fun m xi => nth m o 0 + nth 0 xi 0 * nth m a 0 + nth 1 xi 0 * nth m b 0 + nth 2 xi 0 * nth m c 0) (seq 0 3))))).
  { intros x _. rewrite map_map. reflexivity. }
  apply (polyfun_comp 3 3 d); [reflexivity| |apply polyfun_mpeval; exact Hp].
  assert (C : forall m i, (i < 3)%nat -> polyfun 3 1 (fun xi => nth i xi 0 * m)).
  { intros m i Hi. apply (polyfun_ext 3 1 (fun xi => m * nth i xi 0)); [intros; ring|]. apply polyfun_scal, polyfun_coord, Hi. }
  apply List.Forall_forall. intros l Hl. apply in_map_iff in Hl. destruct Hl as [m [<- _]].
  apply polyfun_add; [apply polyfun_add; [apply polyfun_add; [apply polyfun_const|]|]|]; apply C; lia.
Qed.
Lemma pyramid_int_ext f g : (forall x y z, f [x; y; z] = g [x; y; z]) -> pyramid_int f = pyramid_int g.
Proof. intros H. unfold pyramid_int. apply RInt_ext. intros z _. apply RInt_ext. intros y _. apply RInt_ext. intros x _. apply H. Qed.
Lemma wedge_int_ext f g : (forall x y z, f [x; y; z] = g [x; y; z]) -> wedge_int f = wedge_int g.
Proof. intros H. unfold wedge_int. apply RInt_ext. intros z _. apply RInt_ext. intros y _. apply RInt_ext. intros x _. apply H. Qed.
Theorem p3_integrate_exact d q o a b c p : exact 3 d (fun k => Q2R (pyraQ k)) (p3_ref q) -> length a = 3%nat -> length b = 3%nat -> length c = 3%nat -> mp_ok 3 d p ->
  p3_integrate q (mpeval p) (pyramid_vertices o a b c) = pyramid_integral o a b c (mpeval p).
Proof.
  intros He Ha Hb Hc Hp. destruct (affine_polyfun o a b c d p Hp) as [p' [Hp' E]].
  unfold pyramid_integral. rewrite (pyramid_int_ext _ (mpeval p')) by (intros; apply E; reflexivity). rewrite (pyramid_poly d p' Hp').
  rewrite <- (exact_poly 3 d _ _ p' He Hp'). unfold p3_integrate, apply, p3_ref. rewrite map_map, <- Rsum_map_scal. apply Rsum_map_ext. intros wp _.
  cbn [fst snd]. rewrite p3_point, p3_factor, E by auto. rewrite Rabs_mult, (Rabs_right (_ ^ 2)) by (apply Rle_ge, pow2_ge_0). match goal with |- ?A * _ * _ = _ * (_ * ?B) => change B with A; generalize A end. intros v. match goal with |- _ * (?D * ?H) * ?w = ?D1 * (?w1 * ?H1 * _) => change D1 with D; change w1 with w; change H1 with H; generalize D H w end. intros. ring.
Qed.
Theorem w3_integrate_exact d q o a b c p : exact 3 d (fun k => Q2R (wedgeQ k)) q -> length a = 3%nat -> length b = 3%nat -> length c = 3%nat -> mp_ok 3 d p ->
  w3_integrate q (mpeval p) (wedge_vertices o a b c) = wedge_integral o a b c (mpeval p).
Proof.
  intros He Ha Hb Hc Hp. destruct (affine_polyfun o a b c d p Hp) as [p' [Hp' E]].
  unfold wedge_integral. rewrite (wedge_int_ext _ (mpeval p')) by (intros; apply E; reflexivity). rewrite (wedge_poly d p' Hp').
  rewrite <- (exact_poly 3 d _ _ p' He Hp'). unfold w3_integrate, apply. rewrite <- Rsum_map_scal. destruct He as [Hd _]. unfold points_in_dim in Hd. rewrite List.Forall_forall in Hd.
  apply Rsum_map_ext. intros wp Hw. rewrite w3_point, w3_factor by auto. specialize (Hd wp Hw). destruct wp as [w [|x [|y [|z [|]]]]]; try discriminate. cbn [fst snd nth].
  rewrite (E [x; y; z]) by reflexivity. match goal with |- ?A * ?D * ?w = ?D1 * (?w1 * ?B) => change B with A; change D1 with D; change w1 with w; generalize D A w end. intros. ring.
Qed.
