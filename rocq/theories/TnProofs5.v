(** Stroud 1969: the weights come from a linear system. *)
From Coq Require Import Reals List Arith Lia Lra Permutation Bool.
From Verif Require Import Spec RsumLemmas CombSpec CombModel CombProofs CombProofs2 Moments SymExact
  IntegralSpec IntegralProofs PyBase MiscModel CnModel SchemeTools CnTools TnBase IntegralProofs2 TnModel TnTools TnProofs RootSpec.
Import ListNotations.
Open Scope R_scope.

(** Dual functionals of the columns of the scaled system (found by interpolation, checked here). *)
Definition dual1 (N q : R) : list R :=
  [(((-71/72)) + ((55/216)) * q) / (N * (N - 1) * (N - 2) * (N + 1));
   (((205/72) + (25/12) * N ^ 1) + ((-397/540) + (-581/1080) * N ^ 1) * q) / (N * (N - 1) * (N - 2));
   (((-1055/648) + (-1207/216) * N ^ 1 + (-431/324) * N ^ 2) + ((227/540) + (935/648) * N ^ 1 + (371/1080) * N ^ 2) * q) / (N * (N - 1) * (N - 2));
   (((-7445/5184) + (9785/2592) * N ^ 1 + (16415/5184) * N ^ 2 + (20/81) * N ^ 3) + ((89/240) + (-5053/5184) * N ^ 1 + (-10597/12960) * N ^ 2 + (-551/8640) * N ^ 3) * q) / (N * (N - 1) * (N - 2));
   (((77/64) + (-101/576) * N ^ 1 + (-323/192) * N ^ 2 + (-61/192) * N ^ 3 + (-1/72) * N ^ 4) + ((-671/2160) + (391/8640) * N ^ 1 + (139/320) * N ^ 2 + (709/8640) * N ^ 3 + (31/8640) * N ^ 4) * q) / (N * (N - 1) * (N - 2))].
Definition dual3 (N q : R) : list R :=
  [(((71/144)) + ((-55/432)) * q) / ((N - 1) * (N - 2) * (N - 3) * (N + 1));
   (((-65/36) + (-25/24) * N ^ 1) + ((1007/2160) + (581/2160) * N ^ 1) * q) / ((N - 1) * (N - 2) * (N - 3));
   (((41/18) + (265/81) * N ^ 1 + (431/648) * N ^ 2) + ((-3811/6480) + (-2737/3240) * N ^ 1 + (-371/2160) * N ^ 2) * q) / ((N - 1) * (N - 2) * (N - 3));
   (((-205/192) + (-2075/648) * N ^ 1 + (-8735/5184) * N ^ 2 + (-10/81) * N ^ 3) + ((14291/51840) + (14287/17280) * N ^ 1 + (4511/10368) * N ^ 2 + (551/17280) * N ^ 3) * q) / ((N - 1) * (N - 2) * (N - 3));
   (((59/576) + (535/576) * N ^ 1 + (63/64) * N ^ 2 + (95/576) * N ^ 3 + (1/144) * N ^ 4) + ((-457/17280) + (-259/1080) * N ^ 1 + (-61/240) * N ^ 2 + (-23/540) * N ^ 3 + (-31/17280) * N ^ 4) * q) / ((N - 1) * (N - 2) * (N - 3))].
(** Column of a scaled orbit: m coordinates kappa, the others 1. *)
Definition colB (N m ka : R) : list R :=
  [(N + 1) * (N + 1 + m * (ka - 1)) ^ 5; (N + 1 - m + m * ka ^ 2) * (N + 1 + m * (ka - 1)) ^ 3;
   (N + 1 - m + m * ka ^ 3) * (N + 1 + m * (ka - 1)) ^ 2; (N + 1 - m + m * ka ^ 4) * (N + 1 + m * (ka - 1));
   N + 1 - m + m * ka ^ 5].
Definition dot (u v : list R) : R := Rsum (map (fun e => fst e * snd e) (List.combine u v)).

Lemma q_even q m : q * q = 15 -> q ^ (2 * m) = 15 ^ m.
Proof. intros H. rewrite pow_mult. f_equal. rewrite <- H. ring. Qed.
Lemma q_odd q m : q * q = 15 -> q ^ (S (2 * m)) = 15 ^ m * q.
Proof. intros H. rewrite <- (q_even q m H). simpl. ring. Qed.
Ltac q_red q Hq :=
  rewrite ?(q_odd q 6 Hq : q ^ 13 = _), ?(q_even q 6 Hq : q ^ 12 = _), ?(q_odd q 5 Hq : q ^ 11 = _), ?(q_even q 5 Hq : q ^ 10 = _),
    ?(q_odd q 4 Hq : q ^ 9 = _), ?(q_even q 4 Hq : q ^ 8 = _), ?(q_odd q 3 Hq : q ^ 7 = _), ?(q_even q 3 Hq : q ^ 6 = _),
    ?(q_odd q 2 Hq : q ^ 5 = _), ?(q_even q 2 Hq : q ^ 4 = _), ?(q_odd q 1 Hq : q ^ 3 = _), ?(q_even q 1 Hq : q ^ 2 = _).
Ltac q_field Hq := field_simplify_eq; [match type of Hq with ?q * _ = _ => q_red q Hq; ring end|].

(** The denominators are cancelled first; what remains is an identity of polynomials modulo q * q = 15. *)
Lemma dot_frac p1 p2 p3 p4 p5 D M c1 c2 c3 c4 c5 v : D <> 0 -> M <> 0 -> p1 * c1 + p2 * c2 + p3 * c3 + p4 * c4 + p5 * c5 = v * D ->
  dot [p1 / (D * M); p2 / D; p3 / D; p4 / D; p5 / D] [M * c1; c2; c3; c4; c5] = v.
Proof.
  intros HD HM H. unfold dot. cbn [List.combine map fst snd Rsum]. replace v with ((p1 * c1 + p2 * c2 + p3 * c3 + p4 * c4 + p5 * c5) / D) by (rewrite H; field; auto). field. auto.
Qed.
Lemma dual1_dot N q : q * q = 15 -> N + 1 <> 0 -> N <> 0 -> N - 1 <> 0 -> N - 2 <> 0 ->
  dot (dual1 N q) (colB N 0 1) = 0 /\ dot (dual1 N q) (colB N 1 (4 + q)) = 1 /\ dot (dual1 N q) (colB N 1 (4 - q)) = 0 /\
  dot (dual1 N q) (colB N 2 (4 + q)) = 0 /\ dot (dual1 N q) (colB N 2 (4 - q)) = 0.
Proof.
  intros Hq H0 H1 H2 H3. assert (HD : N * (N - 1) * (N - 2) <> 0) by (repeat apply Rmult_integral_contrapositive_currified; auto).
  repeat split; apply dot_frac; auto; field [Hq].
Qed.
Lemma dual3_dot N q : q * q = 15 -> N + 1 <> 0 -> N - 1 <> 0 -> N - 2 <> 0 -> N - 3 <> 0 ->
  dot (dual3 N q) (colB N 0 1) = 0 /\ dot (dual3 N q) (colB N 1 (4 + q)) = 0 /\ dot (dual3 N q) (colB N 1 (4 - q)) = 0 /\
  dot (dual3 N q) (colB N 2 (4 + q)) = 1 /\ dot (dual3 N q) (colB N 2 (4 - q)) = 0.
Proof.
  intros Hq H0 H1 H2 H3. assert (HD : (N - 1) * (N - 2) * (N - 3) <> 0) by (repeat apply Rmult_integral_contrapositive_currified; auto).
  repeat split; apply dot_frac; auto; field [Hq].
Qed.

(* ------------------------------------------------ entries of the system *)
Definition spts (M : nat) (items : list (R * nat)) : list point := combine (sg_elems M (0, items)).
Lemma nth0_mono k n p : length p = (n + 1)%nat -> mono ([k] ++ repeat 0%nat n) p = nth 0 p 0 ^ k.
Proof. intros H. destruct p as [|x p]; [simpl in H; lia|]. cbn [app mono nth]. rewrite mono_zeros. ring. Qed.
Lemma first_sum n items k : (list_sum (map snd items) <= n + 1)%nat -> (0 < k)%nat ->
  Rsum (map (fun x => nth 0 x 0 ^ k) (spts (n + 1) items)) =
  gnum (sg_group (n + 1) (0, items)) * pavg (map fst items) (map (fun it => INR (snd it)) items) (INR n + 1) [k].
Proof.
  intros H Hk. assert (Hok := sg_ok (n + 1) (0, items) H). destruct Hok as [Hs Hne]. cbn [sg_group snd] in Hs, Hne.
  rewrite (Rsum_map_ext _ (mono ([k] ++ repeat 0%nat n))).
  - unfold spts. rewrite combine_moment_canon; auto.
    + unfold gnum, sg_group. cbn [snd]. f_equal.
      change (avg (emeans (sg_elems (n + 1) (0, items))) (ecounts (sg_elems (n + 1) (0, items))) (INR (length [k] + n)) [k])
        with (gavg (sg_group (n + 1) (0, items)) (INR (length [k] + n)) [k]).
      rewrite gavg_sg by (constructor; auto). unfold svals, scounts. cbn [snd]. f_equal.
      cbn [length]. rewrite plus_INR. simpl. ring.
    + rewrite Hs. simpl. lia.
  - intros p Hp. symmetry. apply nth0_mono. apply combine_row_length in Hp. unfold sg_elems in *. cbn [snd] in *. congruence.
Qed.
Lemma first_sum_0 n items : (list_sum (map snd items) <= n + 1)%nat ->
  Rsum (map (fun x => nth 0 x 0 ^ 0) (spts (n + 1) items)) = gnum (sg_group (n + 1) (0, items)).
Proof.
  intros H. unfold gnum, sg_group, spts. cbn [snd]. induction (combine _) as [|p l IH]; [reflexivity|].
  cbn [map Rsum]. rewrite IH. cbn [length]. rewrite S_INR. simpl. ring.
Qed.

Definition ksel (k : nat) (a : list R) : R := nth (k - 1) a 0.
(** Power sums of the first coordinate over the orbits, in scaled form. *)
Lemma orbit0_sum n k : In k [0; 2; 3; 4; 5]%nat ->
  Rsum (map (fun x => nth 0 x 0 ^ k) [repeat (1 / (INR n + 1)) (n + 1)]) =
  (1 / (INR n + 1)) ^ 5 / (INR n + 1) * ksel k (colB (INR n) 0 1).
Proof.
  intros Hk. replace (n + 1)%nat with (S n) by lia. cbn [map repeat nth Rsum].
  assert (B : 0 <= INR n) by apply pos_INR.
  cbn [In] in Hk. decompose [or] Hk; subst; try contradiction; unfold ksel, colB; cbn [nth Nat.sub]; field; lra.
Qed.

Lemma orbit1_sum n ka k : In k [0; 2; 3; 4; 5]%nat -> (1 <= n)%nat -> INR n + ka <> 0 ->
  Rsum (map (fun x => nth 0 x 0 ^ k) (spts (n + 1) [(1 / (INR n + ka), n); (ka / (INR n + ka), 1%nat)])) =
  (1 / (INR n + ka)) ^ 5 * ksel k (colB (INR n) 1 ka).
Proof.
  intros Hk Hn Hd. n_bound n. cbn [In] in Hk. decompose [or] Hk; subst; try contradiction.
  { rewrite first_sum_0 by (cbn; lia). rewrite num_n_1. unfold ksel, colB; cbn [nth Nat.sub]. field. lra. }
  all: rewrite first_sum by (cbn; lia); rewrite num_n_1;
    cbn [map fst snd pavg length seq nth Rsum]; inr_lits; unfold ksel, colB; cbn [nth Nat.sub]; field; lra.
Qed.
Lemma orbit2_sum n ka k : In k [0; 2; 3; 4; 5]%nat -> (1 <= n)%nat -> INR n - 1 + 2 * ka <> 0 ->
  Rsum (map (fun x => nth 0 x 0 ^ k) (spts (n + 1) [(1 / (INR n - 1 + 2 * ka), (n - 1)%nat); (ka / (INR n - 1 + 2 * ka), 2%nat)])) =
  INR n / 2 * (1 / (INR n - 1 + 2 * ka)) ^ 5 * ksel k (colB (INR n) 2 ka).
Proof.
  intros Hk Hn Hd. n_bound n. cbn [In] in Hk. decompose [or] Hk; subst; try contradiction.
  { rewrite first_sum_0 by (cbn; lia). rewrite num_n1_2 by lia. unfold ksel, colB; cbn [nth Nat.sub]. field. lra. }
  all: rewrite first_sum by (cbn; lia); rewrite num_n1_2 by lia;
    cbn [map fst snd pavg length seq nth Rsum]; rewrite minus_INR by lia; inr_lits; unfold ksel, colB; cbn [nth Nat.sub]; field; lra.
Qed.

Lemma rhs_entry n k : (1 <= n)%nat ->
  integrate_monomial_over_unit_simplex (k :: repeat 0%nat (n - 1)) / integrate_monomial_over_unit_simplex (repeat 0%nat n)
  = INR (fact k) / rise (INR n) k.
Proof.
  intros Hn. unfold integrate_monomial_over_unit_simplex. rewrite !imus_closed by auto.
  cbn [length list_sum fold_right]. rewrite !repeat_length.
  assert (Z : forall m, fold_right Nat.add 0%nat (repeat 0%nat m) = 0%nat) by (induction m; simpl; auto).
  unfold list_sum. rewrite !Z. replace (k + 0 + S (n - 1))%nat with (n + k)%nat by lia. rewrite Nat.add_0_l.
  assert (P : forall m, prodfactR (repeat 0%nat m) = 1).
  { unfold prodfactR. induction m; cbn [repeat map Rprod]; auto. rewrite IHm. simpl. ring. }
  rewrite P. unfold prodfactR. cbn [map Rprod]. fold (prodfactR (repeat 0%nat (n - 1))). rewrite P.
  rewrite rise_fact. assert (R0 : rise (INR n) k <> 0).
  { intros E. assert (E2 := rise_fact n k). rewrite E, Rmult_0_r in E2. exact (INR_fact_neq_0 _ E2). }
  field. repeat split; auto; apply INR_fact_neq_0.
Qed.

(* ------------------------------------------------ scaling of averages *)
Lemma pavg_scale c l : forall vs cs N, length cs = length vs -> pavg (map (fun v => v * c) vs) cs N l = c ^ list_sum l * pavg vs cs N l.
Proof.
  induction l as [|a l IH]; intros vs cs N Hl; [simpl; ring|].
  cbn [pavg]. change (list_sum (a :: l)) with (a + list_sum l)%nat. rewrite pow_add, Rmult_assoc.
  rewrite <- !Rsum_map_scal. apply Rsum_map_ext. intros i Hi. apply in_seq in Hi.
  rewrite IH by (rewrite decR_length; auto).
  rewrite (nth_indep (map (fun v => v * c) vs) 0 ((fun v => v * c) 0)) by (rewrite ?map_length in *; lia). rewrite (map_nth (fun v => v * c)).
  rewrite Rpow_mult_distr. ring.
Qed.
Lemma scaled_term W c G vs vs' cs N l d : c <> 0 -> list_sum l = d -> length cs = length vs -> vs' = map (fun v => v / c) vs ->
  W * c ^ d * (G * pavg vs' cs N l) = W * (G * pavg vs cs N l).
Proof.
  intros Hc Hd Hl ->. unfold Rdiv. rewrite (pavg_scale (/ c)) by auto. rewrite Hd, pow_inv. field. apply pow_nonzero. auto.
Qed.

(* ------------------------------------------------ closed form of the weights, n >= 4 *)
Definition Pi5 (N : R) : R := (N + 1) * (N + 2) * (N + 3) * (N + 4) * (N + 5).
Definition W0 (N : R) : R := (39 * N ^ 2 - 307 * N + 626) / 72 / Pi5 N.
Definition W1 (N q : R) : R := ((173 - 39 * N) / 72 + (151 * N - 669) / 1080 * q) / Pi5 N.
Definition W2 (N q : R) : R := (13 / 24 - 151 / 1080 * q) / Pi5 N.

Lemma weights_solve N q k : q * q = 15 -> 1 <= N -> In k [0; 2; 3; 4; 5]%nat ->
  W0 N / (N + 1) * ksel k (colB N 0 1) + W1 N q * ksel k (colB N 1 (4 + q)) + W1 N (- q) * ksel k (colB N 1 (4 - q))
  + N / 2 * W2 N (- q) * ksel k (colB N 2 (4 - q)) + N / 2 * W2 N q * ksel k (colB N 2 (4 + q)) = INR (fact k) / rise N k.
Proof.
  intros Hq HN Hk. cbn [In] in Hk. decompose [or] Hk; subst; try contradiction;
    unfold ksel, colB, W0, W1, W2, Pi5; cbn [nth Nat.sub rise fact Nat.add Nat.mul]; inr_lits; q_field Hq; lra.
Qed.

(* ------------------------------------------------ uniqueness, n >= 4 *)
Lemma indep5 N q d0 d1 d2 d3 d4 : q * q = 15 -> 4 <= N ->
  (forall k, In k [0; 2; 3; 4; 5]%nat ->
    d0 * ksel k (colB N 0 1) + d1 * ksel k (colB N 1 (4 + q)) + d2 * ksel k (colB N 1 (4 - q))
    + d3 * ksel k (colB N 2 (4 - q)) + d4 * ksel k (colB N 2 (4 + q)) = 0) ->
  d0 = 0 /\ d1 = 0 /\ d2 = 0 /\ d3 = 0 /\ d4 = 0.
Proof.
  intros Hq HN H.
  assert (D : forall u, length u = 5%nat ->
    d0 * dot u (colB N 0 1) + d1 * dot u (colB N 1 (4 + q)) + d2 * dot u (colB N 1 (4 - q))
    + d3 * dot u (colB N 2 (4 - q)) + d4 * dot u (colB N 2 (4 + q)) = 0).
  { intros u Hu. destruct u as [|u0 [|u1 [|u2 [|u3 [|u4 [|? ?]]]]]]; try discriminate Hu.
    assert (H0 := H 0%nat ltac:(cbn; tauto)). assert (H1 := H 2%nat ltac:(cbn; tauto)).
    assert (H2 := H 3%nat ltac:(cbn; tauto)). assert (H3 := H 4%nat ltac:(cbn; tauto)).
    assert (H4 := H 5%nat ltac:(cbn; tauto)).
    assert (X : forall m ka, dot [u0; u1; u2; u3; u4] (colB N m ka) =
      u0 * ksel 0 (colB N m ka) + u1 * ksel 2 (colB N m ka) + u2 * ksel 3 (colB N m ka) + u3 * ksel 4 (colB N m ka) + u4 * ksel 5 (colB N m ka)).
    { intros. unfold dot, colB, ksel. cbn [List.combine map fst snd Rsum nth Nat.sub]. ring. }
    rewrite !X. clear X.
    repeat match goal with |- context [ksel ?k ?c] => let x := fresh "x" in set (x := ksel k c) in * end.
    match type of H0 with ?a = 0 => match type of H1 with ?b = 0 => match type of H2 with ?c = 0 => match type of H3 with ?d = 0 =>
      match type of H4 with ?e = 0 => replace 0 with (u0 * a + u1 * b + u2 * c + u3 * d + u4 * e) by (rewrite H0, H1, H2, H3, H4; ring) end end end end end.
    ring. }
  assert (Hq' : - q * - q = 15) by (rewrite <- Hq; ring).
  destruct (dual1_dot N q) as (a1 & a2 & a3 & a4 & a5); try lra; auto.
  destruct (dual1_dot N (- q)) as (b1 & b2 & b3 & b4 & b5); try lra; auto.
  destruct (dual3_dot N q) as (c1 & c2 & c3 & c4 & c5); try lra; auto.
  destruct (dual3_dot N (- q)) as (e1 & e2 & e3 & e4 & e5); try lra; auto.
  replace (4 + - q) with (4 - q) in * by ring. replace (4 - - q) with (4 + q) in * by ring.
  assert (D1 := D (dual1 N q) eq_refl). assert (D2 := D (dual1 N (- q)) eq_refl).
  assert (D3 := D (dual3 N q) eq_refl). assert (D4 := D (dual3 N (- q)) eq_refl).
  rewrite a1, a2, a3, a4, a5 in D1. rewrite b1, b2, b3, b4, b5 in D2.
  rewrite c1, c2, c3, c4, c5 in D3. rewrite e1, e2, e3, e4, e5 in D4.
  assert (Z1 : d1 = 0) by lra. assert (Z2 : d2 = 0) by lra. assert (Z3 : d3 = 0) by lra. assert (Z4 : d4 = 0) by lra.
  repeat split; auto.
  assert (H0 := H 0%nat ltac:(cbn; tauto)). rewrite Z1, Z2, Z3, Z4 in H0. unfold ksel, colB in H0. cbn [nth Nat.sub] in H0.
  assert (P : (N + 1) ^ 5 > 0) by (apply pow_lt; lra).
  replace (d0 * ((N + 1) * (N + 1 + 0 * (1 - 1)) ^ 5) + _ + _ + _ + _) with (d0 * ((N + 1) * (N + 1) ^ 5)) in H0 by ring.
  apply Rmult_integral in H0. destruct H0 as [|H0]; auto. nra.
Qed.

Lemma Rrd_spts M items : forallb (fun it => (0 <? snd it)%nat) items = true -> (list_sum (map snd items) <= M)%nat ->
  Rrd M items = Some (spts M items).
Proof. intros H1 H2. unfold Rrd, rd. rewrite H1. apply Nat.leb_le in H2. rewrite H2. reflexivity. Qed.

Definition pts1969 (n : nat) (q : R) : list (list point) :=
  let N := INR n in
  [[repeat (1 / (N + 1)) (n + 1)];
   spts (n + 1) [(1 / (N + (4 + q)), n); ((4 + q) / (N + (4 + q)), 1%nat)];
   spts (n + 1) [(1 / (N + (4 - q)), n); ((4 - q) / (N + (4 - q)), 1%nat)];
   spts (n + 1) [(1 / (N - 1 + 2 * (4 - q)), (n - 1)%nat); ((4 - q) / (N - 1 + 2 * (4 - q)), 2%nat)]]
  ++ (if (3 <? n)%nat then [spts (n + 1) [(1 / (N - 1 + 2 * (4 + q)), (n - 1)%nat); ((4 + q) / (N - 1 + 2 * (4 + q)), 2%nat)]] else []).

Lemma q_bounds q : 0 <= q -> q * q = 15 -> 3 < q < 4.
Proof. intros. split; nra. Qed.

Lemma stroud_1969_points_eq n : (3 <= n)%nat ->
  exists q, 0 <= q /\ q * q = 15 /\ stroud_1969_points n = Some (pts1969 n q).
Proof.
  intros H. exists (sqrt 15). assert (Q : sqrt 15 * sqrt 15 = 15) by (apply sqrt_sqrt; lra). assert (P := sqrt_pos 15).
  split; auto. split; auto. unfold stroud_1969_points. rewrite rsqrt_ok by lra. cbn [bind].
  set (q := sqrt 15) in *. destruct (q_bounds q P Q). n_bound n.
  rewrite !Rrd_spts; cbn [bind]; try (cbn [forallb snd map list_sum fold_right]; rewrite ?andb_true_iff, ?Nat.ltb_lt; repeat split; lia).
  assert (E0 : INR n ^ 2 + 8 * INR n + 1 = (INR n + 4 - q) * (INR n + 4 + q)) by (ring_simplify; replace (q ^ 2) with 15 by (rewrite <- Q; ring); ring).
  assert (F0 : INR n ^ 2 + 14 * INR n - 11 = (INR n + 7 - 2 * q) * (INR n + 7 + 2 * q)) by (ring_simplify; replace (q ^ 2) with 15 by (rewrite <- Q; ring); ring).
  rewrite E0, F0. unfold pts1969. cbn zeta.
  assert (X : forall a b c : R, c <> 0 -> b <> 0 -> a * c = b -> forall d, d = a -> d / b = 1 / c).
  { intros a b c Hc Hb E d ->. subst b. field. split; auto. intros ->. apply Hb. ring. }
  replace ((INR n + 4 - 1 * q) / ((INR n + 4 - q) * (INR n + 4 + q))) with (1 / (INR n + (4 + q))) by (field; lra).
  replace ((INR n + 4 - -1 * q) / ((INR n + 4 - q) * (INR n + 4 + q))) with (1 / (INR n + (4 - q))) by (field; lra).
  replace ((INR n + 7 + 1 * 2 * q) / ((INR n + 7 - 2 * q) * (INR n + 7 + 2 * q))) with (1 / (INR n - 1 + 2 * (4 - q))) by (field; lra).
  replace ((INR n + 7 + -1 * 2 * q) / ((INR n + 7 - 2 * q) * (INR n + 7 + 2 * q))) with (1 / (INR n - 1 + 2 * (4 + q))) by (field; lra).
  replace ((4 * INR n + 1 + 1 * INR n * q) / ((INR n + 4 - q) * (INR n + 4 + q))) with ((4 + q) / (INR n + (4 + q))) by (q_field Q; lra).
  replace ((4 * INR n + 1 + -1 * INR n * q) / ((INR n + 4 - q) * (INR n + 4 + q))) with ((4 - q) / (INR n + (4 - q))) by (q_field Q; lra).
  replace ((4 * INR n - 2 - 1 * (INR n - 1) * q) / ((INR n + 7 - 2 * q) * (INR n + 7 + 2 * q))) with ((4 - q) / (INR n - 1 + 2 * (4 - q))) by (q_field Q; lra).
  replace ((4 * INR n - 2 - -1 * (INR n - 1) * q) / ((INR n + 7 - 2 * q) * (INR n + 7 + 2 * q))) with ((4 + q) / (INR n - 1 + 2 * (4 + q))) by (q_field Q; lra).
  reflexivity.
Qed.

(** The scaled weights written out. *)
Definition w1969 (N q : R) : list R :=
  [W0 N * (N + 1) ^ 5; W1 N q * (N + (4 + q)) ^ 5; W1 N (- q) * (N + (4 - q)) ^ 5;
   W2 N (- q) * (N - 1 + 2 * (4 - q)) ^ 5; W2 N q * (N - 1 + 2 * (4 + q)) ^ 5].
Lemma invpow x y : x <> 0 -> (1 / x) ^ 5 * (y * x ^ 5) = y.
Proof. intros. field. auto. Qed.

Lemma system_row n q k y0 y1 y2 y3 y4 : 0 <= q -> q * q = 15 -> (3 < n)%nat -> In k [0; 2; 3; 4; 5]%nat ->
  let N := INR n in
  Rsum (map (fun e => fst e * snd e) (List.combine (map (fun p => Rsum (map (fun x => nth 0 x 0 ^ k) p)) (pts1969 n q)) [y0; y1; y2; y3; y4])) =
  (y0 * (1 / (N + 1)) ^ 5 / (N + 1)) * ksel k (colB N 0 1) + (y1 * (1 / (N + (4 + q))) ^ 5) * ksel k (colB N 1 (4 + q))
  + (y2 * (1 / (N + (4 - q))) ^ 5) * ksel k (colB N 1 (4 - q))
  + (N / 2 * y3 * (1 / (N - 1 + 2 * (4 - q))) ^ 5) * ksel k (colB N 2 (4 - q))
  + (N / 2 * y4 * (1 / (N - 1 + 2 * (4 + q))) ^ 5) * ksel k (colB N 2 (4 + q)).
Proof.
  intros P Q Hn Hk N. subst N. destruct (q_bounds q P Q). n_bound n. unfold pts1969. cbn zeta.
  apply Nat.ltb_lt in Hn as Hn'. rewrite Hn'. cbn [app].
  cbn [map List.combine]. rewrite !orbit1_sum, !orbit2_sum by (auto; lra || lia).
  change (Rsum [nth 0 (repeat (1 / (INR n + 1)) (n + 1)) 0 ^ k]) with (Rsum (map (fun x => nth 0 x 0 ^ k) [repeat (1 / (INR n + 1)) (n + 1)])).
  rewrite orbit0_sum by auto. cbn [map fst snd Rsum]. unfold Rdiv. ring.
Qed.

Theorem stroud_1969_exact_4 solve n : linear_solver solve -> (4 <= n)%nat -> simplex_scheme n 5 (stroud_1969 solve n).
Proof.
  intros HS Hn. unfold stroud_1969. apply bind_guard; [apply Nat.leb_le; lia|].
  destruct (stroud_1969_points_eq n ltac:(lia)) as (q & P & Q & ->). cbn [bind].
  destruct (q_bounds q P Q) as [Q1 Q2]. n_bound n.
  assert (Hn' : (3 <? n)%nat = true) by (apply Nat.ltb_lt; lia). rewrite Hn'. cbn [app].
  match goal with |- context [solve ?a ?b] => set (A := a); set (bb := b) end.
  assert (Eb : bb = map (fun k => INR (fact k) / rise (INR n) k) [0; 2; 3; 4; 5]%nat).
  { unfold bb. apply map_ext. intros k. apply rhs_entry. lia. }
  assert (HW : solve A bb = w1969 (INR n) q).
  { apply HS.
    - split; [reflexivity|]. rewrite Eb. unfold A. rewrite map_map. apply map_ext_in. intros k Hk.
      unfold w1969. rewrite system_row by (auto; lia). cbn zeta. rewrite <- (weights_solve (INR n) q k) by (auto; lra).
      assert (INR n - 1 + 2 * (4 - q) <> 0) by lra. assert (INR n - 1 + 2 * (4 + q) <> 0) by lra.
      assert (INR n + (4 - q) <> 0) by lra. assert (INR n + (4 + q) <> 0) by lra.
      field. repeat split; lra.
    - intros w' [L E]. rewrite Eb in L, E. destruct w' as [|y0 [|y1 [|y2 [|y3 [|y4 [|? ?]]]]]]; try discriminate L.
      unfold A in E. rewrite map_map in E.
      assert (E' := @ext_in_map _ _ _ _ _ E).
      clear E. cbn beta in E'.
      set (N := INR n) in *.
      assert (K := indep5 N q (y0 * (1 / (N + 1)) ^ 5 / (N + 1) - W0 N / (N + 1)) (y1 * (1 / (N + (4 + q))) ^ 5 - W1 N q)
        (y2 * (1 / (N + (4 - q))) ^ 5 - W1 N (- q)) (N / 2 * y3 * (1 / (N - 1 + 2 * (4 - q))) ^ 5 - N / 2 * W2 N (- q))
        (N / 2 * y4 * (1 / (N - 1 + 2 * (4 + q))) ^ 5 - N / 2 * W2 N q) Q ltac:(lra)).
      destruct K as (K0 & K1 & K2 & K3 & K4).
      { intros k Hk. specialize (E' k Hk). unfold N in E'. rewrite system_row in E' by (auto; lia). cbn zeta in E'. fold N in E'.
        assert (Wk := weights_solve N q k Q ltac:(lra) Hk). rewrite <- Wk in E'. apply Rminus_diag_eq in E'. etransitivity; [|exact E']. ring. }
      assert (Z : forall x y W, x <> 0 -> y * (1 / x) ^ 5 = W -> y = W * x ^ 5) by (intros x y W Hx <-; field; auto).
      unfold w1969. repeat f_equal; apply Z; try lra; apply Rminus_diag_uniq.
      + replace (y0 * (1 / (N + 1)) ^ 5 - W0 N) with ((y0 * (1 / (N + 1)) ^ 5 / (N + 1) - W0 N / (N + 1)) * (N + 1)) by (field; lra).
        rewrite K0. ring.
      + replace (y3 * (1 / (N - 1 + 2 * (4 - q))) ^ 5 - W2 N (- q)) with
          ((N / 2 * y3 * (1 / (N - 1 + 2 * (4 - q))) ^ 5 - N / 2 * W2 N (- q)) * (2 / N)) by (field; lra). rewrite K3. ring.
      + replace (y4 * (1 / (N - 1 + 2 * (4 + q))) ^ 5 - W2 N q) with
          ((N / 2 * y4 * (1 / (N - 1 + 2 * (4 + q))) ^ 5 - N / 2 * W2 N q) * (2 / N)) by (field; lra). rewrite K4. ring. }
  rewrite HW. unfold w1969, pts1969. cbn zeta. rewrite Hn'. cbn [app List.combine].
  rewrite <- (combine_all n (W0 (INR n) * (INR n + 1) ^ 5)).
  match goal with |- simplex_scheme n 5 (Some (from_data n [(?a0, _); (?a1, _); (?a2, _); (?a3, _); (?a4, _)] 5)) =>
    apply (from_data_simplex n [(a0, [(1 / (INR n + 1), (n + 1)%nat)]);
      (a1, [(1 / (INR n + (4 + q)), n); ((4 + q) / (INR n + (4 + q)), 1%nat)]);
      (a2, [(1 / (INR n + (4 - q)), n); ((4 - q) / (INR n + (4 - q)), 1%nat)]);
      (a3, [(1 / (INR n - 1 + 2 * (4 - q)), (n - 1)%nat); ((4 - q) / (INR n - 1 + 2 * (4 - q)), 2%nat)]);
      (a4, [(1 / (INR n - 1 + 2 * (4 + q)), (n - 1)%nat); ((4 + q) / (INR n - 1 + 2 * (4 + q)), 2%nat)])] 5)
  end.
  assert (T : forall l, list_sum l = 5%nat -> forall W c G vs vs' cs, c <> 0 -> length cs = length vs -> vs' = map (fun v => v / c) vs ->
     W * c ^ 5 * (G * pavg vs' cs (INR (n + 1)) l) = W * (G * pavg vs cs (INR (n + 1)) l)).
  { intros l Hl W c G vs vs' cs Hc Hlen Hv. apply scaled_term; auto. }
  apply simplex_exact_groups.
  - intros g Hg. cbn [In] in Hg. decompose [or] Hg; subst; try contradiction; cbn [map fst snd list_sum fold_right]; lia.
  - intros g Hg. cbn [In] in Hg. decompose [or] Hg; subst; try contradiction; cbn [map fst snd Rsum];
      rewrite ?minus_INR by lia; rewrite ?plus_INR; inr_lits; field; lra.
  - intros l Hl Hs Hlen. cbn [map fst snd Rsum]. unfold svals, scounts. cbn [map fst snd].
    rewrite (T l Hs (W0 (INR n)) (INR n + 1) _ [1]) by (cbn [map length]; auto; lra).
    rewrite (T l Hs (W1 (INR n) q) (INR n + (4 + q)) _ [1; 4 + q]) by (cbn [map length]; auto; lra).
    rewrite (T l Hs (W1 (INR n) (- q)) (INR n + (4 - q)) _ [1; 4 - q]) by (cbn [map length]; auto; lra).
    rewrite (T l Hs (W2 (INR n) (- q)) (INR n - 1 + 2 * (4 - q)) _ [1; 4 - q]) by (cbn [map length]; auto; lra).
    rewrite (T l Hs (W2 (INR n) q) (INR n - 1 + 2 * (4 + q)) _ [1; 4 + q]) by (cbn [map length]; auto; lra).
    clear T HW Eb. sg_nums. unfold W0, W1, W2, Pi5.
    vm_compute in Hl; decompose [or] Hl; subst; try contradiction; try (exfalso; clear - Hs; cbn in Hs; lia);
    cbn [map fst snd pavg length seq decR nth Rsum prodfactR Rprod rise fact Nat.add Nat.mul];
    unfold prodfactR; cbn [map fact Nat.add Nat.mul Rprod];
    rewrite ?minus_INR by lia; rewrite ?plus_INR; inr_lits; clear Hs Hlen; set (N := INR n) in *; q_field Q; lra.
Qed.

(* ------------------------------------------------ n = 3: four orbits, four equations *)
Definition U1 (q : R) : R := 1 / 8640 - q / 33600.
Definition U3 (q : R) : R := 11 / 24192 + 71 / 604800 * q.
Ltac q_field0 Hq := field_simplify_eq; match type of Hq with ?q * _ = _ => q_red q Hq; ring end.
Lemma weights_solve_3 q k : q * q = 15 -> In k [0; 2; 3; 4]%nat ->
  1 / 8640 / 4 * ksel k (colB 3 0 1) + U1 q * ksel k (colB 3 1 (4 + q)) + U1 (- q) * ksel k (colB 3 1 (4 - q))
  + 3 / 2 * U3 q * ksel k (colB 3 2 (4 - q)) = INR (fact k) / rise 3 k.
Proof.
  intros Hq Hk. cbn [In] in Hk. decompose [or] Hk; subst; try contradiction;
    unfold ksel, colB, U1, U3; cbn [nth Nat.sub rise fact Nat.add Nat.mul]; inr_lits; q_field0 Hq.
Qed.
Definition dual3_1 (q : R) : list R := [-337/29376+29/9792*q; 2435/7344-3143/36720*q; -2962/4131+3823/20655*q; 2065/4131-533/4131*q].
Definition dual3_3 (q : R) : list R := [55/2304+71/11520*q; -55/72-71/360*q; 4895/2592+6319/12960*q; -935/648-1207/3240*q].
Lemma dual3_1_dot q : q * q = 15 ->
  dot (dual3_1 q) (colB 3 0 1) = 0 /\ dot (dual3_1 q) (colB 3 1 (4 + q)) = 1 /\ dot (dual3_1 q) (colB 3 1 (4 - q)) = 0 /\
  dot (dual3_1 q) (colB 3 2 (4 - q)) = 0 /\ dot (dual3_1 q) (colB 3 2 (4 + q)) = 0.
Proof.
  intros Hq. unfold dual3_1, colB, dot. cbn [List.combine map fst snd Rsum]. repeat split; q_field0 Hq.
Qed.
Lemma dual3_3_dot q : q * q = 15 ->
  dot (dual3_3 q) (colB 3 0 1) = 0 /\ dot (dual3_3 q) (colB 3 1 (4 + q)) = 0 /\ dot (dual3_3 q) (colB 3 1 (4 - q)) = 0 /\
  dot (dual3_3 q) (colB 3 2 (4 - q)) = 1.
Proof.
  intros Hq. unfold dual3_3, colB, dot. cbn [List.combine map fst snd Rsum]. repeat split; q_field0 Hq.
Qed.
Lemma indep4 q d0 d1 d2 d3 : q * q = 15 ->
  (forall k, In k [0; 2; 3; 4]%nat ->
    d0 * ksel k (colB 3 0 1) + d1 * ksel k (colB 3 1 (4 + q)) + d2 * ksel k (colB 3 1 (4 - q)) + d3 * ksel k (colB 3 2 (4 - q)) = 0) ->
  d0 = 0 /\ d1 = 0 /\ d2 = 0 /\ d3 = 0.
Proof.
  intros Hq H.
  assert (D : forall u, length u = 4%nat ->
    d0 * dot u (colB 3 0 1) + d1 * dot u (colB 3 1 (4 + q)) + d2 * dot u (colB 3 1 (4 - q)) + d3 * dot u (colB 3 2 (4 - q)) = 0).
  { intros u Hu. destruct u as [|u0 [|u1 [|u2 [|u3 [|? ?]]]]]; try discriminate Hu.
    assert (H0 := H 0%nat ltac:(cbn; tauto)). assert (H1 := H 2%nat ltac:(cbn; tauto)).
    assert (H2 := H 3%nat ltac:(cbn; tauto)). assert (H3 := H 4%nat ltac:(cbn; tauto)).
    assert (X : forall m ka, dot [u0; u1; u2; u3] (colB 3 m ka) =
      u0 * ksel 0 (colB 3 m ka) + u1 * ksel 2 (colB 3 m ka) + u2 * ksel 3 (colB 3 m ka) + u3 * ksel 4 (colB 3 m ka)).
    { intros. unfold dot, colB, ksel. cbn [List.combine map fst snd Rsum nth Nat.sub]. ring. }
    rewrite !X. clear X.
    repeat match goal with |- context [ksel ?k ?c] => let x := fresh "x" in set (x := ksel k c) in * end.
    match type of H0 with ?a = 0 => match type of H1 with ?b = 0 => match type of H2 with ?c = 0 => match type of H3 with ?d = 0 =>
      replace 0 with (u0 * a + u1 * b + u2 * c + u3 * d) by (rewrite H0, H1, H2, H3; ring) end end end end.
    ring. }
  assert (Hq' : - q * - q = 15) by (rewrite <- Hq; ring).
  destruct (dual3_1_dot q Hq) as (a1 & a2 & a3 & a4 & a5). destruct (dual3_1_dot (- q) Hq') as (b1 & b2 & b3 & b4 & b5).
  destruct (dual3_3_dot q Hq) as (c1 & c2 & c3 & c4).
  replace (4 + - q) with (4 - q) in * by ring. replace (4 - - q) with (4 + q) in * by ring.
  assert (D1 := D (dual3_1 q) eq_refl). assert (D2 := D (dual3_1 (- q)) eq_refl). assert (D3 := D (dual3_3 q) eq_refl).
  rewrite a1, a2, a3, a4 in D1. rewrite b1, b2, b3, b5 in D2. rewrite c1, c2, c3, c4 in D3.
  assert (Z1 : d1 = 0) by lra. assert (Z2 : d2 = 0) by lra. assert (Z3 : d3 = 0) by lra.
  repeat split; auto.
  assert (H0 := H 0%nat ltac:(cbn; tauto)). rewrite Z1, Z2, Z3 in H0. unfold ksel, colB in H0. cbn [nth Nat.sub] in H0. lra.
Qed.

Definition w1969_3 (q : R) : list R :=
  [1 / 8640 * (3 + 1) ^ 5; U1 q * (3 + (4 + q)) ^ 5; U1 (- q) * (3 + (4 - q)) ^ 5; U3 q * (3 - 1 + 2 * (4 - q)) ^ 5].
Lemma INR3 : INR 3 = 3. Proof. simpl. lra. Qed.
Lemma system_row_3 q k y0 y1 y2 y3 : 0 <= q -> q * q = 15 -> In k [0; 2; 3; 4]%nat ->
  Rsum (map (fun e => fst e * snd e) (List.combine (map (fun p => Rsum (map (fun x => nth 0 x 0 ^ k) p)) (pts1969 3 q)) [y0; y1; y2; y3])) =
  (y0 * (1 / (3 + 1)) ^ 5 / (3 + 1)) * ksel k (colB 3 0 1) + (y1 * (1 / (3 + (4 + q))) ^ 5) * ksel k (colB 3 1 (4 + q))
  + (y2 * (1 / (3 + (4 - q))) ^ 5) * ksel k (colB 3 1 (4 - q))
  + (3 / 2 * y3 * (1 / (3 - 1 + 2 * (4 - q))) ^ 5) * ksel k (colB 3 2 (4 - q)).
Proof.
  intros P Q Hk. destruct (q_bounds q P Q). assert (I3 := INR3). rewrite <- I3.
  assert (Hk5 : In k [0; 2; 3; 4; 5]%nat) by (cbn in *; tauto).
  unfold pts1969. cbn zeta. change (3 <? 3)%nat with false. cbn [app].
  cbn [map List.combine]. rewrite !orbit1_sum, !orbit2_sum by (auto; rewrite ?I3; lra || lia).
  change (Rsum [nth 0 (repeat (1 / (INR 3 + 1)) (3 + 1)) 0 ^ k]) with (Rsum (map (fun x => nth 0 x 0 ^ k) [repeat (1 / (INR 3 + 1)) (3 + 1)])).
  rewrite orbit0_sum by auto. cbn [map fst snd Rsum]. rewrite I3. field. repeat split; lra.
Qed.

Theorem stroud_1969_exact_3 solve : linear_solver solve -> simplex_scheme 3 5 (stroud_1969 solve 3).
Proof.
  intros HS. unfold stroud_1969. apply bind_guard; [reflexivity|].
  destruct (stroud_1969_points_eq 3 ltac:(lia)) as (q & P & Q & ->). cbn [bind].
  destruct (q_bounds q P Q) as [Q1 Q2]. change (3 <? 3)%nat with false. cbn iota. rewrite app_nil_r.
  match goal with |- context [solve ?a ?b] => set (A := a); set (bb := b) end.
  assert (Eb : bb = map (fun k => INR (fact k) / rise (INR 3) k) [0; 2; 3; 4]%nat).
  { unfold bb. apply map_ext. intros k. apply (rhs_entry 3). lia. }
  rewrite INR3 in Eb.
  assert (HW : solve A bb = w1969_3 q).
  { apply HS.
    - split; [reflexivity|]. rewrite Eb. unfold A. rewrite map_map. apply map_ext_in. intros k Hk.
      unfold w1969_3. rewrite system_row_3 by auto. rewrite <- (weights_solve_3 q k) by auto.
      assert (3 - 1 + 2 * (4 - q) <> 0) by lra. assert (3 + (4 - q) <> 0) by lra. assert (3 + (4 + q) <> 0) by lra.
      field. repeat split; lra.
    - intros w' [L E]. rewrite Eb in L, E. destruct w' as [|y0 [|y1 [|y2 [|y3 [|? ?]]]]]; try discriminate L.
      unfold A in E. rewrite map_map in E. assert (E' := @ext_in_map _ _ _ _ _ E). clear E. cbn beta in E'.
      assert (K := indep4 q (y0 * (1 / (3 + 1)) ^ 5 / (3 + 1) - 1 / 8640 / 4) (y1 * (1 / (3 + (4 + q))) ^ 5 - U1 q)
        (y2 * (1 / (3 + (4 - q))) ^ 5 - U1 (- q)) (3 / 2 * y3 * (1 / (3 - 1 + 2 * (4 - q))) ^ 5 - 3 / 2 * U3 q) Q).
      destruct K as (K0 & K1 & K2 & K3).
      { intros k Hk. specialize (E' k Hk). rewrite system_row_3 in E' by auto.
        assert (Wk := weights_solve_3 q k Q Hk). rewrite <- Wk in E'. apply Rminus_diag_eq in E'. etransitivity; [|exact E']. ring. }
      assert (Z : forall x y W, x <> 0 -> y * (1 / x) ^ 5 = W -> y = W * x ^ 5) by (intros x y W Hx <-; field; auto).
      unfold w1969_3. repeat f_equal; apply Z; lra. }
  rewrite HW. unfold w1969_3, pts1969. cbn zeta. change (3 <? 3)%nat with false. rewrite app_nil_r. cbn [List.combine].
  rewrite <- (combine_all 3 (1 / 8640 * (3 + 1) ^ 5)). rewrite !INR3.
  match goal with |- simplex_scheme 3 5 (Some (from_data 3 [(?a0, _); (?a1, _); (?a2, _); (?a3, _)] 5)) =>
    apply (from_data_simplex 3 [(a0, [(1 / (3 + 1), (3 + 1)%nat)]);
      (a1, [(1 / (3 + (4 + q)), 3%nat); ((4 + q) / (3 + (4 + q)), 1%nat)]);
      (a2, [(1 / (3 + (4 - q)), 3%nat); ((4 - q) / (3 + (4 - q)), 1%nat)]);
      (a3, [(1 / (3 - 1 + 2 * (4 - q)), (3 - 1)%nat); ((4 - q) / (3 - 1 + 2 * (4 - q)), 2%nat)])] 5)
  end.
  assert (T : forall l, list_sum l = 5%nat -> forall W c G vs vs' cs, c <> 0 -> length cs = length vs -> vs' = map (fun v => v / c) vs ->
     W * c ^ 5 * (G * pavg vs' cs (INR (3 + 1)) l) = W * (G * pavg vs cs (INR (3 + 1)) l)).
  { intros l Hl W c G vs vs' cs Hc Hlen Hv. apply scaled_term; auto. }
  apply simplex_exact_groups.
  - intros g Hg. cbn [In] in Hg. decompose [or] Hg; subst; try contradiction; cbn [map fst snd list_sum fold_right]; lia.
  - intros g Hg. cbn [In] in Hg. decompose [or] Hg; subst; try contradiction; cbn [map fst snd Rsum Nat.add Nat.sub];
      inr_lits; field; lra.
  - intros l Hl Hs Hlen. cbn [map fst snd Rsum]. unfold svals, scounts. cbn [map fst snd].
    rewrite (T l Hs (1 / 8640) (3 + 1) _ [1]) by (cbn [map length]; auto; lra).
    rewrite (T l Hs (U1 q) (3 + (4 + q)) _ [1; 4 + q]) by (cbn [map length]; auto; lra).
    rewrite (T l Hs (U1 (- q)) (3 + (4 - q)) _ [1; 4 - q]) by (cbn [map length]; auto; lra).
    rewrite (T l Hs (U3 q) (3 - 1 + 2 * (4 - q)) _ [1; 4 - q]) by (cbn [map length]; auto; lra).
    clear T HW Eb. rewrite (num_all 3), (num_n_1 3), (num_n_1 3), (num_n1_2 3) by lia. unfold U1, U3.
    vm_compute in Hl; decompose [or] Hl; subst; try contradiction; try (exfalso; clear - Hs; cbn in Hs; lia);
      try (exfalso; clear - Hlen; cbn in Hlen; lia);
    cbn [map fst snd pavg length seq decR nth Rsum prodfactR Rprod rise fact Nat.add Nat.mul Nat.sub];
    unfold prodfactR; cbn [map fact Nat.add Nat.mul Rprod];
    inr_lits; clear Hs Hlen; q_field0 Q.
Qed.

Theorem stroud_1969_exact solve n : linear_solver solve -> (3 <= n)%nat -> simplex_scheme n 5 (stroud_1969 solve n).
Proof.
  intros HS Hn. destruct (Nat.eq_dec n 3) as [-> | Hne]; [apply stroud_1969_exact_3; auto|].
  apply stroud_1969_exact_4; auto. lia.
Qed.
