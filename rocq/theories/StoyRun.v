(** For which n and delta sn/_stoyanova.py returns a scheme. *)
From Coq Require Import Reals List Arith Lia Lra Psatz.
From Verif Require Import Spec RsumLemmas CombModel PyBase SymmModel MiscModel CnModel SchemeTools UnModel NsimplexProofs LinForm StoyModel StoyProofs.
Import ListNotations.
Local Notation length := List.length.
Open Scope R_scope.
Set Bullet Behavior "Strict Subproofs".

(* ------------------------------------------------------------------ closed forms, with z = 1 / delta^2 *)
Definition K9 (N : R) : R := 9 * N ^ 2 - 793 * N + 1800.
Definition U0 (N z : R) : R := (9 * (- N ^ 4 + 8 * N ^ 3 + 61 * N ^ 2 - 176 * N - 228) + (- 730 * N ^ 3 + 3288 * N ^ 2 - 3510 * N + 1080) * z) / (N * (N - 3) * K9 N).
Definition W0 (N z : R) : R := (N ^ 2 + 7 * N + 6 + (6 - 10 * N) * z) / (3 * (N - 2) * (N - 3)).
Definition P1 (N : R) : R := - 18 * (N - 1) ^ 2 * (N - 4) ^ 2 / (N * (N - 3) * K9 N).
Definition P2 (N : R) : R := - 2 * (N - 1) * (N - 4) / (3 * (N - 2) * (N - 3)).
Definition D1 (N : R) : R := a1N N * P1 N ^ 2 + c1N N * P2 N ^ 2 + b1N N.
Definition D2 (N z : R) : R := a1N N * P1 N * U0 N z + c1N N * P2 N * W0 N z.
Definition D3 (N z : R) : R := a1N N * U0 N z ^ 2 + c1N N * W0 N z ^ 2 - (N / (N + 2) - e1N N * z ^ 2).
Definition D0 (N z : R) : R := D2 N z ^ 2 - D1 N * D3 N z.
Ltac nzt := repeat match goal with |- (_ * _)%R <> 0 => apply Rmult_integral_contrapositive_currified | |- (_ ^ _)%R <> 0 => apply pow_nonzero end; auto; try lra.
Lemma a1N_nz N : 5 <= N -> K9 N <> 0 -> a1N N <> 0.
Proof. intros H K. unfold a1N. apply Rmult_integral_contrapositive_currified; [apply Rmult_integral_contrapositive_currified; [|exact K]; apply pow_nonzero; lra|]. apply Rinv_neq_0_compat, Rmult_integral_contrapositive_currified; [lra|apply den_nz; auto]. Qed.
Lemma c1N_nz N : 5 <= N -> c1N N <> 0.
Proof. intros H. unfold c1N. repeat apply Rmult_integral_contrapositive_currified; try lra. apply Rinv_neq_0_compat, Rmult_integral_contrapositive_currified; [lra|apply den_nz; auto]. Qed.
Lemma uvw_run N d plus : 5 <= N -> K9 N <> 0 -> d <> 0 -> stoy_uvw N d plus (a1N N) (b1N N) (c1N N) (e1N N) =
  bind (rsqrt (D0 N (/ d ^ 2))) (fun s => bind (if plus then rdiv (D2 N (/ d ^ 2) + s) (D1 N) else rdiv (D2 N (/ d ^ 2) - s) (D1 N)) (fun v => Some (U0 N (/ d ^ 2) - P1 N * v, v, W0 N (/ d ^ 2) - P2 N * v))).
Proof.
  intros H K D. assert (A := a1N_nz N H K). assert (C := c1N_nz N H). assert (S13 : 0 < N ^ 2 - 7 * N + 19) by nra. assert (DN := den_nz N H). assert (K' : 9 * N ^ 2 - 793 * N + 1800 <> 0) by exact K.
  assert (Dn : forall k, d ^ k <> 0) by (intros; apply pow_nonzero; auto).
  unfold stoy_uvw. cbv zeta. rewrite rdiv_ok by lra. cbn [bind]. rewrite rdiv_ok by auto. cbn [bind]. rewrite rdiv_ok by lra. cbn [bind]. rewrite rdiv_ok by auto. cbn [bind].
  rewrite rdiv_ok by (apply Rmult_integral_contrapositive_currified; lra). cbn [bind]. rewrite rdiv_ok by nzt. cbn [bind].
  rewrite rdiv_ok by nzt. cbn [bind].
  rewrite rdiv_ok by nzt. cbn [bind].
  rewrite rdiv_ok by nzt. cbn [bind].
  rewrite rdiv_ok by nzt. cbn [bind].
  match goal with |- context [a1N N * ?p * ?u + c1N N * ?q * ?w] => assert (EP1 : p = P1 N); [|assert (EU0 : u = U0 N (/ d ^ 2)); [|assert (EP2 : q = P2 N); [|assert (EW0 : w = W0 N (/ d ^ 2)); [|rewrite EP1, EU0, EP2, EW0]]]] end.
  - unfold P1, K9, a1N, b1N. unfold den. field. repeat split; try lra; auto.
  - unfold U0, K9, a1N, e1N. unfold den. field. repeat split; try lra; auto.
  - unfold P2, c1N, b1N. unfold den. field. repeat split; try lra; auto.
  - unfold W0, c1N, e1N. unfold den. field. repeat split; try lra; auto.
  - fold (D1 N). fold (D2 N (/ d ^ 2)). replace (e1N N / d ^ 4) with (e1N N * (/ d ^ 2) ^ 2) by (field; auto). fold (D3 N (/ d ^ 2)). fold (D0 N (/ d ^ 2)). reflexivity.
Qed.
(* ------------------------------------------------------------------ the asserted numbers of points *)
Lemma with_opposites_length l : length (with_opposites l) = (2 * length l)%nat.
Proof. unfold with_opposites. rewrite app_length, map_length. cbn [Nat.mul]. rewrite Nat.add_0_r. reflexivity. Qed.
Lemma pts_a_length n : length (with_opposites (nsx_pts n)) = (2 * (n + 1))%nat.
Proof. rewrite with_opposites_length, nsx_pts_len. auto. Qed.
Lemma pts_b_length n c : length (with_opposites (pair_midpoints c (nsx_pts n))) = (n * (n + 1))%nat.
Proof.
  apply INR_eq. rewrite <- (tot_0 []), tot_opp, tot_pair. replace (pairsum _ (n + 1)) with (/ 2 * (2 * pairsum (fun k l => (vt n [] k + vt n [] l) ^ 0) (n + 1))) by (field; lra).
  rewrite pair_val. unfold dsum. cbn [Nat.add seq map Rsum Nat.sub bin]. rewrite !psum_0, mult_INR, plus_INR. cbn [INR pow]. field.
Qed.
Lemma pts_e_length n c : length (with_opposites (quarter_points c (nsx_pts n))) = (2 * n * (n + 1))%nat.
Proof.
  apply INR_eq. rewrite <- (tot_0 []), tot_opp, tot_quarter, quarter_val. unfold dsum. cbn [Nat.add seq map Rsum Nat.sub bin]. rewrite !psum_0, !mult_INR, plus_INR. cbn [INR pow]. field.
Qed.
Lemma pts_c_length n c : (5 <= n)%nat -> length (trip_pts n c) = (if n =? 5 then (n + 1) * n * (n - 1) / 6 else (n + 1) * n * (n - 1) / 3)%nat.
Proof.
  intros Hn. assert (T : (6 * length (triple_midpoints c (nsx_pts n)) = (n + 1) * n * (n - 1))%nat).
  { apply INR_eq. rewrite mult_INR, <- (tot_0 []), tot_trip. cbn [pow]. rewrite Rmult_1_l. replace (INR 6) with 6 by (cbn; ring).
    change (fun _ _ _ : nat => 1) with (fun i j k => (vt n [] i + vt n [] j + vt n [] k) ^ 0). rewrite trip_val. unfold tsum, dsum. cbn [Nat.add seq map Rsum Nat.sub bin]. rewrite !psum_0, !mult_INR, plus_INR, minus_INR by lia. cbn [INR pow]. ring. }
  unfold trip_pts. destruct (Nat.ltb_spec 5 n), (Nat.eqb_spec n 5); try lia.
  - rewrite with_opposites_length, <- T. replace (6 * length (triple_midpoints c (nsx_pts n)))%nat with (2 * length (triple_midpoints c (nsx_pts n)) * 3)%nat by lia. rewrite Nat.div_mul by lia. auto.
  - rewrite <- T, Nat.mul_comm, Nat.div_mul by lia. auto.
Qed.
Definition the_delta (n : nat) (delta : option R) (plus : bool) : R := match delta with Some d => d | None => stoyanova_delta n plus end.
Definition vval (N z : R) (plus : bool) : R := if plus then (D2 N z + sqrt (D0 N z)) / D1 N else (D2 N z - sqrt (D0 N z)) / D1 N.
Lemma le5 n : (5 <= n)%nat -> 5 <= INR n.
Proof. intros. replace 5 with (INR 5) by (cbn; lra). apply le_INR; auto. Qed.
Lemma stoy_works n delta plus : (5 <= n)%nat -> K9 (INR n) <> 0 -> the_delta n delta plus <> 0 -> let N := INR n in let z := / the_delta n delta plus ^ 2 in
  D1 N <> 0 -> 0 <= D0 N z -> 0 < U0 N z - P1 N * vval N z plus -> 0 < vval N z plus -> 0 < W0 N z - P2 N * vval N z plus -> exists s, stoyanova n delta plus = Some s.
Proof.
  intros Hn HK Hd N z H1 H0 Hu Hv Hw. assert (N5 := le5 n Hn). unfold stoyanova. rewrite (proj2 (Nat.leb_le 5 n) Hn). cbn [guard]. cbv zeta. fold (the_delta n delta plus).
  rewrite nsimplex_run. cbn [bind]. rewrite rdiv_ok by lra. cbn [bind]. rewrite rsqrt_ok by (apply Rlt_le, Rdiv_lt_0_compat; lra). cbn [bind].
  rewrite rdiv_ok by lra. cbn [bind]. rewrite rsqrt_ok by (apply Rlt_le, Rdiv_lt_0_compat; lra). cbn [bind].
  rewrite rdiv_ok by lra. cbn [bind]. rewrite rsqrt_ok by (apply Rlt_le, Rdiv_lt_0_compat; lra). cbn [bind].
  fold (trip_pts n (sqrt (INR n / (3 * (INR n - 2))))). rewrite pts_a_length, pts_b_length, pts_e_length, pts_c_length, !Nat.eqb_refl by auto. cbn [guard].
  rewrite coeffs_val by auto. cbn [bind]. rewrite uvw_run by auto. fold N. fold z. rewrite rsqrt_ok by auto. cbn [bind].
  assert (E : (if plus then rdiv (D2 N z + sqrt (D0 N z)) (D1 N) else rdiv (D2 N z - sqrt (D0 N z)) (D1 N)) = Some (vval N z plus)) by (unfold vval; destruct plus; apply rdiv_ok; auto).
  rewrite E. cbn [bind]. set (v := vval N z plus) in *. set (u := U0 N z - P1 N * v) in *. set (w := W0 N z - P2 N * v) in *. clearbody u v w.
  assert (Pu : 0 < 1 / u) by (apply Rdiv_lt_0_compat; lra). assert (Pv : 0 < 1 / v) by (apply Rdiv_lt_0_compat; lra). assert (Pw : 0 < 1 / w) by (apply Rdiv_lt_0_compat; lra).
  do 3 (rewrite rdiv_ok by lra; cbn [bind]). do 4 (rewrite rdiv_ok by (repeat apply pow_nonzero; lra || auto); cbn [bind]). do 3 (rewrite rsqrt_ok by lra; cbn [bind]). eexists. reflexivity.
Qed.
Lemma stoy_needs n delta plus s : stoyanova n delta plus = Some s -> let N := INR n in let z := / the_delta n delta plus ^ 2 in
  K9 (INR n) <> 0 /\ 0 <= D0 N z /\ 0 < U0 N z - P1 N * vval N z plus.
Proof.
  intros E N z. unfold stoyanova in E. apply guard_inv in E. destruct E as [Hn E]. apply Nat.leb_le in Hn. cbv zeta in E. fold (the_delta n delta plus) in E.
  assert (N5 := le5 n Hn). rewrite nsimplex_run in E. cbn [bind] in E.
  do 3 (apply bind_div_inv in E; destruct E as [_ E]; apply bind_sqrt_inv in E; destruct E as [_ E]). do 4 (apply guard_inv in E; destruct E as [_ E]).
  rewrite coeffs_val in E by auto. cbn [bind] in E. apply bind_inv in E. destruct E as [[[u v] w] [Uvw E]].
  assert (Q := uvw_eqs _ _ _ _ _ _ _ _ _ _ N5 Uvw). destruct Q as [D [A _]].
  assert (K : K9 (INR n) <> 0). { intros K. apply A. unfold a1N. fold (K9 (INR n)). rewrite K. unfold Rdiv. ring. }
  rewrite uvw_run in Uvw by auto. fold N in Uvw. fold z in Uvw. apply bind_sqrt_inv in Uvw. destruct Uvw as [P0 Uvw]. split; auto. split; auto.
  assert (V : u = U0 N z - P1 N * vval N z plus).
  { unfold vval. destruct plus; apply bind_div_inv in Uvw; destruct Uvw as [_ Uvw]; apply some_inj in Uvw; injection Uvw as <- _ _; auto. }
  rewrite <- V. apply bind_div_inv in E. destruct E as [U E]. do 2 (apply bind_div_inv in E; destruct E as [_ E]). do 4 (apply bind_div_inv in E; destruct E as [_ E]). apply bind_sqrt_inv in E. destruct E as [Pu _].
  destruct (Rlt_le_dec 0 u) as [L|L]; auto. exfalso. assert (1 / u < 0); [|lra]. unfold Rdiv. rewrite Rmult_1_l. apply Rinv_lt_0_compat. lra.
Qed.
(* ------------------------------------------------------------------ signs *)
Definition pC1 (N : R) : R := 1460 * N ^ 3 - 12216 * N ^ 2 + 35444 * N - 34848.
Definition pD2a (N : R) : R := 1460 * N ^ 4 - 12396 * N ^ 3 + 43932 * N ^ 2 - 70836 * N + 39312.
Definition pD0a (N : R) : R := 5840 * N ^ 3 - 62784 * N ^ 2 + 204048 * N - 202464.
Definition pTa (N : R) : R := 13140 * N ^ 6 - 1270964 * N ^ 5 + 12937908 * N ^ 4 - 52672412 * N ^ 3 + 96452280 * N ^ 2 - 62654832 * N - 7516800.
Definition pD2b (N : R) : R := (7685 / 4) * N ^ 4 - (81921 / 4) * N ^ 3 + (300351 / 4) * N ^ 2 - (444075 / 4) * N + 53892.
Definition pD0b (N : R) : R := 2025 * N ^ 4 - (163135 / 8) * N ^ 3 + (384687 / 4) * N ^ 2 - (1841175 / 8) * N + (417969 / 2).
Definition pW0a (N : R) : R := 1 * N ^ 2 - 3 * N + 12.
Definition pW0b (N : R) : R := 1 * N ^ 2 - (69 / 8) * N + (123 / 8).
Definition pTb (N : R) : R := - (42885 / 2) * N ^ 6 + 2065808 * N ^ 5 - 20339553 * N ^ 4 + 79893506 * N ^ 3 - (284435289 / 2) * N ^ 2 + 95904846 * N - 939600.
Definition pQb (N : R) : R := 567045 * N ^ 7 - 53952323 * N ^ 6 + 524268120 * N ^ 5 - 2026134464 * N ^ 4 + 3537632619 * N ^ 3 - 2344477869 * N ^ 2 + 45312696 * N - 2214864.
Ltac horner_pos := repeat (apply Rplus_lt_le_0_compat; [lra|]; apply Rmult_le_pos; [lra|]; try (apply Rlt_le)); lra.
Lemma C1_pos N : 10 <= N -> 0 < pC1 N.
Proof. intros H. set (x := N - 10). assert (X : 0 <= x) by (unfold x; lra). replace (pC1 N) with (557992 + x * (229124 + x * (31584 + x * (1460)))) by (unfold pC1, x; field). horner_pos. Qed.
Lemma D2b_pos N : 10 <= N -> 0 < pD2b N.
Proof. intros H. set (x := N - 10). assert (X : 0 <= x) by (unfold x; lra). replace (pD2b N) with ((10369459 / 2) + x * ((11726645 / 4) + x * ((2453721 / 4) + x * ((225479 / 4) + x * ((7685 / 4)))))) by (unfold pD2b, x; field). horner_pos. Qed.
Lemma D0b_pos N : 10 <= N -> 0 < pD0b N.
Proof. intros H. set (x := N - 10). assert (X : 0 <= x) by (unfold x; lra). replace (pD0b N) with ((29531263 / 4) + x * ((29405805 / 8) + x * ((1398831 / 2) + x * ((484865 / 8) + x * (2025))))) by (unfold pD0b, x; field). horner_pos. Qed.
Lemma W0b_pos N : 10 <= N -> 0 < pW0b N.
Proof. intros H. set (x := N - 10). assert (X : 0 <= x) by (unfold x; lra). replace (pW0b N) with ((233 / 8) + x * ((91 / 8) + x * (1))) by (unfold pW0b, x; field). horner_pos. Qed.
Lemma D0a_pos N : 10 <= N -> 0 < pD0a N.
Proof. intros H. set (x := N - 10). assert (X : 0 <= x) by (unfold x; lra). replace (pD0a N) with (1399616 + x * (700368 + x * (112416 + x * (5840)))) by (unfold pD0a, x; field). horner_pos. Qed.
Lemma D2a_pos N : 86 <= N -> 0 < pD2a N.
Proof. intros H. set (x := N - 86). assert (X : 0 <= x) by (unfold x; lra). replace (pD2a N) with (72297509672 + x * (3447010060 + x * (61634724 + x * (489844 + x * (1460))))) by (unfold pD2a, x; field). horner_pos. Qed.
Lemma Ta_pos N : 86 <= N -> 0 < pTa N.
Proof. intros H. set (x := N - 86). assert (X : 0 <= x) by (unfold x; lra). replace (pTa N) with (11974916193760 + x * (55035588845984 + x * (3258127629152 + x * (77552987300 + x * (924174988 + x * (5509276 + x * (13140))))))) by (unfold pTa, x; field). horner_pos. Qed.
Lemma W0a_pos N : 86 <= N -> 0 < pW0a N.
Proof. intros H. set (x := N - 86). assert (X : 0 <= x) by (unfold x; lra). replace (pW0a N) with (7150 + x * (169 + x * (1))) by (unfold pW0a, x; field). horner_pos. Qed.
Lemma Kp_pos N : 86 <= N -> 0 < K9 N.
Proof. intros H. set (x := N - 86). assert (X : 0 <= x) by (unfold x; lra). replace (K9 N) with (166 + x * (755 + x * (9))) by (unfold K9, x; field). horner_pos. Qed.
Lemma Tb_pos N : 10 <= N <= 85 -> 0 < pTb N.
Proof. intros H. set (x := N - 10). assert (X : 0 <= x <= 75) by (unfold x; lra). replace (pTb N) with (48372620410 + x * (30286291756 + x * ((14985121471 / 2) + x * (903269386 + x * (50787097 + x * (779258 + x * (- (42885 / 2)))))))) by (unfold pTb, x; field).
  set (h6 := - (42885 / 2)).
  assert (B6 : h6 >= - (42885 / 2)) by (unfold h6; lra). clearbody h6.
  set (h5 := 779258 + x * h6). assert (B5 : h5 >= - (1657859 / 2)) by (unfold h5; nra). clearbody h5.
  set (h4 := 50787097 + x * h5). assert (B4 : h4 >= - (22765231 / 2)) by (unfold h4; nra). clearbody h4.
  set (h3 := 903269386 + x * h4). assert (B3 : h3 >= (99146447 / 2)) by (unfold h3; nra). clearbody h3.
  set (h2 := (14985121471 / 2) + x * h3). assert (B2 : h2 >= (14985121471 / 2)) by (unfold h2; nra). clearbody h2.
  set (h1 := 30286291756 + x * h2). assert (B1 : h1 >= 30286291756) by (unfold h1; nra). clearbody h1.
  set (h0 := 48372620410 + x * h1). assert (B0 : h0 >= 48372620410) by (unfold h0; nra). clearbody h0.
  lra.
Qed.
Lemma Qb_neg N : 10 <= N <= 84 -> pQb N < 0.
Proof. intros H. set (x := N - 10). assert (X : 0 <= x <= 74) by (unfold x; lra). replace (pQb N) with (- 12812769895804 + x * (- 9278765114984 + x * (- 2771268927699 + x * (- 433820335941 + x * (- 36894637964 + x * (- 1522076760 + x * (- 14259173 + x * (567045)))))))) by (unfold pQb, x; field).
  set (h7 := 567045).
  assert (B7 : h7 <= 567045) by (unfold h7; lra). clearbody h7.
  set (h6 := - 14259173 + x * h7). assert (B6 : h6 <= 27702157) by (unfold h6; nra). clearbody h6.
  set (h5 := - 1522076760 + x * h6). assert (B5 : h5 <= 527882858) by (unfold h5; nra). clearbody h5.
  set (h4 := - 36894637964 + x * h5). assert (B4 : h4 <= 2168693528) by (unfold h4; nra). clearbody h4.
  set (h3 := - 433820335941 + x * h4). assert (B3 : h3 <= - 273337014869) by (unfold h3; nra). clearbody h3.
  set (h2 := - 2771268927699 + x * h3). assert (B2 : h2 <= - 2771268927699) by (unfold h2; nra). clearbody h2.
  set (h1 := - 9278765114984 + x * h2). assert (B1 : h1 <= - 9278765114984) by (unfold h1; nra). clearbody h1.
  set (h0 := - 12812769895804 + x * h1). assert (B0 : h0 <= - 12812769895804) by (unfold h0; nra). clearbody h0.
  lra.
Qed.
Lemma K9_neg N : 5 <= N <= 85 -> K9 N < 0.
Proof. intros H. unfold K9. nra. Qed.
(* ------------------------------------------------------------------ the values for delta = 1 (a) and delta = 4 / 5 (b) *)
Definition zb : R := 25 / 16.
Ltac clo := intros H K; unfold D0, D3, D2, D1, P1, P2, U0, W0, a1N, b1N, c1N, e1N, den, zb; unfold K9 in *; field; repeat split; lra.
Lemma D1_val N : 5 <= N -> K9 N <> 0 -> D1 N = N * (N - 1) ^ 3 * (N - 4) * pC1 N / (den N * (N - 3) ^ 2 * K9 N).
Proof. unfold pC1. clo. Qed.
Lemma D2a_val N : 5 <= N -> K9 N <> 0 -> D2 N 1 = N * (N - 1) ^ 2 * (N - 4) * pD2a N / (den N * (N - 3) ^ 2 * K9 N).
Proof. unfold pD2a. clo. Qed.
Lemma D2b_val N : 5 <= N -> K9 N <> 0 -> D2 N zb = N * (N - 1) ^ 2 * (N - 4) * pD2b N / (den N * (N - 3) ^ 2 * K9 N).
Proof. unfold pD2b. clo. Qed.
Lemma D0a_val N : 5 <= N -> K9 N <> 0 -> D0 N 1 = N ^ 2 * (N - 1) ^ 3 * (N - 4) * pD0a N / (((N + 6) * (N + 4) * (N + 2) * (N + 1)) ^ 2 * (N - 3) ^ 2 * K9 N).
Proof. unfold pD0a. clo. Qed.
Lemma D0b_val N : 5 <= N -> K9 N <> 0 -> D0 N zb = - (N ^ 2 * (N - 1) ^ 3 * (N - 4) * pD0b N) / (((N + 6) * (N + 4) * (N + 2) * (N + 1)) ^ 2 * (N - 3) ^ 2 * K9 N).
Proof. unfold pD0b. clo. Qed.
Lemma Ta_val N : 5 <= N -> K9 N <> 0 -> U0 N 1 * D1 N - P1 N * D2 N 1 = (N - 1) ^ 3 * (N - 4) * pTa N / (den N * (N - 3) ^ 2 * K9 N ^ 2).
Proof. unfold pTa. clo. Qed.
Lemma Tb_val N : 5 <= N -> K9 N <> 0 -> P1 N * D2 N zb - U0 N zb * D1 N = (N - 1) ^ 3 * (N - 4) * pTb N / (den N * (N - 3) ^ 2 * K9 N ^ 2).
Proof. unfold pTb. clo. Qed.
Lemma Qb_val N : 5 <= N -> K9 N <> 0 -> U0 N zb ^ 2 * D1 N - 2 * U0 N zb * P1 N * D2 N zb + P1 N ^ 2 * D3 N zb = (N - 1) ^ 3 * (N - 4) * pQb N / (16 * N * (N - 3) ^ 2 * K9 N ^ 2 * den N).
Proof. unfold pQb. clo. Qed.
Lemma W0a_val N : 5 <= N -> W0 N 1 = pW0a N / (3 * (N - 2) * (N - 3)).
Proof. intros. unfold W0, pW0a. field. lra. Qed.
Lemma W0b_val N : 5 <= N -> W0 N zb = pW0b N / (3 * (N - 2) * (N - 3)).
Proof. intros. unfold W0, pW0b, zb. field. lra. Qed.
(* ------------------------------------------------------------------ the default deltas *)
Lemma pos_mul a b : 0 < a -> 0 < b -> 0 < a * b.
Proof. apply Rmult_lt_0_compat. Qed.
Lemma den_pos N : 5 <= N -> 0 < den N.
Proof. intros. unfold den. repeat apply pos_mul; try lra. Qed.
Ltac post := try match goal with |- (?a > ?b)%R => change (b < a)%R end; repeat match goal with H : 0 < ?a |- 0 < ?a => exact H | |- 0 < (_ * _)%R => apply pos_mul | |- 0 < (_ ^ _)%R => apply pow_lt | |- 0 < (_ / _)%R => apply Rdiv_lt_0_compat end; auto; try lra.
Lemma pos_over_neg a b : 0 < a -> b < 0 -> a / b < 0.
Proof. intros. unfold Rdiv. assert (/ b < 0) by (apply Rinv_lt_0_compat; auto). nra. Qed.
Lemma mul_neg a b : 0 < a -> b < 0 -> a * b < 0.
Proof. intros. nra. Qed.
Lemma P2_neg N : 5 <= N -> P2 N < 0.
Proof. intros. unfold P2. replace (- 2 * (N - 1) * (N - 4) / (3 * (N - 2) * (N - 3))) with (- (2 * (N - 1) * (N - 4) / (3 * (N - 2) * (N - 3)))) by (field; lra). apply Ropp_lt_gt_0_contravar. post. Qed.
Lemma le_n n k : (k <= n)%nat -> INR k <= INR n.
Proof. apply le_INR. Qed.
Lemma delta_one_z : / 1 ^ 2 = 1.
Proof. field. Qed.
Lemma delta_45_z : / (4 / 5) ^ 2 = zb.
Proof. unfold zb. field. Qed.
Lemma default_plus n : (10 <= n)%nat -> the_delta n None true = 1.
Proof. intros H. unfold the_delta, stoyanova_delta. do 10 (destruct n as [|n]; [lia|]). auto. Qed.
Lemma default_minus n : (10 <= n)%nat -> the_delta n None false = 4 / 5.
Proof. intros H. unfold the_delta, stoyanova_delta. do 10 (destruct n as [|n]; [lia|]). auto. Qed.
Theorem default_plus_raises n : (10 <= n <= 85)%nat -> stoyanova n None true = None.
Proof.
  intros [H1 H2]. destruct (stoyanova n None true) as [s|] eqn:E; auto. exfalso. apply stoy_needs in E. cbv zeta in E. rewrite default_plus, delta_one_z in E by auto. destruct E as [K [E _]].
  apply le_INR in H1, H2. replace (INR 10) with 10 in H1 by (cbn; lra). replace (INR 85) with 85 in H2 by (cbn; lra). set (N := INR n) in *. clearbody N.
  assert (KN := K9_neg N ltac:(lra)). rewrite D0a_val in E by lra. apply (Rlt_not_le _ _ (pos_over_neg _ _ (ltac:(post; apply D0a_pos; lra) : 0 < N ^ 2 * (N - 1) ^ 3 * (N - 4) * pD0a N) (mul_neg _ _ (ltac:(post) : 0 < ((N + 6) * (N + 4) * (N + 2) * (N + 1)) ^ 2 * (N - 3) ^ 2) KN))). exact E.
Qed.
Theorem default_plus_works n : (86 <= n)%nat -> exists s, stoyanova n None true = Some s.
Proof.
  intros H. assert (HN := le_INR _ _ H). replace (INR 86) with 86 in HN by (cbn; lra). assert (KP := Kp_pos _ HN). assert (N5 : 5 <= INR n) by lra.
  apply stoy_works; [lia | lra | rewrite default_plus by lia; lra |..]; rewrite ?default_plus, ?delta_one_z by lia; set (N := INR n) in *; clearbody N; assert (K : K9 N <> 0) by lra;
    assert (DP := den_pos N N5); assert (Q1 : 0 < D1 N) by (rewrite D1_val by auto; post; apply C1_pos; lra);
    assert (Q2 : 0 < D2 N 1) by (rewrite D2a_val by auto; post; apply D2a_pos; lra);
    assert (Q0 : 0 < D0 N 1) by (rewrite D0a_val by auto; post; apply D0a_pos; lra);
    assert (V : D2 N 1 / D1 N <= vval N 1 true) by (unfold vval; apply Rmult_le_compat_r; [left; apply Rinv_0_lt_compat; auto | assert (S := sqrt_pos (D0 N 1)); lra]).
  - lra.
  - lra.
  - assert (P : P1 N < 0). { unfold P1. replace (- 18 * (N - 1) ^ 2 * (N - 4) ^ 2 / (N * (N - 3) * K9 N)) with (- (18 * (N - 1) ^ 2 * (N - 4) ^ 2 / (N * (N - 3) * K9 N))) by (field; repeat split; lra). apply Ropp_lt_gt_0_contravar. post. }
    assert (T : 0 < (U0 N 1 * D1 N - P1 N * D2 N 1) / D1 N). { rewrite Ta_val by auto. post. apply Ta_pos; lra. }
    replace ((U0 N 1 * D1 N - P1 N * D2 N 1) / D1 N) with (U0 N 1 - P1 N * (D2 N 1 / D1 N)) in T by (field; lra). nra.
  - assert (0 < D2 N 1 / D1 N) by post. lra.
  - assert (P := P2_neg N N5). assert (W : 0 < W0 N 1) by (rewrite W0a_val by auto; post; apply W0a_pos; lra). assert (0 < D2 N 1 / D1 N) by post. nra.
Qed.
Theorem default_minus_raises n : (85 <= n)%nat -> stoyanova n None false = None.
Proof.
  intros H. destruct (stoyanova n None false) as [s|] eqn:E; auto. exfalso. apply stoy_needs in E. cbv zeta in E. rewrite default_minus, delta_45_z in E by lia. destruct E as [K [E U]].
  destruct (Nat.eq_dec n 85) as [En|Hn].
  - replace (INR n) with 85 in * by (subst n; cbn; lra). set (N := 85) in *. assert (N5 : 5 <= N) by (unfold N; lra). assert (KN := K9_neg N ltac:(unfold N; lra)). clear H En.
    assert (DP := den_pos N N5). assert (Q1 : D1 N < 0). { rewrite D1_val by auto. apply pos_over_neg; [post; try (unfold N; lra); apply C1_pos; unfold N; lra|]. apply mul_neg; auto. post; unfold N; lra. }
    assert (P : 0 < P1 N). { unfold P1. replace (- 18 * (N - 1) ^ 2 * (N - 4) ^ 2 / (N * (N - 3) * K9 N)) with (18 * (N - 1) ^ 2 * (N - 4) ^ 2 / (- (N * (N - 3) * K9 N))) by (field; repeat split; unfold N in *; lra). apply Rdiv_lt_0_compat; [post; unfold N; lra|]. apply Ropp_0_gt_lt_contravar. apply mul_neg; auto. post; unfold N; lra. }
    assert (Q := Qb_val N N5 K). assert (Qp : 0 < (N - 1) ^ 3 * (N - 4) * pQb N / (16 * N * (N - 3) ^ 2 * K9 N ^ 2 * den N)).
    { apply Rdiv_lt_0_compat; [|apply pos_mul; auto; apply pos_mul; [unfold N; post|]; replace (K9 N ^ 2) with (- K9 N * - K9 N) by ring; apply pos_mul; lra]. apply pos_mul; [unfold N; post|]. unfold pQb, N. lra. }
    rewrite <- Q in Qp. clear Q. assert (T : 0 < P1 N * D2 N zb - U0 N zb * D1 N).
    { rewrite Tb_val by auto. apply Rdiv_lt_0_compat; [apply pos_mul; [unfold N; post|apply Tb_pos; unfold N; lra]|]. apply pos_mul; [unfold N in *; post|]. replace (K9 N ^ 2) with (- K9 N * - K9 N) by ring. apply pos_mul; lra. }
    unfold vval in U. assert (S := sqrt_sqrt _ E). assert (SP := sqrt_pos (D0 N zb)). unfold D0 in S at 3. set (s1 := sqrt (D0 N zb)) in *. clearbody s1. clearbody N. clear E KN K DP N5.
    assert (U1 : (U0 N zb - P1 N * ((D2 N zb - s1) / D1 N)) * D1 N < 0) by nra. replace ((U0 N zb - P1 N * ((D2 N zb - s1) / D1 N)) * D1 N) with (P1 N * s1 - (P1 N * D2 N zb - U0 N zb * D1 N)) in U1 by (field; lra).
    set (r := P1 N * D2 N zb - U0 N zb * D1 N) in *. assert (R2 : r ^ 2 - P1 N ^ 2 * (s1 * s1) < 0). { rewrite S. unfold r. replace ((P1 N * D2 N zb - U0 N zb * D1 N) ^ 2 - P1 N ^ 2 * (D2 N zb ^ 2 - D1 N * D3 N zb)) with (D1 N * (U0 N zb ^ 2 * D1 N - 2 * U0 N zb * P1 N * D2 N zb + P1 N ^ 2 * D3 N zb)) by ring. nra. }
    clearbody r. assert (0 <= P1 N * s1) by nra. nra.
  - assert (HN : 86 <= INR n) by (replace 86 with (INR 86) by (cbn; lra); apply le_INR; lia). assert (KP := Kp_pos _ HN). set (N := INR n) in *. clearbody N. rewrite D0b_val in E by lra.
    assert (Q : 0 < N ^ 2 * (N - 1) ^ 3 * (N - 4) * pD0b N / (((N + 6) * (N + 4) * (N + 2) * (N + 1)) ^ 2 * (N - 3) ^ 2 * K9 N)) by (post; apply D0b_pos; lra).
    unfold Rdiv in *. rewrite Ropp_mult_distr_l_reverse in E. lra.
Qed.
Theorem default_minus_works_10 n : (10 <= n <= 84)%nat -> exists s, stoyanova n None false = Some s.
Proof.
  intros [H1 H2]. assert (L1 := le_INR _ _ H1). replace (INR 10) with 10 in L1 by (cbn; lra). assert (L2 := le_INR _ _ H2). replace (INR 84) with 84 in L2 by (cbn; lra). assert (N5 : 5 <= INR n) by lra.
  assert (KN := K9_neg (INR n) ltac:(lra)).
  apply stoy_works; [lia | lra | rewrite default_minus by lia; lra |..]; rewrite ?default_minus, ?delta_45_z by lia; set (N := INR n) in *; clearbody N; clear H1 H2; assert (K : K9 N <> 0) by lra;
    assert (DP := den_pos N N5);
    assert (Q1 : D1 N < 0) by (rewrite D1_val by auto; apply pos_over_neg; [post; apply C1_pos; lra | apply mul_neg; auto; post]);
    assert (Q2 : D2 N zb < 0) by (rewrite D2b_val by auto; apply pos_over_neg; [post; apply D2b_pos; lra | apply mul_neg; auto; post]);
    assert (Q0 : 0 < D0 N zb).
  1,3,5,7,9: (rewrite D0b_val by auto; set (a := N ^ 2 * (N - 1) ^ 3 * (N - 4) * pD0b N); set (b := ((N + 6) * (N + 4) * (N + 2) * (N + 1)) ^ 2 * (N - 3) ^ 2 * K9 N); assert (A : 0 < a) by (unfold a; post; apply D0b_pos; lra); assert (B : b < 0) by (unfold b; apply mul_neg; auto; post); assert (Z := pos_over_neg a b A B); unfold Rdiv in *; rewrite Ropp_mult_distr_l_reverse; lra).
  all: assert (V : 0 < D2 N zb / D1 N <= vval N zb false) by (split; [replace (D2 N zb / D1 N) with (- D2 N zb / - D1 N) by (field; lra); post|]; unfold vval; replace ((D2 N zb - sqrt (D0 N zb)) / D1 N) with (D2 N zb / D1 N + sqrt (D0 N zb) / (- D1 N)) by (field; lra);
    assert (0 <= sqrt (D0 N zb) / - D1 N) by (apply Rmult_le_pos; [apply sqrt_pos | left; apply Rinv_0_lt_compat; lra]); lra).
  - lra.
  - lra.
  - assert (P : 0 < P1 N). { unfold P1. replace (- 18 * (N - 1) ^ 2 * (N - 4) ^ 2 / (N * (N - 3) * K9 N)) with (18 * (N - 1) ^ 2 * (N - 4) ^ 2 / (- (N * (N - 3) * K9 N))) by (field; repeat split; lra). apply Rdiv_lt_0_compat; [post|]. apply Ropp_0_gt_lt_contravar. apply mul_neg; auto. post. }
    assert (K2 : 0 < K9 N ^ 2) by (replace (K9 N ^ 2) with (- K9 N * - K9 N) by ring; apply pos_mul; lra).
    assert (T : 0 < P1 N * D2 N zb - U0 N zb * D1 N) by (rewrite Tb_val by auto; post; apply Tb_pos; lra).
    assert (Q := Qb_val N N5 K). assert (Qn : (N - 1) ^ 3 * (N - 4) * pQb N / (16 * N * (N - 3) ^ 2 * K9 N ^ 2 * den N) < 0).
    { apply Ropp_lt_cancel. rewrite Ropp_0. unfold Rdiv. rewrite <- Ropp_mult_distr_l_reverse. apply pos_mul; [|apply Rinv_0_lt_compat; post]. apply Ropp_0_gt_lt_contravar. apply mul_neg; [post|apply Qb_neg; lra]. }
    rewrite <- Q in Qn. clear Q. unfold vval. assert (S := sqrt_sqrt _ (Rlt_le _ _ Q0)). assert (SP := sqrt_pos (D0 N zb)). unfold D0 in S at 3. set (s1 := sqrt (D0 N zb)) in *. clearbody s1. clear V Q0 KN K K2 DP N5 L1 L2.
    assert (R2 : 0 < (P1 N * D2 N zb - U0 N zb * D1 N) ^ 2 - P1 N ^ 2 * (s1 * s1)). { rewrite S. replace ((P1 N * D2 N zb - U0 N zb * D1 N) ^ 2 - P1 N ^ 2 * (D2 N zb ^ 2 - D1 N * D3 N zb)) with (D1 N * (U0 N zb ^ 2 * D1 N - 2 * U0 N zb * P1 N * D2 N zb + P1 N ^ 2 * D3 N zb)) by ring. nra. }
    set (r := P1 N * D2 N zb - U0 N zb * D1 N) in *. assert (U1 : U0 N zb - P1 N * ((D2 N zb - s1) / D1 N) = (r - P1 N * s1) / (- D1 N)) by (unfold r; field; lra). rewrite U1. clearbody r. apply Rdiv_lt_0_compat; [|lra].
    assert (0 <= P1 N * s1) by nra. nra.
  - lra.
  - assert (P := P2_neg N N5). assert (W : 0 < W0 N zb) by (rewrite W0b_val by auto; post; apply W0b_pos; lra). nra.
Qed.
(* ------------------------------------------------------------------ n = 5, ..., 9 *)
Lemma convex_pos l a b : 0 <= l <= 1 -> 0 < a -> 0 < b -> 0 < l * a + (1 - l) * b.
Proof. intros H A B. destruct (Rle_lt_dec a b); nra. Qed.
Lemma small_works n plus z u0 w0 p1 p2 d1 d2 d0 r1 r2 va vb : (5 <= n)%nat -> K9 (INR n) <> 0 -> the_delta n None plus <> 0 -> d1 <> 0 -> / the_delta n None plus ^ 2 = z ->
  U0 (INR n) z = u0 -> W0 (INR n) z = w0 -> P1 (INR n) = p1 -> P2 (INR n) = p2 -> D1 (INR n) = d1 -> D2 (INR n) z = d2 -> D0 (INR n) z = d0 ->
  0 <= r1 -> r1 ^ 2 <= d0 -> 0 <= r2 -> d0 <= r2 ^ 2 ->
  va * d1 = d2 + (if plus then r1 else - r1) -> vb * d1 = d2 + (if plus then r2 else - r2) ->
  0 < va -> 0 < u0 - p1 * va -> 0 < w0 - p2 * va -> 0 < vb -> 0 < u0 - p1 * vb -> 0 < w0 - p2 * vb -> exists s, stoyanova n None plus = Some s.
Proof.
  intros Hn K D N1 Z Eu Ew Ep1 Ep2 E1 E2 E0 R1 L1 R2 L2 Va Vb A1 A2 A3 B1 B2 B3.
  assert (Q1 := pow2_ge_0 r1). assert (Q2 := pow2_ge_0 r2).
  assert (S1 : r1 <= sqrt d0). { rewrite <- (sqrt_pow2 r1) by auto. apply sqrt_le_1; lra. }
  assert (S2 : sqrt d0 <= r2). { rewrite <- (sqrt_pow2 r2) by auto. apply sqrt_le_1; lra. }
  assert (V : exists l, 0 <= l <= 1 /\ (if plus then sqrt d0 else - sqrt d0) = l * (if plus then r1 else - r1) + (1 - l) * (if plus then r2 else - r2)).
  { destruct (Req_dec r1 r2) as [Er|Er].
    - exists 1. split; [lra|]. destruct plus; lra.
    - exists ((r2 - sqrt d0) / (r2 - r1)). split; [split|destruct plus; field; lra].
      + apply Rmult_le_pos; [lra|]. left. apply Rinv_0_lt_compat. lra.
      + apply Rmult_le_reg_r with (r2 - r1); [lra|]. unfold Rdiv. rewrite Rmult_assoc, Rinv_l by lra. lra. }
  destruct V as [l [Hl V]]. assert (VV : vval (INR n) z plus = l * va + (1 - l) * vb).
  { apply (Rmult_eq_reg_r d1); auto. rewrite Rmult_plus_distr_r, !Rmult_assoc, Va, Vb. unfold vval. rewrite E2, E0, E1. destruct plus; [rewrite V; field; auto|]. replace (d2 - sqrt d0) with (d2 + - sqrt d0) by ring. rewrite V. field; auto. }
  apply stoy_works; auto; rewrite ?Z, ?E1, ?E0, ?Eu, ?Ew, ?Ep1, ?Ep2, ?VV; auto.
  - lra.
  - replace (u0 - p1 * (l * va + (1 - l) * vb)) with (l * (u0 - p1 * va) + (1 - l) * (u0 - p1 * vb)) by ring. apply convex_pos; auto.
  - apply convex_pos; auto.
  - replace (w0 - p2 * (l * va + (1 - l) * vb)) with (l * (w0 - p2 * va) + (1 - l) * (w0 - p2 * vb)) by ring. apply convex_pos; auto.
Qed.
Ltac small_num := unfold D0, D3, D2, D1, P1, P2, U0, W0, a1N, b1N, c1N, e1N, den, K9, the_delta, stoyanova_delta; cbn [INR]; cbv zeta iota; (lra || (field; lra) || field).
Lemma works_5_true : exists s, stoyanova 5 None true = Some s.
Proof.
  apply (small_works 5 true (400000000 / 391604521) (84280033799 / 86330996675) (374813563 / 320403699) (36 / 2425) (- (4 / 9)) (- (19472 / 604989)) (- (1259267535928 / 21537857050479)) (2118284513739194560 / 531362298198016001780217) (1996626253 / 1000000000000) (998313127 / 500000000000) (1216264485107652482374813 / 693211202992000000000000) (608132242543057312662167 / 346605601496000000000000)); [lia | small_num..].
Qed.
Lemma works_6_true : exists s, stoyanova 6 None true = Some s.
Proof.
  apply (small_works 6 true (40000 / 40401) (1937232 / 1970671) (11423 / 13467) (50 / 1317) (- (5 / 9)) (- (55625 / 774396)) (- (32338105 / 289688637)) (120476675 / 20806596663888) (12031533 / 5000000000) (2406306601 / 1000000000000) (474615379812628437 / 312125781250000000) (1066551415299512601 / 701406250000000000)); [lia | small_num..].
Qed.
Lemma works_7_true : exists s, stoyanova 7 None true = Some s.
Proof.
  apply (small_works 7 true (1000000 / 1034289) (11917787366 / 11982238065) (10891514 / 15514335) (729 / 11585) (- (3 / 5)) (- (2583 / 21515)) (- (13768195049 / 81593335395)) (265715897254052 / 12067925765947359165) (469237221 / 100000000000) (4692372211 / 1000000000000) (267706574989425852541 / 195915022380000000000) (2677065749877939858331 / 1959150223800000000000)); [lia | small_num..].
Qed.
Lemma works_8_true : exists s, stoyanova 8 None true = Some s.
Proof.
  apply (small_works 8 true (250000 / 263169) (10552548593 / 10442545920) (7329647 / 11842605) (441 / 4960) (- (28 / 45)) (- (6566 / 37665)) (- (45311809291 / 198245207700)) (58883127854663 / 1304299826630032500) (1679758031 / 250000000000) (53752257 / 8000000000) (15707069061440945659 / 12342626100000000000) (3518383469746912211 / 2764748246400000000)); [lia | small_num..].
Qed.
Lemma works_9_true : exists s, stoyanova 9 None true = Some s.
Proof.
  apply (small_works 9 true (625 / 676) (65825 / 64896) (4075 / 7098) (25 / 216) (- (40 / 63)) (- (831 / 3575)) (- (10229 / 35152)) (1425197 / 2246322650) (6297111603 / 250000000000) (25188446413 / 1000000000000) (1605927078890299 / 1404390000000000) (6423708315537029 / 5617560000000000)); [lia | small_num..].
Qed.
Lemma works_5_false : exists s, stoyanova 5 None false = Some s.
Proof.
  apply (small_works 5 false (39062500 / 38229489) (90546900301 / 92706510825) (402198137 / 344065401) (36 / 2425) (- (4 / 9)) (- (19472 / 604989)) (- (122862761752 / 2102583665511)) (35762216357440 / 6189313831641898948683) (3800677 / 50000000000) (76013541 / 1000000000000) (67662422618758916860417 / 37220230490400000000000) (1353248452398306757528961 / 744404609808000000000000)); [lia | small_num..].
Qed.
Lemma works_6_false : exists s, stoyanova 6 None false = Some s.
Proof.
  apply (small_works 6 false (250000 / 167281) (118514528 / 73436359) (45967 / 501843) (50 / 1317) (- (5 / 9)) (- (55625 / 774396)) (- (545327045 / 10795144773)) (60595912018675 / 28893161804355408) (22897819769 / 500000000000) (45795639539 / 1000000000000) (1559546405677249252311 / 1163125703125000000000) (3119092811386883938941 / 2326251406250000000000)); [lia | small_num..].
Qed.
Lemma works_7_false : exists s, stoyanova 7 None false = Some s.
Proof.
  apply (small_works 7 false (10000 / 6561) (127142534 / 76009185) (10586 / 98415) (729 / 11585) (- (3 / 5)) (- (2583 / 21515)) (- (51299801 / 517586355)) (2329652028452 / 485611422747165) (6926296543 / 100000000000) (69262965431 / 1000000000000) (1742987336268094153 / 1242784620000000000) (17429873362784458801 / 12427846200000000000)); [lia | small_num..].
Qed.
Lemma works_8_false : exists s, stoyanova 8 None false = Some s.
Proof.
  apply (small_works 8 false (25 / 16) (553951 / 317440) (83 / 720) (441 / 4960) (- (28 / 45)) (- (6566 / 37665)) (- (948437 / 6026400)) (33271861 / 3615840000) (95925471841 / 1000000000000) (47962735921 / 500000000000) (1908152829378253 / 1313200000000000) (954076414692893 / 656600000000000)); [lia | small_num..].
Qed.
Lemma works_9_false : exists s, stoyanova 9 None false = Some s.
Proof.
  apply (small_works 9 false (25 / 16) (2725 / 1536) (25 / 168) (25 / 216) (- (40 / 63)) (- (831 / 3575)) (- (2083 / 9152)) (193241 / 16359200) (54342374553 / 500000000000) (108684749107 / 1000000000000) (24044397061079 / 16620000000000) (16029598040767 / 11080000000000)); [lia | small_num..].
Qed.
Theorem default_plus_small n : (5 <= n <= 9)%nat -> exists s, stoyanova n None true = Some s.
Proof.
  intros [A B]. do 5 (destruct n as [|n]; [lia|]). destruct n as [|[|[|[|[|n]]]]]; [apply works_5_true|apply works_6_true|apply works_7_true|apply works_8_true|apply works_9_true|lia].
Qed.
Theorem default_minus_small n : (5 <= n <= 9)%nat -> exists s, stoyanova n None false = Some s.
Proof.
  intros [A B]. do 5 (destruct n as [|n]; [lia|]). destruct n as [|[|[|[|[|n]]]]]; [apply works_5_false|apply works_6_false|apply works_7_false|apply works_8_false|apply works_9_false|lia].
Qed.
