(** Stroud's formula of degree 11 for the sphere: the weights and the exactness, for n = 3, n = 4 and n >= 5. *)
From Coq Require Import Reals List Arith Lia Lra Permutation Bool.
From Verif Require Import Spec RsumLemmas CombSpec CombModel CombProofs CombProofs2 Moments SymExact TnTools TnProofs5
  IntegralSpec IntegralProofs PyBase SymmModel SymmProofs MiscModel CnModel SchemeTools CnTools CnProofs IntegralProofs2 CnProofs4
  SphereSpec SphereInt RadialInt RadialTools RadialDob UnModel UnProofs RootSpec UnModel2 UnProofs2 UnProofs3 MsProofs.
Import ListNotations.
Set Bullet Behavior "Strict Subproofs".
Open Scope R_scope.

(* ------------------------------------------------ entries of the system *)
Definition opts (items : list (R * nat)) : list point := combine (porb items).
Lemma orb_first n items k : (1 <= n)%nat -> list_sum (map snd items) = n ->
  Rsum (map (fun x => nth 0 x 0 ^ (2 * k)) (opts items)) =
  gnum (0, porb items) * pavg (psq items) (pcnt items) (INR n) [k].
Proof.
  intros Hn H. destruct n as [|n]; [lia|]. assert (Hok := porb_ok (S n) (0, items) H). destruct Hok as [Hs Hne]. cbn [pg snd fst] in Hs, Hne.
  rewrite (Rsum_map_ext _ (mono ([2 * k] ++ repeat 0 n)%nat)).
  - unfold opts. rewrite combine_moment_canon; auto. unfold gnum. cbn [snd]. f_equal.
    change [(2 * k)%nat] with (map (fun a => 2 * a)%nat [k]). rewrite <- gavg_pg with (g := (0, items)). reflexivity.
  - intros p Hp. symmetry. apply nth0_mono. apply combine_row_length in Hp. rewrite Hp, Hs. lia.
Qed.
Definition it0 (n : nat) (t : R) : list (R * nat) := [(t, n)].
Definition it1 (n : nat) (s r : R) : list (R * nat) := [(s, 1%nat); (r, (n - 1)%nat)].
Definition it2 (n : nat) (v u : R) : list (R * nat) := [(v, 2%nat); (u, (n - 2)%nat)].
Lemma gnum0 w n t : gnum (w, porb (it0 n t)) = 2 ^ n.
Proof. apply gnum_pm. Qed.
Lemma gnum1 w n s r : (1 <= n)%nat -> gnum (w, porb (it1 n s r)) = INR n * 2 ^ n.
Proof.
  intros H. unfold porb, it1. cbn [map fst snd]. rewrite gnum_1 by auto. cbn [length]. replace (INR 2) with 2 by (simpl; lra).
  replace (2 ^ n) with (2 ^ 1 * 2 ^ (n - 1)) by (rewrite <- pow_add; f_equal; lia). ring.
Qed.
Lemma gnum2 w n s r : (2 <= n)%nat -> gnum (w, porb (it2 n s r)) = INR n * (INR n - 1) / 2 * 2 ^ n.
Proof.
  intros H. unfold porb, it2. cbn [map fst snd]. rewrite gnum_2 by auto. cbn [length]. replace (INR 2) with 2 by (simpl; lra).
  replace (2 ^ n) with (2 ^ 2 * 2 ^ (n - 2)) by (rewrite <- pow_add; f_equal; lia). ring.
Qed.
Definition krange : list nat := [0; 2; 3; 4; 5]%nat.
Lemma usum0 n t k : (1 <= n)%nat -> t * t = 1 / INR n -> In k krange ->
  Rsum (map (fun x => nth 0 x 0 ^ (2 * k)) (opts (it0 n t))) = 2 ^ n * (1 / INR n) ^ 5 / INR n * ksel k (colU (INR n) 0 1).
Proof.
  intros Hn Ht Hk. assert (B : 1 <= INR n) by (apply (le_INR 1); auto). rewrite (orb_first n) by (auto; cbn; lia). rewrite gnum0.
  unfold psq, pcnt, it0. cbn [map fst snd]. rewrite Ht.
  unfold krange in Hk. cbn [In] in Hk. decompose [or] Hk; subst; try contradiction; unfold ksel, colU; cbn [pavg length seq map nth Rsum Nat.sub]; field; lra.
Qed.
Lemma usum1 n s r ka k : (2 <= n)%nat -> INR n + 1 * (ka - 1) <> 0 -> s * s = ka / (INR n + 1 * (ka - 1)) -> r * r = 1 / (INR n + 1 * (ka - 1)) -> In k krange ->
  Rsum (map (fun x => nth 0 x 0 ^ (2 * k)) (opts (it1 n s r))) = 2 ^ n * (1 / (INR n + 1 * (ka - 1))) ^ 5 * ksel k (colU (INR n) 1 ka).
Proof.
  intros Hn Hc Hs Hr Hk. assert (B : 2 <= INR n) by (apply (le_INR 2); auto). rewrite (orb_first n) by (try (cbn [it1 map snd list_sum fold_right]); lia).
  rewrite gnum1 by lia. unfold psq, pcnt, it1. cbn [map fst snd]. rewrite Hs, Hr.
  unfold krange in Hk. cbn [In] in Hk. decompose [or] Hk; subst; try contradiction; unfold ksel, colU; cbn [pavg length seq map nth Rsum Nat.sub];
    rewrite minus_INR by lia; inr_lits; field; lra.
Qed.
Lemma usum2 n s r ka k : (3 <= n)%nat -> INR n + 2 * (ka - 1) <> 0 -> s * s = ka / (INR n + 2 * (ka - 1)) -> r * r = 1 / (INR n + 2 * (ka - 1)) -> In k krange ->
  Rsum (map (fun x => nth 0 x 0 ^ (2 * k)) (opts (it2 n s r))) = 2 ^ n * ((INR n - 1) / 2) * (1 / (INR n + 2 * (ka - 1))) ^ 5 * ksel k (colU (INR n) 2 ka).
Proof.
  intros Hn Hc Hs Hr Hk. assert (B : 3 <= INR n) by (replace 3 with (INR 3) by (simpl; lra); apply le_INR; auto). rewrite (orb_first n) by (try (cbn [it2 map snd list_sum fold_right]); lia).
  rewrite gnum2 by lia. unfold psq, pcnt, it2. cbn [map fst snd]. rewrite Hs, Hr.
  unfold krange in Hk. cbn [In] in Hk. decompose [or] Hk; subst; try contradiction; unfold ksel, colU; cbn [pavg length seq map nth Rsum Nat.sub];
    rewrite minus_INR by lia; inr_lits; field; lra.
Qed.
Lemma un_rhs n k : (1 <= n)%nat -> ndim_nsphere n (2 * k :: repeat 0 (n - 1))%nat = sph0 n * (df (2 * k) / rise (INR n) k).
Proof.
  intros Hn. rewrite ndim_nsphere_val by (cbn [length]; rewrite ?repeat_length; lia). f_equal.
  change (2 * k :: repeat 0 (n - 1))%nat with ([2 * k] ++ repeat 0 (n - 1))%nat. rewrite rmoment_zeros. unfold rmoment.
  cbn [existsb map Rprod]. rewrite Nat.odd_mul. cbn [Nat.odd Nat.even negb andb orb]. unfold h_sphere.
  replace (tdeg [2 * k]%nat / 2)%nat with k; [unfold Rdiv; ring|]. unfold tdeg. cbn [list_sum fold_right]. rewrite Nat.add_0_r, Nat.mul_comm, Nat.div_mul; lia.
Qed.

(* ------------------------------------------------ the points *)
Definition upts (n : nat) (t s1 r1 s2 r2 v1 u1 v2 u2 : R) : list (list point) :=
  [opts (it0 n t); opts (it1 n s1 r1); opts (it1 n s2 r2)]
  ++ (if (4 <=? n)%nat then [opts (it2 n v1 u1)] else []) ++ (if (5 <=? n)%nat then [opts (it2 n v2 u2)] else []).
Lemma bind_fsd_full2 {B} (P : option B -> Prop) n u v (f : list point -> option B) : (2 <= n)%nat ->
  P (f (opts (it2 n u v))) -> P (bind (Rfsd n [(u, 2%nat); (v, (n - 2)%nat)]) f).
Proof.
  intros H HP. apply bind_fsd; [cbn; lia|]. cbn [map fst snd list_sum fold_right app].
  replace (n - (2 + (n - 2 + 0)))%nat with 0%nat by lia.
  change [([u; - u], 2%nat); ([v; - v], (n - 2)%nat); ([0], 0%nat)] with ([([u; - u], 2%nat); ([v; - v], (n - 2)%nat)] ++ [([0], 0%nat)]).
  rewrite combine_drop_zero. exact HP.
Qed.
Definition sq_is (x y c : R) (ka : R) : Prop := x * x = ka / c /\ y * y = 1 / c.
Lemma q3_bounds q : 0 <= q -> q * q = 3 -> 173 / 100 < q < 174 / 100.
Proof. intros. split; nra. Qed.
Lemma ka_pos q : 0 <= q -> q * q = 3 -> 0 < 7 - 4 * q.
Proof. intros P Q. destruct (q3_bounds q P Q). lra. Qed.
Lemma kam_prod q : q * q = 3 -> (7 - 4 * q) * (7 + 4 * q) = 1.
Proof. intros Q. ring_simplify. replace (q ^ 2) with 3 by (rewrite <- Q; ring). ring. Qed.
Lemma un_points_run n : (3 <= n)%nat -> exists q t s1 r1 s2 r2 v1 u1 v2 u2,
  un_stroud_1969_points n = Some (upts n t s1 r1 s2 r2 v1 u1 v2 u2) /\ 0 <= q /\ q * q = 3 /\ t * t = 1 / INR n /\
  sq_is s1 r1 (INR n + 1 * (7 + 4 * q - 1)) (7 + 4 * q) /\ sq_is s2 r2 (INR n + 1 * (7 - 4 * q - 1)) (7 - 4 * q) /\
  sq_is v1 u1 (INR n + 2 * (7 - 4 * q - 1)) (7 - 4 * q) /\ sq_is v2 u2 (INR n + 2 * (7 + 4 * q - 1)) (7 + 4 * q).
Proof.
  intros H. unfold un_stroud_1969_points. cbv zeta. assert (B : 3 <= INR n) by (replace 3 with (INR 3) by (simpl; lra); apply le_INR; auto).
  rewrite rsqrt_ok by lra. assert (Q : sqrt 3 * sqrt 3 = 3) by (apply sqrt_sqrt; lra). assert (P := sqrt_pos 3). cbn [bind].
  set (q := sqrt 3) in *. clearbody q. destruct (q3_bounds q P Q) as [Q1 Q2].
  assert (E0 : INR n ^ 2 + 12 * INR n - 12 = (INR n + 6 - 4 * q) * (INR n + 6 + 4 * q)) by (ring_simplify; replace (q ^ 2) with 3 by (rewrite <- Q; ring); ring).
  assert (F0 : INR n ^ 2 + 24 * INR n - 48 = (INR n + 12 - 8 * q) * (INR n + 12 + 8 * q)) by (ring_simplify; replace (q ^ 2) with 3 by (rewrite <- Q; ring); ring).
  rewrite E0, F0. assert (0 < (INR n + 6 - 4 * q) * (INR n + 6 + 4 * q)) by (apply Rmult_lt_0_compat; lra).
  assert (0 < (INR n + 12 - 8 * q) * (INR n + 12 + 8 * q)) by (apply Rmult_lt_0_compat; lra).
  rewrite !rdiv_ok by lra. cbn [bind].
  replace ((INR n + 6 - 1 * 4 * q) / ((INR n + 6 - 4 * q) * (INR n + 6 + 4 * q))) with (1 / (INR n + 1 * (7 + 4 * q - 1))) by (field; lra).
  replace ((INR n + 6 - -1 * 4 * q) / ((INR n + 6 - 4 * q) * (INR n + 6 + 4 * q))) with (1 / (INR n + 1 * (7 - 4 * q - 1))) by (field; lra).
  replace ((INR n + 12 + 1 * 8 * q) / ((INR n + 12 - 8 * q) * (INR n + 12 + 8 * q))) with (1 / (INR n + 2 * (7 - 4 * q - 1))) by (field; lra).
  replace ((INR n + 12 + -1 * 8 * q) / ((INR n + 12 - 8 * q) * (INR n + 12 + 8 * q))) with (1 / (INR n + 2 * (7 + 4 * q - 1))) by (field; lra).
  replace ((7 * INR n - 6 + 1 * 4 * (INR n - 1) * q) / ((INR n + 6 - 4 * q) * (INR n + 6 + 4 * q))) with ((7 + 4 * q) / (INR n + 1 * (7 + 4 * q - 1))) by (q3_field Q; lra).
  replace ((7 * INR n - 6 + -1 * 4 * (INR n - 1) * q) / ((INR n + 6 - 4 * q) * (INR n + 6 + 4 * q))) with ((7 - 4 * q) / (INR n + 1 * (7 - 4 * q - 1))) by (q3_field Q; lra).
  replace ((7 * INR n - 12 - 1 * 4 * (INR n - 2) * q) / ((INR n + 12 - 8 * q) * (INR n + 12 + 8 * q))) with ((7 - 4 * q) / (INR n + 2 * (7 - 4 * q - 1))) by (q3_field Q; lra).
  replace ((7 * INR n - 12 - -1 * 4 * (INR n - 2) * q) / ((INR n + 12 - 8 * q) * (INR n + 12 + 8 * q))) with ((7 + 4 * q) / (INR n + 2 * (7 + 4 * q - 1))) by (q3_field Q; lra).
  assert (S : forall a b, 0 < a -> 0 < b -> 0 <= a / b) by (intros; apply Rlt_le, Rdiv_lt_0_compat; auto).
  rewrite !rsqrt_ok by (apply S; lra). cbn [bind].
  apply bind_fsd_full; [lia|]. apply bind_fsd_full; [lia|].
  set (t := sqrt (1 / INR n)). assert (Ht : t * t = 1 / INR n) by (apply sqrt_sqrt, S; lra).
  exists q, t, (sqrt ((7 + 4 * q) / (INR n + 1 * (7 + 4 * q - 1)))), (sqrt (1 / (INR n + 1 * (7 + 4 * q - 1)))),
    (sqrt ((7 - 4 * q) / (INR n + 1 * (7 - 4 * q - 1)))), (sqrt (1 / (INR n + 1 * (7 - 4 * q - 1)))),
    (sqrt ((7 - 4 * q) / (INR n + 2 * (7 - 4 * q - 1)))), (sqrt (1 / (INR n + 2 * (7 - 4 * q - 1)))),
    (sqrt ((7 + 4 * q) / (INR n + 2 * (7 + 4 * q - 1)))), (sqrt (1 / (INR n + 2 * (7 + 4 * q - 1)))).
  split.
  - rewrite Rpm_combine by (apply (sq_pos_nz t (1 / INR n)); auto; apply Rdiv_lt_0_compat; lra). unfold upts.
    destruct (4 <=? n)%nat eqn:E4; destruct (5 <=? n)%nat eqn:E5; cbn [bind]; repeat (apply bind_fsd_full2; [lia|]; cbn [bind]); reflexivity.
  - split; [auto|]. split; [auto|]. split; [auto|]. unfold sq_is. repeat split; apply sqrt_sqrt, S; lra.
Qed.

(* ------------------------------------------------ assembling the scheme *)
Lemma scheme_of_groups n vol (gs : list (R * list (R * nat))) : vol <> 0 ->
  (let '(points, weights) := untangle (List.combine (map (fun g => fst g * vol) gs) (map (fun g => opts (snd g)) gs)) in
   let! _ := rdiv 1 vol in
   Some (mk_scheme n (mk_rule (points, map (fun x => x / vol) weights)) 11)) =
  Some (mk_scheme n (sym_rule (map pg gs)) 11).
Proof.
  intros Hv. assert (E : List.combine (map (fun g => fst g * vol) gs) (map (fun g => opts (snd g)) gs) =
    gdata (map (fun g => (fst g * vol, snd g)) (map pg gs))).
  { unfold gdata, pg, opts. induction gs as [|g gs IH]; [reflexivity|]. cbn [map List.combine fst snd]. rewrite IH. reflexivity. }
  rewrite E. assert (G := mk_rule_gdata (map (fun g => (fst g * vol, snd g)) (map pg gs))).
  destruct (untangle _) as [pts ws]. rewrite rdiv_ok by auto. cbn [bind]. do 2 f_equal. unfold Rdiv. rewrite mk_rule_scale, G, sym_rule_scale.
  rewrite !map_map. f_equal. apply map_ext. intros g. cbn [fst snd]. unfold pg. cbn [fst snd]. f_equal. field. auto.
Qed.
