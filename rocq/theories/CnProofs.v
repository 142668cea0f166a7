(** Exactness of the cube schemes, for every dimension. *)
From Coq Require Import Reals List Arith Lia Lra Permutation Bool.
From Verif Require Import Spec RsumLemmas CombModel CombProofs CombProofs2 Moments SymExact
  IntegralSpec IntegralProofs PyBase SymmModel SymmProofs MiscModel CnModel SchemeTools CnTools.
Import ListNotations.
Open Scope R_scope.

(* ------------------------------------------------------- expand_symmetries data as groups *)
Definition key_group (n : nat) (k : key) (w a : R) : option group :=
  match k with
  | K0 => Some (w, [([0], n)])
  | Ka => Some (w, [([a; - a], n)])
  | Ka0 => Some (w, [([a; - a], 1%nat); ([0], (n - 1)%nat)])
  | _ => None
  end.

Definition kdata := list (key * R * R).
Definition kd (d : kdata) : list (key * (list R * list (list R))) :=
  map (fun e => (fst (fst e), ([snd (fst e)], match fst (fst e) with K0 => [] | _ => [[snd e]] end))) d.
Fixpoint kgroups (n : nat) (d : kdata) : list group :=
  match d with
  | [] => []
  | (k, w, a) :: d' => match key_group n k w a with Some g => g :: kgroups n d' | None => kgroups n d' end
  end.

Lemma from_symm_rule n d deg s : (1 <= n)%nat ->
  Forall (fun e => In (fst (fst e)) [K0; Ka; Ka0]) d ->
  from_symm n (kd d) deg = Some s ->
  s_rule s = sym_rule (kgroups n d) /\ s_degree s = deg /\ s_dim s = n.
Proof.
  intros Hn Hf H. unfold from_symm in H. inv_opt. subst s. cbn [s_rule s_degree s_dim].
  split; [|auto]. rewrite (expand_rule_single _ _ _ E).
  - unfold sym_rule. clear E. induction d as [|[[k w] a] d IH]; auto.
    inversion Hf as [|? ? Hk Hf']; subst. cbn [kd map fst snd flat_map kgroups].
    fold (kd d). rewrite IH by auto. cbn in Hk. destruct Hk as [<-|[<-|[<-|[]]]]; cbn [hd key_group flat_map fst snd].
    + rewrite key_cols_K0. cbn [hd]. rewrite orbit_K0. auto.
    + rewrite key_cols_Ka. cbn [hd]. rewrite orbit_Ka. auto.
    + rewrite key_cols_Ka0. cbn [hd]. rewrite orbit_Ka0 by auto. auto.
  - clear E. induction Hf as [|[[k w] a] d Hk Hf IH]; cbn; constructor; auto.
    cbn in *. destruct Hk as [<-|[<-|[<-|[]]]]; exists w; eexists; split; reflexivity.
Qed.

Lemma from_symm_Some n d deg :
  Forall (fun e => In (fst (fst e)) [K0; Ka; Ka0]) d ->
  exists s, from_symm n (kd d) deg = Some s.
Proof.
  intros Hf. unfold from_symm, expand_symmetries.
  destruct (proj2 (gen_expand_Some (fun k => key_cols k n) (fun k => orbit k n) (kd d))) as [pw Hpw].
  - induction Hf as [|[[k w] a] d Hk Hf IH]; cbn; constructor; auto.
    cbn in *. destruct Hk as [<-|[<-|[<-|[]]]]; discriminate.
  - rewrite Hpw. eexists. reflexivity.
Qed.

(** A constructor call succeeds and yields a scheme in dimension n, of declared degree d, exact to degree d
    for the mean over the cube. *)
Definition cube_scheme (n d : nat) (r : option scheme) : Prop :=
  exists s, r = Some s /\ s_dim s = n /\ s_degree s = d /\ exact n d (cubeI n) (s_rule s).

Ltac forall_keys := repeat constructor; cbn; tauto.

Lemma from_symm_cube n d deg : (1 <= n)%nat ->
  Forall (fun e => In (fst (fst e)) [K0; Ka; Ka0]) d ->
  exact n deg (cubeI n) (sym_rule (kgroups n d)) ->
  cube_scheme n deg (from_symm n (kd d) deg).
Proof.
  intros Hn Hf He. destruct (from_symm_Some n d deg Hf) as [s Hs]. exists s. split; auto.
  destruct (from_symm_rule n d deg s Hn Hf Hs) as [E [E2 E3]]. rewrite E. auto.
Qed.

Ltac cube_even := apply cube_exact_even; [ok_groups|even_groups|];
  let l := fresh "l" in let Hl := fresh "Hl" in let Hn := fresh "Hn" in
  intros l Hl Hn; split_parts Hl.
Ltac side := repeat split; try assumption; try lra.
Ltac cube_pre n := match goal with Hn : (length _ <= n)%nat |- _ => moment_lhs n Hn end; cube_rhs.

Theorem ewing_exact n : (1 <= n)%nat -> cube_scheme n 3 (ewing n).
Proof.
  intros H. unfold ewing. apply (from_symm_cube n [(K0, 2/3, 0); (Ka, 1 / (3 * 2 ^ n), 1)]); auto.
  - forall_keys.
  - cbn [kgroups key_group]. cube_even. all: cube_pre n; prep n; intros; field; side.
Qed.

Theorem tyler_exact n : (1 <= n)%nat -> cube_scheme n 3 (tyler n).
Proof.
  intros H. unfold tyler. apply (from_symm_cube n [(K0, (3 - INR n) / 3, 0); (Ka0, 1 / 6, 1)]); auto.
  - forall_keys.
  - cbn [kgroups key_group]. cube_even. all: cube_pre n; prep n; intros; field; side.
Qed.
Lemma from_data_cube n gs d :
  exact n d (cubeI n) (sym_rule gs) -> cube_scheme n d (Some (from_data n (gdata gs) d)).
Proof.
  intros H. eexists. split; [reflexivity|]. cbn [s_dim s_degree s_rule from_data].
  rewrite mk_rule_gdata. auto.
Qed.
Ltac inr_pos n := let N1 := fresh "N1" in
  match goal with
  | _ : (5 <= n)%nat |- _ => assert (N1 : 5 <= INR n) by (replace 5 with (INR 5) by (simpl; lra); apply le_INR; lia)
  | _ : (4 <= n)%nat |- _ => assert (N1 : 4 <= INR n) by (replace 4 with (INR 4) by (simpl; lra); apply le_INR; lia)
  | _ : (3 <= n)%nat |- _ => assert (N1 : 3 <= INR n) by (replace 3 with (INR 3) by (simpl; lra); apply le_INR; lia)
  | _ : (2 <= n)%nat |- _ => assert (N1 : 2 <= INR n) by (replace 2 with (INR 2) by (simpl; lra); apply le_INR; lia)
  | _ => assert (N1 : 1 <= INR n) by (replace 1 with (INR 1) by (simpl; lra); apply le_INR; lia)
  end.
Ltac fsd_step := apply bind_fsd; [cbn; lia|]; cbn [map fst snd list_sum fold_right app Nat.add].

Theorem hammer_stroud_1n_exact n : (1 <= n)%nat -> cube_scheme n 3 (hammer_stroud_1n n).
Proof.
  intros H. unfold hammer_stroud_1n. inr_pos n.
  apply bind_div; [lra|]. intros w Hw. apply bind_sqrt; [lra|]. intros r Pr Qr.
  apply (from_symm_cube n [(Ka0, w, r)]); auto.
  - forall_keys.
  - cbn [kgroups key_group]. subst w. cube_even. all: cube_pre n; rewrite ?Qr; prep n; intros; field; side.
Qed.

Theorem hammer_stroud_2n_exact n : (2 <= n)%nat -> cube_scheme n 5 (hammer_stroud_2n n).
Proof.
  intros H. unfold hammer_stroud_2n. cbv zeta.
  apply bind_sqrt; [lra|]. intros r Pr Qr. fsd_step. fsd_step. rewrite Rz_combine.
  apply (from_data_cube n
    [((25 * INR n ^ 2 - 115 * INR n + 162) / 162, [([0], n)]);
     ((70 - 25 * INR n) / 162, [([r; - r], 1%nat); ([0], (n - 1)%nat)]);
     (25 / 324, [([r; - r], 2%nat); ([0], (n - 2)%nat)])]).
  cube_even. all: cube_pre n; rewrite ?Qr; prep n; intros; field; side.
Qed.

Theorem mustard_lyness_blatt_exact n : (1 <= n)%nat -> cube_scheme n 5 (mustard_lyness_blatt n).
Proof.
  intros H. unfold mustard_lyness_blatt. apply bind_sqrt; [lra|]. intros r Pr Qr.
  apply (from_symm_cube n [(K0, (8 - 5 * INR n) / 9, 0); (Ka0, 5/18, r); (Ka, 1 / (9 * 2 ^ n), 1)]); auto.
  - forall_keys.
  - cbn [kgroups key_group]. cube_even. all: cube_pre n; rewrite ?Qr; prep n; intros; field; side.
Qed.

Theorem stroud_1966_a_exact n : (1 <= n)%nat -> cube_scheme n 5 (stroud_1966_a n).
Proof.
  intros H. unfold stroud_1966_a. cbv zeta. inr_pos n.
  apply bind_sqrt; [lra|]. intros r Pr Qr. apply bind_div; [lra|]. intros s2 Hs.
  apply bind_sqrt; [subst; apply Rlt_le, Rdiv_lt_0_compat; lra|]. intros s Ps Qs.
  apply (from_symm_cube n [(Ka0, 40 / (5 * INR n + 4) ^ 2, r);
    (Ka, ((5 * INR n - 4) / (5 * INR n + 4)) ^ 2 / 2 ^ n, s)]); auto.
  - forall_keys.
  - cbn [kgroups key_group]. cube_even. all: cube_pre n; rewrite ?Qr, ?Qs, ?Hs; clear Hs Qr Qs; prep n; intros; field; side.
Qed.

Theorem cools_haegemans_1_exact n delta2 : (1 <= n)%nat -> 1/3 <= delta2 -> cube_scheme n 3 (cools_haegemans_1 n delta2).
Proof.
  intros H Hd. unfold cools_haegemans_1. destruct (Rle_dec (1 / 3) delta2); [|tauto].
  assert (P2 := pow2_nz n). assert (0 < 2 ^ n) by (apply pow_lt; lra).
  apply bind_div; [lra|]. intros w0 Hw0. apply bind_div; [apply Rmult_integral_contrapositive; split; lra|]. intros w Hw.
  apply bind_sqrt; [lra|]. intros s Ps Qs.
  apply (from_symm_cube n [(K0, w0, 0); (Ka, w, s)]); auto.
  - forall_keys.
  - cbn [kgroups key_group]. subst w0 w. cube_even. all: cube_pre n; rewrite ?Qs; clear Qs; prep n; intros; field; side.
Qed.

Theorem cools_haegemans_1_None n delta2 : delta2 < 1/3 -> cools_haegemans_1 n delta2 = None.
Proof. intros H. unfold cools_haegemans_1. destruct (Rle_dec (1 / 3) delta2); [lra|auto]. Qed.

(** What cools_haegemans_2 returns: the 0-orbit, the +-lambda axis points and the +-delta corners. *)
Lemma cools_haegemans_2_run n delta2 : (1 <= n)%nat -> 1/3 < delta2 ->
  exists s r t, cools_haegemans_2 n delta2 = Some s /\ s_dim s = n /\ s_degree s = 5%nat /\
    r * r = 4 * delta2 / (5 * (3 * delta2 - 1)) /\ t * t = delta2 /\
    s_rule s = sym_rule
      [(- (15 * delta2 * INR n - 12 * delta2 - 5 * INR n - 4) * (3 * delta2 - 1) / (36 * delta2 ^ 2), [([0], n)]);
       (5 * (3 * delta2 - 1) ^ 2 / (72 * delta2), [([r; - r], 1%nat); ([0], (n - 1)%nat)]);
       ((1 / 3) ^ 2 / (2 ^ n * delta2 ^ 2), [([t; - t], n)])].
Proof.
  intros H Hd. unfold cools_haegemans_2, ch_gener1, ch_mu. cbv zeta. cbn [Nat.even Nat.add]. inr_lits.
  assert (P2 := pow2_nz n).
  assert (delta2 ^ 2 <> 0) by (apply pow_nonzero; lra).
  assert (Hl : forall c, c = ((1 / 3) ^ 2 / (1 / 1) ^ 1 * 1) / delta2 -> 1 * (1 / 3) - c = (3 * delta2 - 1) / (9 * delta2))
    by (intros c ->; field; lra).
  rewrite rdiv_ok by lra. cbn [bind]. rewrite rdiv_ok.
  2: { rewrite (Hl _ eq_refl). intros E. assert (0 < (3 * delta2 - 1) / (9 * delta2)) by (apply Rdiv_lt_0_compat; lra). lra. }
  rewrite (Hl _ eq_refl). cbn [bind].
  rewrite rdiv_ok by lra. cbn [bind]. rewrite rdiv_ok by lra. cbn [bind].
  rewrite rdiv_ok by (apply Rmult_integral_contrapositive; split; auto). cbn [bind].
  set (l2 := _ / ((3 * delta2 - 1) / (9 * delta2))).
  assert (El : l2 = 4 * delta2 / (5 * (3 * delta2 - 1))) by (unfold l2; field; lra).
  assert (Hpos : 0 <= l2) by (rewrite El; apply Rlt_le, Rdiv_lt_0_compat; lra).
  rewrite rsqrt_ok by auto. cbn [bind]. rewrite rsqrt_ok by lra. cbn [bind].
  match goal with |- exists s _ _, ?c = Some s /\ _ => 
    change c with (from_symm n (kd [(K0, - (15 * delta2 * INR n - 12 * delta2 - 5 * INR n - 4) * (3 * delta2 - 1) / (36 * delta2 ^ 2), 0);
     (Ka0, 5 * (3 * delta2 - 1) ^ 2 / (72 * delta2), sqrt l2);
     (Ka, (1 / 3) ^ 2 / (2 ^ n * delta2 ^ 2), sqrt delta2)]) 5) end.
  match goal with |- exists s _ _, from_symm n (kd ?d) 5 = _ /\ _ =>
    assert (Hf : Forall (fun e => In (fst (fst e)) [K0; Ka; Ka0]) d) by forall_keys;
    destruct (from_symm_Some n d 5 Hf) as [s Hs]; destruct (from_symm_rule n d 5 s H Hf Hs) as [E1 [E2 E3]] end.
  exists s, (sqrt l2), (sqrt delta2). rewrite E1, E2, E3. rewrite !sqrt_sqrt by lra. repeat split; auto.
Qed.

Theorem cools_haegemans_2_exact n : (1 <= n)%nat -> cube_scheme n 5 (cools_haegemans_2 n 1).
Proof.
  intros H. destruct (cools_haegemans_2_run n 1 H) as [s [r [t [E1 [E2 [E3 [Qr [Qt E4]]]]]]]]; [lra|].
  exists s. repeat split; auto; rewrite E4.
  all: revert E4; match goal with |- _ -> ?G => intros _; enough (X : exact n 5 (cubeI n) (sym_rule
     [(- (15 * 1 * INR n - 12 * 1 - 5 * INR n - 4) * (3 * 1 - 1) / (36 * 1 ^ 2), [([0], n)]);
       (5 * (3 * 1 - 1) ^ 2 / (72 * 1), [([r; - r], 1%nat); ([0], (n - 1)%nat)]);
       ((1 / 3) ^ 2 / (2 ^ n * 1 ^ 2), [([t; - t], n)])])) by apply X end.
  all: cube_even; cube_pre n; rewrite ?Qr, ?Qt; clear Qr Qt; prep n; intros; field; side.
Qed.

(** For every other admissible delta2 the weights do not even sum to 1. *)
Theorem cools_haegemans_2_weights n delta2 : (1 <= n)%nat -> 1/3 < delta2 -> delta2 <> 1 ->
  exists s, cools_haegemans_2 n delta2 = Some s /\ s_degree s = 5%nat /\
    apply (s_rule s) (fun _ => 1) <> 1.
Proof.
  intros H Hd H1. destruct (cools_haegemans_2_run n delta2 H Hd) as [s [r [t [E1 [E2 [E3 [Qr [Qt E4]]]]]]]].
  exists s. repeat split; auto. rewrite E4, apply_sym_rule. cbn [map fst snd Rsum].
  assert (C : forall w e, Rsum (map (fun _ => 1) (combine e)) = gnum (w, e)).
  { intros w e. unfold gnum. cbn [snd]. generalize (combine e). intros l. induction l; cbn [map Rsum length]; auto.
    rewrite S_INR, IHl. ring. }
  rewrite !(C 0), gnum_z, gnum_pm, gnum_1 by lia. cbn [length]. inr_lits. rewrite pow1.
  inr_pos n. assert (P2 := pow2_nz n). intros E.
  assert (F : 5 * INR n * (3 * delta2 - 1) ^ 2 * (delta2 - 1) / (36 * delta2 ^ 2) = 0).
  { match type of E with ?a = 1 => replace (5 * INR n * (3 * delta2 - 1) ^ 2 * (delta2 - 1) / (36 * delta2 ^ 2)) with (a - 1) end.
    { rewrite E. ring. } field. repeat split; auto; lra. }
  assert (0 < 5 * INR n * (3 * delta2 - 1) ^ 2 / (36 * delta2 ^ 2)).
  { apply Rdiv_lt_0_compat. apply Rmult_lt_0_compat; [lra|apply pow_lt; lra]. apply Rmult_lt_0_compat; [lra|apply pow_lt; lra]. }
  replace (5 * INR n * (3 * delta2 - 1) ^ 2 * (delta2 - 1) / (36 * delta2 ^ 2)) with
    (5 * INR n * (3 * delta2 - 1) ^ 2 / (36 * delta2 ^ 2) * (delta2 - 1)) in F by (field; lra).
  apply Rmult_integral in F. lra.
Qed.

Theorem stroud_cn_1_1_exact n : (1 <= n)%nat -> cube_scheme n 1 (Some (stroud_cn_1_1 n)).
Proof.
  intros H. replace (stroud_cn_1_1 n) with (from_data n (gdata [(1, [([0], n)])]) 1).
  { apply from_data_cube. cube_even. all: cube_pre n; prep n; intros; field; side. }
  unfold stroud_cn_1_1, from_data, gdata. cbn [map fst snd]. rewrite <- Rz_combine. reflexivity.
Qed.

(** All points with one weight. *)
Lemma uniform_rule w pts m : length pts = m -> mk_rule (pts, repeat w m) = map (fun p => (w, p)) pts.
Proof.
  intros <-. unfold mk_rule. cbn [fst snd]. induction pts; cbn; auto. f_equal; auto.
Qed.
Lemma uniform_cube n d w e m : INR (length (combine e)) = INR m ->
  exact n d (cubeI n) (sym_rule [(w, e)]) ->
  cube_scheme n d (Some (mk_scheme n (mk_rule (combine e, repeat w m)) d)).
Proof.
  intros Hm He. apply INR_eq in Hm. eexists. split; [reflexivity|]. cbn [s_dim s_degree s_rule].
  rewrite uniform_rule by auto. unfold sym_rule in He. cbn [flat_map fst snd] in He. rewrite app_nil_r in He. auto.
Qed.

Theorem stroud_cn_1_2_exact n : (1 <= n)%nat -> cube_scheme n 1 (Some (stroud_cn_1_2 n)).
Proof.
  intros H. unfold stroud_cn_1_2. rewrite Rpm_combine by lra. apply uniform_cube.
  { rewrite pow_INR. apply (gnum_pm 0 n 1). }
  cube_even. all: cube_pre n; prep n; intros; field; side.
Qed.

Theorem stroud_cn_3_2_exact n : (1 <= n)%nat -> cube_scheme n 3 (stroud_cn_3_2 n).
Proof.
  intros H. unfold stroud_cn_3_2. inr_pos n. apply bind_div; [lra|]. intros w Hw.
  apply bind_sqrt; [lra|]. intros r Pr Qr. fsd_step. apply uniform_cube.
  { change (INR (length (combine ?e))) with (gnum (0, e)). rewrite gnum_1 by lia. rewrite mult_INR.
    cbn [length]. inr_lits. rewrite pow1. ring. }
  subst w. cube_even. all: cube_pre n; rewrite ?Qr; prep n; intros; field; side.
Qed.

Theorem stroud_cn_3_4_exact n : (1 <= n)%nat -> cube_scheme n 3 (stroud_cn_3_4 n).
Proof.
  intros H. unfold stroud_cn_3_4. apply bind_sqrt; [lra|]. intros s3 P3 Q3.
  rewrite Rpm_combine. 2: { intros E. nra. }
  apply uniform_cube.
  { rewrite pow_INR. apply (gnum_pm 0 n). }
  cube_even. all: cube_pre n; rewrite ?(eq_refl : s3 / 3 * (s3 / 3) = s3 / 3 * (s3 / 3)); prep n; intros.
  { field; side. }
  replace (s3 / 3 * (s3 / 3)) with (1/3) by (field_simplify; nra). field; side.
Qed.

(* ------------------------------------------------------- one distinguished coordinate *)
Lemma fs11_combine n r s : (1 <= n)%nat -> _fs11 n r s = combine [([r; - r], 1%nat); ([s; - s], (n - 1)%nat)].
Proof.
  intros H. rewrite combine_one. unfold _fs11. replace (S (n - 1)) with n by lia.
  rewrite !flat_map_concat_map. f_equal. apply map_ext_in. intros i Hi. apply in_seq in Hi.
  rewrite map_seq_pick by lia. f_equal. f_equal. f_equal. f_equal. lia.
Qed.
Lemma s_combine n a b : (1 <= n)%nat -> _s n a b = combine [([a], 1%nat); ([b], (n - 1)%nat)].
Proof.
  intros H. rewrite combine_one. unfold _s. replace (S (n - 1)) with n by lia.
  rewrite flat_map_concat_map.
  transitivity (concat (map (fun p => [p]) (map (fun i => map (fun j => if (i =? j)%nat then a else b) (seq 0 n)) (seq 0 n)))).
  { generalize (map (fun i => map (fun j => if (i =? j)%nat then a else b) (seq 0 n)) (seq 0 n)).
    intros l. induction l; cbn; auto. f_equal. auto. }
  rewrite map_map. f_equal. apply map_ext_in. intros i Hi. apply in_seq in Hi.
  rewrite (map_ext _ (fun j => if (j =? i)%nat then a else b)) by (intros j; rewrite Nat.eqb_sym; auto).
  rewrite map_seq_pick by lia.
  replace (repeat [b] i ++ [[a]] ++ repeat [b] (n - 1 - i)) with (map (fun v => [v]) (repeat b i ++ [a] ++ repeat b (n - 1 - i))).
  2: { rewrite !map_app, !map_rep. auto. }
  rewrite product_singletons. f_equal. f_equal. f_equal. f_equal. lia.
Qed.
Lemma repeat_combine n (v : R) : [repeat v n] = combine [([v], n)].
Proof. rewrite combine_single, product_single. auto. Qed.
Lemma pow2_pred n : (1 <= n)%nat -> 2 ^ (n - 1) = 2 ^ n / 2.
Proof. intros H. replace n with (S (n - 1)) at 2 by lia. simpl. field. Qed.

Theorem stroud_1966_c_exact n : (1 <= n)%nat -> cube_scheme n 5 (stroud_1966_c n).
Proof.
  intros H. unfold stroud_1966_c. cbv zeta. inr_pos n.
  apply bind_sqrt; [lra|]. intros q Pq Qq.
  assert (3 <= q) by nra.
  apply bind_div; [lra|]. intros r2 Hr. apply bind_sqrt.
  { subst. apply Rmult_le_pos; [nra|]. apply Rlt_le, Rinv_0_lt_compat. lra. }
  intros r Pr Qr. apply bind_div; [lra|]. intros s2 Hs. apply bind_sqrt.
  { subst. apply Rmult_le_pos; [nra|]. apply Rlt_le, Rinv_0_lt_compat. lra. }
  intros s Ps Qs. rewrite fs11_combine by auto. rewrite Rz_combine.
  apply (from_data_cube n [(4 / (5 * INR n + 4), [([0], n)]);
    (5 / ((5 * INR n + 4) * 2 ^ n), [([r; - r], 1%nat); ([s; - s], (n - 1)%nat)])]).
  assert (Eq : INR n = (q * q - 4) / 5) by lra.
  cube_even. all: cube_pre n; rewrite ?Qr, ?Qs, ?Hr, ?Hs; clear Hs Hr Qr Qs.
  all: inr_lits; rewrite ?pow1, ?pow2_pred by lia; nz_facts n; generalize dependent (INR n); intros N; intros; subst N.
  all: field; side; try (intros ?; nra).
Qed.

Theorem stroud_1966_d_exact n : (3 <= n)%nat -> cube_scheme n 5 (stroud_1966_d n).
Proof.
  intros H. unfold stroud_1966_d. cbv zeta. inr_pos n.
  apply bind_sqrt; [lra|]. intros s5 P5 Q5. assert (2 < s5 < 9/4) by nra.
  apply bind_sqrt; [lra|]. intros q Pq Qq. assert (4 < q) by nra.
  assert (B : 0 <= 5 * INR n - 2 * s5 - 2 * q).
  { assert (5 * INR n = q * q - 5) by lra. nra. }
  apply bind_div; [lra|]. intros r2 Hr. apply bind_sqrt.
  { subst. apply Rmult_le_pos; [nra|]. apply Rlt_le, Rinv_0_lt_compat. lra. }
  intros r Pr Qr. apply bind_div; [lra|]. intros s2 Hs. apply bind_sqrt.
  { subst. apply Rmult_le_pos; [nra|]. apply Rlt_le, Rinv_0_lt_compat. lra. }
  intros s Ps Qs. apply bind_sqrt; [lra|]. intros t Pt Qt.
  rewrite fs11_combine by lia. rewrite Rpm_combine by (intros ->; nra).
  apply (from_data_cube n [(1 / (2 ^ n * (INR n + 1)), [([r; - r], 1%nat); ([s; - s], (n - 1)%nat)]);
    (1 / (2 ^ n * (INR n + 1)), [([t; - t], n)])]).
  assert (Eq : INR n = (q * q - 5) / 5) by lra.
  assert (E5 : s5 ^ 2 = 5) by (simpl; lra). 
  cube_even. all: cube_pre n; rewrite ?Qr, ?Qs, ?Qt, ?Hr, ?Hs; clear Hs Hr Qr Qs.
  all: inr_lits; rewrite ?pow1, ?pow2_pred by lia; nz_facts n; generalize dependent (INR n); intros N; intros; subst N.
  all: field_simplify_eq; [|side; try (intros ?; nra)].
  all: repeat (replace (s5 ^ 4) with 25 by nra); repeat (replace (s5 ^ 3) with (5 * s5) by nra); rewrite ?E5; ring.
Qed.

Theorem stroud_1966_d_None n : (1 <= n <= 2)%nat -> stroud_1966_d n = None.
Proof.
  intros H. unfold stroud_1966_d. cbv zeta.
  assert (N : 1 <= INR n <= 2).
  { split; [apply (le_INR 1); lia|]. replace 2 with (INR 2) by (simpl; lra). apply le_INR; lia. }
  apply bind_sqrt; [lra|]. intros s5 P5 Q5. assert (2 < s5 < 9/4) by nra.
  apply bind_sqrt; [lra|]. intros q Pq Qq. assert (3 < q) by nra.
  apply bind_div; [lra|]. intros r2 Hr.
  unfold rsqrt at 1. destruct (Rle_dec 0 r2); [|reflexivity]. cbn [bind].
  apply bind_div; [lra|]. intros s2 Hs. rewrite rsqrt_None; [reflexivity|].
  subst. apply Ropp_lt_cancel. rewrite Ropp_0. unfold Rdiv. rewrite Ropp_mult_distr_l.
  apply Rmult_lt_0_compat; [nra|]. apply Rinv_0_lt_compat. lra.
Qed.

Lemma cube_exact_gen n d gs :
  (forall g, In g gs -> ok_group n g) ->
  (forall l, In l (parts d) -> (length l <= n)%nat ->
     Rsum (map (fun g => fst g * (gnum g * gavg g (INR n) l)) gs) = cube_moment l) ->
  exact n d (cubeI n) (sym_rule gs).
Proof.
  intros H1 H3. apply sym_exact; auto.
  { apply cubeI_perm. }
  intros l m Hl Hn. rewrite cubeI_canon by auto. apply H3; auto. lia.
Qed.

Theorem thacher_exact n : (1 <= n)%nat -> cube_scheme n 2 (thacher n).
Proof.
  intros H. unfold thacher. cbv zeta. apply bind_sqrt; [lra|]. intros s3 P3 Q3.
  set (r := s3 / 6). assert (Q : r * r = 1/12) by (unfold r; lra).
  rewrite !s_combine by auto. rewrite repeat_combine.
  apply (from_data_cube n [(1, [([2 * r], n)]); (r, [([-1], 1%nat); ([r], (n - 1)%nat)]);
     (- r, [([1], 1%nat); ([r], (n - 1)%nat)])]).
  apply cube_exact_gen; [ok_groups|]. intros l Hl Hn. split_parts Hl.
  all: cube_pre n; rewrite ?gnum_single, ?mean_single; inr_lits; rewrite ?pow1; nz_facts n.
  all: cbn [length]; inr_lits; rewrite ?pow1.
  all: generalize dependent (INR n); intros N; intros; field_simplify_eq; side.
  all: repeat (replace (r ^ 3) with (r / 12) by (simpl; nra)); repeat (replace (r ^ 2) with (1/12) by (simpl; nra)); field; side.
Qed.
Theorem stroud_1957_2_exact n : (1 <= n)%nat -> cube_scheme n 2 (stroud_1957_2 n).
Proof. apply thacher_exact. Qed.

(** 1/sqrt p and its powers. *)
Lemma bind_isqrt {B} (P : option B -> Prop) p (f : R -> option B) :
  0 < p -> (forall l, 0 < l -> l * l = 1 / p -> P (f l)) ->
  P (let! s := rsqrt p in let! l := rdiv 1 s in f l).
Proof.
  intros Hp Hf. apply bind_sqrt; [lra|]. intros s Ps Qs. assert (0 < s) by nra.
  apply bind_div; [lra|]. intros l ->. apply Hf. { apply Rdiv_lt_0_compat; lra. }
  rewrite <- Qs. field. lra.
Qed.
Lemma sq_pow6 l p : 0 < p -> l * l = 1 / p -> l ^ 6 = 1 / p ^ 3.
Proof. intros Hp H. replace (l ^ 6) with ((l * l) ^ 3) by ring. rewrite H. field. lra. Qed.

Theorem phillips_exact n : (2 <= n)%nat -> cube_scheme n 7 (phillips n).
Proof.
  intros H. unfold phillips. cbv zeta.
  assert (HN : 2 <= INR n) by (replace 2 with (INR 2) by (simpl; lra); apply le_INR; lia).
  assert (Pp : exists p2 q r, phillips_params n = Some (p2, q, r) /\ 0 < p2 /\ p2 <> 1 /\ 0 < q /\ ((3 <= n)%nat -> 0 < r)
     /\ ((n = 2%nat /\ p2 = 14/3 /\ q = 5/3) \/ (n = 3%nat /\ p2 = 14/5 /\ q = 5/2 /\ r = 1) 
      \/ (n = 4%nat /\ p2 = 112/11 /\ q = 5 /\ r = 2)
      \/ ((5 <= n)%nat /\ p2 = 1 / (3/5 - 1 / (35 * ((25 * INR n ^ 2 - 165 * INR n + 302) / 972))) /\ q = 5/3 /\ r = 5/3))).
  { destruct n as [|[|[|[|[|n]]]]]; try lia.
    { exists (14/3), (5/3), 0. do 5 (split; [first [reflexivity|lra|intros; exfalso; lia]|]). left. repeat split; auto. }
    { exists (14/5), (5/2), 1. do 5 (split; [first [reflexivity|lra|intros; lra]|]). right; left. repeat split; auto. }
    { exists (112/11), 5, 2. do 5 (split; [first [reflexivity|lra|intros; lra]|]). right; right; left. repeat split; auto. }
    cbn [phillips_params]. set (N := INR (S (S (S (S (S n)))))) in *.
    assert (N5 : 5 <= N) by (unfold N; replace 5 with (INR 5) by (simpl; lra); apply le_INR; lia).
    assert (102 <= 25 * N ^ 2 - 165 * N + 302) by (simpl; nra).
    rewrite rdiv_ok by lra. cbn [bind].
    assert (X : 0 < 1 / (35 * ((25 * N ^ 2 - 165 * N + 302) / 972)) < 3/5).
    { split. { apply Rdiv_lt_0_compat; lra. } apply Rmult_lt_reg_r with (35 * ((25 * N ^ 2 - 165 * N + 302) / 972)); [lra|].
      unfold Rdiv at 1. rewrite Rmult_assoc, Rinv_l by lra. lra. }
    rewrite rdiv_ok by lra. cbn [bind].
    exists (1 / (3/5 - 1 / (35 * ((25 * N ^ 2 - 165 * N + 302) / 972)))), (5/3), (5/3). split; auto.
    set (e := 1 / (35 * ((25 * N ^ 2 - 165 * N + 302) / 972))) in *.
    split. { apply Rdiv_lt_0_compat; lra. }
    split. { intros E. apply (f_equal (fun x => x * (3/5 - e))) in E. unfold Rdiv at 1 in E. rewrite Rmult_assoc, Rinv_l in E by lra. lra. }
    split; [lra|]. split; [intros; lra|]. right; right; right. repeat split; auto. lia. }
  destruct Pp as [p2 [q [r [Epar [Hp [Hp1 [Hq [Hr Hcase]]]]]]]].
  rewrite Epar. cbn [bind].
  apply bind_div; [lra|]. intros beta1 Hb1. apply bind_div; [lra|]. intros beta2 Hb2.
  apply bind_isqrt; [lra|]. intros l1 P1 Q1. apply bind_isqrt; [lra|]. intros l2 P2 Q2.
  apply bind_isqrt; [lra|]. intros mu Pmu Qmu.
  assert (S1 := sq_pow6 l1 1 ltac:(lra) Q1). assert (S2 := sq_pow6 _ _ Hp Q2). assert (Smu := sq_pow6 _ _ Hq Qmu).
  assert (T1 : 0 < l1 ^ 6) by (apply pow_lt; auto). assert (T2 : 0 < l2 ^ 6) by (apply pow_lt; auto).
  assert (Tm : 0 < mu ^ 6) by (apply pow_lt; auto).
  assert (N1 : 0 < INR n - 1) by lra. assert (0 < (INR n - 1) * mu ^ 6) by (apply Rmult_lt_0_compat; auto).
  apply bind_div; [lra|]. intros b1 Eb1. apply bind_div; [lra|]. intros b2 Eb2. apply bind_div; [lra|]. intros c Ec.
  fsd_step. fsd_step. fsd_step. rewrite Rz_combine.
  rewrite S1 in Eb1. rewrite S2 in Eb2. rewrite Smu in Ec. clear S1 S2 Smu.
  destruct (Nat.ltb_spec 2 n) as [Hn3|Hn3].
  2: { assert (n = 2%nat) by lia. destruct Hcase as [[_ [-> ->]]|Hc]; [|exfalso; lia].
    apply (from_data_cube n [(1 - 2 * INR n * (b1 + b2) - 4 * INR (comb n 2) * c, [([0], n)]);
     (b1, [([l1; - l1], 1%nat); ([0], (n - 1)%nat)]);
     (b2, [([l2; - l2], 1%nat); ([0], (n - 1)%nat)]);
     (c, [([mu; - mu], 2%nat); ([0], (n - 2)%nat)])]).
    subst beta1 beta2. 
    cube_even. all: cube_pre n; try (exfalso; lia).
    all: rewrite ?Q1, ?Q2, ?Qmu, ?Eb1, ?Eb2, ?Ec; subst n; rewrite ?INR_comb; cbn [ffR fact Nat.mul Nat.add]; inr_lits; rewrite ?pow1. 
    all: field; side. }
  assert (Hr0 : 0 < r) by (apply Hr; lia).
  apply bind_isqrt; [lra|]. intros nu Pnu Qnu. assert (Snu := sq_pow6 _ _ Hr0 Qnu).
  assert (Tn : 0 < nu ^ 6) by (apply pow_lt; auto).
  assert (N3 : 3 <= INR n) by (replace 3 with (INR 3) by (simpl; lra); apply le_INR; lia).
  assert (Ec2 : INR (comb (n - 1) 2) = (INR n - 1) * (INR n - 2) / 2).
  { rewrite INR_comb. cbn [ffR fact Nat.mul Nat.add]. inr_lits. rewrite minus_INR by lia. simpl (INR 1). field. }
  assert (0 < INR (comb (n - 1) 2)) by (rewrite Ec2; nra).
  apply bind_div. { apply Rgt_not_eq, Rmult_gt_0_compat; lra. }
  intros d Ed. rewrite Snu, Ec2 in Ed. fsd_step.
    apply (from_data_cube n [(1 - 2 * INR n * (b1 + b2) - 4 * INR (comb n 2) * c - 8 * INR (comb n 3) * d, [([0], n)]);
     (b1, [([l1; - l1], 1%nat); ([0], (n - 1)%nat)]);
     (b2, [([l2; - l2], 1%nat); ([0], (n - 1)%nat)]);
     (c, [([mu; - mu], 2%nat); ([0], (n - 2)%nat)]);
     (d, [([nu; - nu], 3%nat); ([0], (n - 3)%nat)])]).
  subst beta1 beta2.
  destruct Hcase as [[Hc _]|[[Hc [-> [-> ->]]]|[[Hc [-> [-> ->]]]|[Hc [Ep [-> ->]]]]]]; [exfalso; lia| | |].
  { cube_even. all: cube_pre n.
    all: rewrite ?Q1, ?Q2, ?Qmu, ?Qnu, ?Eb1, ?Eb2, ?Ec, ?Ed; subst n; rewrite ?INR_comb; cbn [ffR fact Nat.mul Nat.add]; inr_lits; rewrite ?pow1. 
    all: field; side. }
  { cube_even. all: cube_pre n.
    all: rewrite ?Q1, ?Q2, ?Qmu, ?Qnu, ?Eb1, ?Eb2, ?Ec, ?Ed; subst n; rewrite ?INR_comb; cbn [ffR fact Nat.mul Nat.add]; inr_lits; rewrite ?pow1. 
    all: field; side. }
  assert (N5 : 5 <= INR n) by (replace 5 with (INR 5) by (simpl; lra); apply le_INR; lia).
  assert (102 <= 25 * INR n ^ 2 - 165 * INR n + 302) by (simpl; nra).
  assert (Np : 25 * INR n ^ 2 - 165 * INR n + 302 <> 0) by lra.
  assert (Ep' : p2 = 35 * (25 * INR n ^ 2 - 165 * INR n + 302) / (21 * (25 * INR n ^ 2 - 165 * INR n + 302) - 972)).
  { rewrite Ep. field. split; lra. }
  clear Ep Epar.
  assert (Nq : 21 * (25 * INR n ^ 2 - 165 * INR n + 302) - 972 <> 0) by lra.
  assert (Nr : 14 * (25 * INR n ^ 2 - 165 * INR n + 302) + 972 <> 0) by lra.
  assert (1 - p2 <> 0) by lra. assert (p2 - 1 <> 0) by lra. assert (p2 <> 0) by lra.
  { cube_even. all: cube_pre n.
    all: rewrite ?Q1, ?Q2, ?Qmu, ?Qnu, ?Eb1, ?Eb2, ?Ec, ?Ed; rewrite ?INR_comb; cbn [ffR fact Nat.mul Nat.add]; inr_lits; rewrite ?pow1. 
   all: clear Q1 Q2 Qmu Qnu Eb1 Eb2 Ec Ed P1 P2 Pmu T1 T2 Tm Pnu Tn Hn.
   all: generalize dependent (INR n); intros N; intros.
   all: try ((field; side)). 
   all: (subst p2;  (field; side)).
 }
Qed.

Lemma mk_rule_scale pts ws t :
  mk_rule (pts, map (fun w => w * t) ws) = map (fun wp => (fst wp * t, snd wp)) (mk_rule (pts, ws)).
Proof.
  unfold mk_rule. cbn [fst snd]. revert pts. induction ws as [|w ws IH]; intros [|p pts]; cbn; auto. f_equal. auto.
Qed.
Lemma sym_rule_scale gs t :
  map (fun wp => (fst wp * t, snd wp)) (sym_rule gs) = sym_rule (map (fun g => (fst g * t, snd g)) gs).
Proof.
  unfold sym_rule. rewrite flat_map_concat_map, concat_map, map_map, flat_map_concat_map, map_map.
  f_equal. apply map_ext. intros g. rewrite map_map. reflexivity.
Qed.

Theorem dobrodeev_1970_exact n : (5 <= n)%nat -> cube_scheme n 7 (dobrodeev_1970 n).
Proof.
  intros H. unfold dobrodeev_1970. cbv zeta. inr_pos n.
  apply bind_guard. { apply Nat.leb_le. lia. }
  set (al := 35 * INR n * (5 * INR n - 33)).
  assert (Hal : -1400 <= al) by (unfold al; nra).
  assert (Nz1 : 700 * (al + 1790) * (al + 2600) <> 0) by (apply Rgt_not_eq, Rmult_gt_0_compat; lra).
  apply bind_div; [auto|]. intros C HC.
  apply bind_div; [lra|]. intros D HD.
  apply bind_sqrt; [lra|]. intros a Pa Qa.
  apply bind_div; [lra|]. intros c2 Hc2.
  apply bind_sqrt. { subst c2. apply Rmult_le_pos; [lra|]. apply Rlt_le, Rdiv_lt_0_compat; lra. }
  intros c Pc Qc. fsd_step. fsd_step. fsd_step. fsd_step. rewrite Rz_combine.
  set (E := INR n * (INR n - 1) * (INR n - 47 / 10) / 3 - 2 * INR n * (C + 729 / 1750 * D) + 729 / 125).
  match goal with |- context [untangle ?d] => change d with (gdata
     [(1/8, [([a; - a], 3%nat); ([0], (n - 3)%nat)]);
      ((19 - 5 * INR n) / 20, [([a; - a], 2%nat); ([0], (n - 2)%nat)]);
      (C, [([c; - c], 1%nat); ([0], (n - 1)%nat)]);
      (729 / 1750 * D, [([1; - 1], 1%nat); ([0], (n - 1)%nat)]);
      (E, [([0], n)])]) end.
  match goal with |- context [gdata ?g] => assert (G := mk_rule_gdata g); set (gs := g) in * end.
  destruct (untangle (gdata gs)) as [pts ws]. eexists. split; [reflexivity|]. cbn [s_dim s_degree s_rule].
  split; auto. split; auto. rewrite mk_rule_scale, G, sym_rule_scale. unfold gs. cbn [map fst snd].
  unfold E. subst C D. clear E G gs pts ws.
  cube_even. all: cube_pre n; rewrite ?Qa, ?Qc, ?Hc2; clear Qc Hc2 Qa.
  all: assert (al + 1790 <> 0) by lra; assert (al + 2114 <> 0) by lra; assert (al + 2600 <> 0) by lra.
  all: unfold al in *; prep n; intros; field; side.
Qed.

Theorem dobrodeev_1970_None n : (n <= 4)%nat -> dobrodeev_1970 n = None.
Proof.
  intros H. unfold dobrodeev_1970. destruct (Nat.leb_spec 3 n) as [H3|]; [|reflexivity]. cbn [guard]. cbv zeta.
  assert (N : INR n = 3 \/ INR n = 4).
  { assert (E : n = 3%nat \/ n = 4%nat) by lia. destruct E; subst n; [left|right]; simpl; lra. }
  set (al := 35 * INR n * (5 * INR n - 33)).
  assert (Hal : -1890 <= al <= - 1820).
  { unfold al. destruct N as [-> | ->]; lra. }
  apply bind_div; [intros E; apply Rmult_integral in E; destruct E; [|lra]; lra|]. intros C HC.
  apply bind_div; [lra|]. intros D HD.
  apply bind_sqrt; [lra|]. intros a Pa Qa.
  apply bind_div; [lra|]. intros c2 Hc2. rewrite rsqrt_None; [reflexivity|].
  assert (0 < - c2); [|lra]. subst c2. replace (- ((al + 1790) / (al + 2114))) with (- (al + 1790) / (al + 2114)) by (field; lra).
  apply Rdiv_lt_0_compat; lra.
Qed.
