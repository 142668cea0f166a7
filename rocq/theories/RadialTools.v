(** Exactness tools shared by the sphere, ball, exp(-r) and exp(-r^2) schemes. *)
From Coq Require Import Reals List Arith Lia Lra Permutation Bool.
From Verif Require Import Spec RsumLemmas CombModel CombProofs CombProofs2 Moments SymExact
  IntegralSpec IntegralProofs PyBase SymmModel SymmProofs OrbitProofs2 MiscModel CnModel SchemeTools CnTools CnProofs IntegralProofs2 CnProofs4
  SphereSpec SphereInt RadialInt.
Import ListNotations.
Set Bullet Behavior "Strict Subproofs".
Open Scope R_scope.

(** A constructor call succeeds and yields a scheme in dimension n, of declared degree d, exact to degree d for I. *)
Definition good_scheme (n d : nat) (I : list nat -> R) (r : option scheme) : Prop :=
  exists s, r = Some s /\ s_dim s = n /\ s_degree s = d /\ exact n d I (s_rule s).

Lemma from_data_good n gs d I : exact n d I (sym_rule gs) -> good_scheme n d I (Some (from_data n (gdata gs) d)).
Proof. intros H. eexists. split; [reflexivity|]. cbn [s_dim s_degree s_rule from_data]. rewrite mk_rule_gdata. auto. Qed.

(* ------------------------------------------------------------------ values of the moments *)
Ltac rm_tac := unfold rmoment; cbn [existsb Nat.odd Nat.even negb orb map df Rprod]; cbn; try lra.
Lemma rm_0 h : rmoment h [] = h 0%nat. Proof. rm_tac. Qed.
Lemma rm_2 h : rmoment h [2%nat] = h 1%nat. Proof. rm_tac. Qed.
Lemma rm_4 h : rmoment h [4%nat] = 3 * h 2%nat. Proof. rm_tac. Qed.
Lemma rm_22 h : rmoment h [2%nat; 2%nat] = h 2%nat. Proof. rm_tac. Qed.
Lemma rm_6 h : rmoment h [6%nat] = 15 * h 3%nat. Proof. rm_tac. Qed.
Lemma rm_42 h : rmoment h [4%nat; 2%nat] = 3 * h 3%nat. Proof. rm_tac. Qed.
Lemma rm_222 h : rmoment h [2%nat; 2%nat; 2%nat] = h 3%nat. Proof. rm_tac. Qed.
Lemma rm_8 h : rmoment h [8%nat] = 105 * h 4%nat. Proof. rm_tac. Qed.
Lemma rm_62 h : rmoment h [6%nat; 2%nat] = 15 * h 4%nat. Proof. rm_tac. Qed.
Lemma rm_44 h : rmoment h [4%nat; 4%nat] = 9 * h 4%nat. Proof. rm_tac. Qed.
Lemma rm_422 h : rmoment h [4%nat; 2%nat; 2%nat] = 3 * h 4%nat. Proof. rm_tac. Qed.
Lemma rm_2222 h : rmoment h [2%nat; 2%nat; 2%nat; 2%nat] = h 4%nat. Proof. rm_tac. Qed.

Lemma rise_neq x m : 0 < x -> rise x m <> 0.
Proof. intros H. apply Rgt_not_eq, rise_pos. auto. Qed.
Lemma h_enr_rise n m : (1 <= n)%nat -> h_enr n m = rise (INR n + 1) m.
Proof.
  intros Hn. unfold h_enr. induction m as [|m IH].
  { rewrite Nat.add_0_r. cbn [rise]. field. apply INR_fact_neq_0. }
  rewrite !rise_S, <- IH. replace (n - 1 + 2 * S m)%nat with (S (S (n - 1 + 2 * m))) by lia.
  rewrite (fact_simpl (S _)), (fact_simpl (n - 1 + 2 * m)), !mult_INR, !S_INR, plus_INR, mult_INR, minus_INR by lia. cbn [INR].
  assert (1 <= INR n) by (apply (le_INR 1); auto). pose proof (pos_INR m). pose proof (INR_fact_neq_0 (n - 1)). assert (rise (INR n) m <> 0) by (apply rise_neq; lra).
  field. repeat split; auto; lra.
Qed.
Lemma h_sphere_0 n : h_sphere n 0 = 1. Proof. unfold h_sphere. cbn. field. Qed.
Lemma h_ball_0 n : h_ball n 0 = 1. Proof. unfold h_ball. cbn. field. Qed.
Lemma h_enr_0 n : h_enr n 0 = 1. Proof. unfold h_enr. rewrite Nat.add_0_r. cbn [rise]. field. apply INR_fact_neq_0. Qed.
Lemma h_enr2_0 n : h_enr2 n 0 = 1. Proof. unfold h_enr2. cbn. field. Qed.

Ltac rad_rhs := rewrite ?rm_0, ?rm_2, ?rm_4, ?rm_22, ?rm_6, ?rm_42, ?rm_222, ?rm_8, ?rm_62, ?rm_44, ?rm_422, ?rm_2222;
  rewrite ?h_enr_rise by lia; unfold h_sphere, h_ball, h_enr2; cbn [rise].
(** Reduce exactness of a fully symmetric rule to the canonical exponents. *)
Ltac rad_even Fs := apply (fs_exact_even _ _ _ _ _ Fs); [ok_groups|even_groups|];
  let l := fresh "l" in let Hl := fresh "Hl" in let Hn := fresh "Hn" in
  intros l Hl Hn; split_parts Hl.
Ltac rad_pre n := match goal with Hn : (length _ <= n)%nat |- _ => moment_lhs n Hn end; rad_rhs.

(* ------------------------------------------------------------------ signs *)
Lemma Rpm_app u v : Rpm (u ++ v) = flat_map (fun a => map (app a) (Rpm v)) (Rpm u).
Proof.
  unfold Rpm, pm. rewrite map_app. generalize (map (fun x => if Reqz x then [0] else [x; - x]) v) as q. intros q.
  generalize (map (fun x => if Reqz x then [0] else [x; - x]) u) as p. induction p as [|l p IH]; cbn [app product flat_map].
  { rewrite app_nil_r. symmetry. apply map_id. }
  rewrite IH. clear. induction l as [|a l IHl]; auto. cbn [flat_map]. rewrite flat_map_app, <- IHl. f_equal. clear IHl.
  induction (product p) as [|t ts IHt]; auto. cbn [flat_map map]. rewrite map_app, IHt. f_equal. rewrite map_map. auto.
Qed.
Lemma Rpm_zeros m : Rpm (repeat 0 m) = [repeat 0 m].
Proof.
  unfold Rpm, pm. rewrite map_rep. unfold Reqz. destruct (Req_EM_T 0 0); [|tauto]. apply product_single.
Qed.
Lemma Rpm_pad m v : Rpm (repeat 0 m ++ v) = map (app (repeat 0 m)) (Rpm v).
Proof. rewrite Rpm_app, Rpm_zeros. cbn [flat_map]. apply app_nil_r. Qed.

(* ------------------------------------------------------------------ spherical product Lobatto rules *)
Definition spartg (s2 : R) (e : list nat) : R := if existsb Nat.odd e then 0 else s2 ^ (tdeg e / 2).
Definition face (c s2 k : R) (e : list nat) : R :=
  if existsb Nat.odd e then 0 else
  match tdeg e with
  | 0 => 2 * c / (k + 1)
  | 2 => 2 * c * s2 / (k + 1)
  | 4 => 2 * c * s2 ^ 2 * (if existsb (Nat.eqb 4) e then k + 2 else 1) / (k + 1)
  | _ => 0
  end.
Lemma face_step c s2 k a e : (a + tdeg e <= 5)%nat -> 0 < k ->
  2 * c / ((k + 1) * (k + 2)) * (if Nat.even a then ((k + 2) * s2) ^ (a / 2) else 0) * spartg s2 e +
    0 ^ a * face c s2 (k + 1) e = face c s2 k (a :: e).
Proof.
  intros Ha N1. unfold face, spartg. cbn [existsb]. rewrite tdeg_cons.
  destruct (existsb Nat.odd e) eqn:Ho.
  { rewrite orb_true_r. ring. }
  rewrite orb_false_r. assert (Hev := even_tdeg e Ho).
  assert (H4 : existsb (Nat.eqb 4) e = true -> (4 <= tdeg e)%nat) by apply has4_tdeg.
  assert (Ht : tdeg e = 0%nat \/ tdeg e = 2%nat \/ tdeg e = 4%nat).
  { destruct (tdeg e) as [|[|[|[|[|[|t]]]]]]; auto; simpl in Hev; try discriminate. lia. }
  destruct (existsb (Nat.eqb 4) e); [specialize (H4 eq_refl)|clear H4].
  all: do 6 (destruct a as [|a]; [destruct Ht as [E | [E | E]]; rewrite E in *; try lia; cbn; field; lra|]); lia.
Qed.
Lemma sign_prodg s s2 e : s * s = s2 -> Rprod (map (fun b => s ^ b + (- s) ^ b) e) = 2 ^ length e * spartg s2 e.
Proof.
  intros Hs. induction e as [|a e IH].
  { unfold spartg. cbn. lra. }
  cbn [map Rprod length]. rewrite IH, two_sign, Hs. unfold spartg. cbn [existsb]. rewrite tdeg_cons.
  rewrite <- (Nat.negb_odd a). destruct (Nat.odd a) eqn:Ha; cbn [negb orb].
  { ring. }
  destruct (existsb Nat.odd e) eqn:Ho; cbn [pow]; [ring|].
  assert (Hev := even_tdeg e Ho). rewrite <- Nat.negb_even in Ha. apply negb_false_iff in Ha.
  apply Nat.even_spec in Ha. destruct Ha as [b ->]. apply Nat.even_spec in Hev. destruct Hev as [d E]. rewrite E.
  replace (2 * b + 2 * d)%nat with ((b + d) * 2)%nat by lia. rewrite (Nat.mul_comm 2 b), (Nat.mul_comm 2 d).
  rewrite !Nat.div_mul by lia. rewrite pow_add. ring.
Qed.
Lemma Rpm_sum (r s : R) (a : nat) e : r <> 0 -> s <> 0 ->
  Rsum (map (mono (a :: e)) (Rpm (r :: repeat s (length e)))) = (r ^ a + (- r) ^ a) * Rprod (map (fun b => s ^ b + (- s) ^ b) e).
Proof.
  intros Hr Hs. unfold Rpm, pm. cbn [map]. rewrite map_rep, !Reqz_false by auto. cbn [product flat_map]. rewrite app_nil_r, map_app, Rsum_app, !map_map. cbn [mono].
  assert (G : Rsum (map (mono e) (product (repeat [s; - s] (length e)))) = Rprod (map (fun b => s ^ b + (- s) ^ b) e)).
  { clear. induction e as [|b e IH]; [cbn; ring|]. cbn [length repeat product flat_map]. rewrite app_nil_r, map_app, Rsum_app, !map_map. cbn [mono map Rprod].
    rewrite !Rsum_map_scal. unfold point in IH. rewrite IH. ring. }
  rewrite !Rsum_map_scal. unfold point in G. rewrite G. ring.
Qed.
(** the data of the rule, for k in ks *)
Definition face_entry (n : nat) (c s2 : R) (k : nat) : R * list point :=
  (c * (2 ^ k / 2 ^ n) / ((INR k + 1) * (INR k + 2)), Rpm (repeat 0 (k - 1) ++ [sqrt ((INR k + 2) * s2)] ++ repeat (sqrt s2) (n - k))).
Definition face_list (n : nat) (c s2 : R) (ks : list nat) : list (R * list point) := map (face_entry n c s2) ks.

Lemma face_sum n c s2 m : 0 < s2 -> forall k e0 e, (1 <= k)%nat -> (k + m = n + 1)%nat -> length e = m -> length e0 = (k - 1)%nat -> (tdeg e <= 5)%nat ->
  data_sum (face_list n c s2 (seq k m)) (mono (e0 ++ e)) + 2 * c / (INR n + 2) * 0 ^ tdeg (e0 ++ e) = 0 ^ tdeg e0 * face c s2 (INR k) e.
Proof.
  intros Hs. induction m as [|m IH]; intros k e0 e Hk1 Hkm He H0 Hd.
  { destruct e; [|discriminate]. rewrite app_nil_r. unfold data_sum, face_list. cbn [seq map Rsum].
    replace k with (n + 1)%nat by lia. rewrite plus_INR. unfold face. change (existsb Nat.odd []) with false. change (tdeg []) with 0%nat. cbn [INR].
    replace (INR n + 1 + 1) with (INR n + 2) by ring. ring. }
  destruct e as [|a e]; [discriminate|]. cbn [length] in He. rewrite tdeg_cons in Hd.
  assert (G := IH (S k) (e0 ++ [a]) e ltac:(lia) ltac:(lia) ltac:(lia) ltac:(rewrite app_length; cbn [length]; lia) ltac:(lia)).
  rewrite <- app_assoc in G. cbn [app] in G. cbn [seq].
  assert (Pk : 1 <= INR k) by (apply (le_INR 1); auto).
  unfold data_sum, face_list in *. cbn [map Rsum]. rewrite Rplus_assoc, G. unfold face_entry. cbn [fst snd].
  assert (Ps : 0 < sqrt s2) by (apply sqrt_lt_R0; auto). assert (Pr : 0 < sqrt ((INR k + 2) * s2)) by (apply sqrt_lt_R0, Rmult_lt_0_compat; lra).
  rewrite Rpm_pad, map_map.
  rewrite (Rsum_map_ext _ (fun x => 0 ^ tdeg e0 * mono (a :: e) x)).
  2: { intros x _. rewrite mono_app by (rewrite repeat_length; auto). rewrite mono_repeat by auto. auto. }
  rewrite Rsum_map_scal. cbn [app]. replace (n - k)%nat with (length e) by lia. rewrite Rpm_sum by lra.
  rewrite two_sign, sqrt_sqrt by (apply Rmult_le_pos; lra). rewrite (sign_prodg _ s2) by (apply sqrt_sqrt; lra).
  rewrite tdeg_app. change (tdeg [a]) with (a + 0)%nat. rewrite Nat.add_0_r, pow_add, <- face_step by (auto; lra). rewrite S_INR.
  assert (P2 : 2 ^ n = 2 ^ length e * 2 ^ k) by (rewrite <- pow_add; f_equal; lia).
  rewrite P2. assert (2 ^ k <> 0) by apply pow2_nz. assert (2 ^ length e <> 0) by apply pow2_nz.
  field. repeat split; auto; lra.
Qed.
Lemma face_dims n c s2 ks : Forall (fun k => 1 <= k <= n)%nat ks -> Forall (fun g => Forall (fun p => length p = n) (snd g)) (face_list n c s2 ks).
Proof.
  intros H. unfold face_list. apply Forall_map. eapply Forall_impl; [|exact H]. intros k Hk. unfold face_entry. cbn [snd].
  apply Forall_forall. intros p Hp. unfold Rpm, pm in Hp. apply in_product in Hp. apply Forall2_len in Hp.
  rewrite map_length, !app_length, !repeat_length in Hp. cbn [length] in Hp. cbn beta in Hk. lia.
Qed.

(** moments of total degree at most 5 *)
Lemma rmoment_cases h e : (tdeg e <= 5)%nat -> rmoment h e = if existsb Nat.odd e then 0 else
  match tdeg e with 0 => h 0%nat | 2 => h 1%nat | 4 => if existsb (Nat.eqb 4) e then 3 * h 2%nat else h 2%nat | _ => 0 end.
Proof.
  intros H. unfold rmoment. destruct (existsb Nat.odd e) eqn:Ho; auto.
  assert (Hev := even_tdeg e Ho).
  assert (P : Rprod (map df e) = if existsb (Nat.eqb 4) e then 3 else 1).
  { revert H Ho. clear. induction e as [|a e IH]; intros H Ho; [reflexivity|]. rewrite tdeg_cons in H. cbn [existsb] in *.
    apply orb_false_iff in Ho. destruct Ho as [Ha Ho]. cbn [map Rprod]. rewrite IH by (auto; lia).
    assert (H4 : existsb (Nat.eqb 4) e = true -> (4 <= tdeg e)%nat) by apply has4_tdeg.
    generalize dependent (existsb (Nat.eqb 4) e). intros b4 _ H4. destruct b4; [specialize (H4 eq_refl)|clear H4].
    all: destruct a as [|[|[|[|[|[|a]]]]]]; try discriminate; try lia; cbn; ring. }
  rewrite P. assert (H4 : existsb (Nat.eqb 4) e = true -> (4 <= tdeg e)%nat) by apply has4_tdeg.
  destruct (existsb (Nat.eqb 4) e); [specialize (H4 eq_refl)|clear H4].
  all: destruct (tdeg e) as [|[|[|[|[|[|t]]]]]]; simpl in Hev; try discriminate; try lia; cbn; ring.
Qed.

Theorem face_exact n c s2 w0 I h data : (1 <= n)%nat -> 0 < s2 -> (forall k, length k = n -> I k = rmoment h k) ->
  h 0%nat = 1 -> h 1%nat = c * s2 -> h 2%nat = c * s2 ^ 2 -> w0 = 1 - c + 2 * c / (INR n + 2) ->
  (forall f, data_sum data f = data_sum (face_list n c s2 (seq 1 n)) f + w0 * f (repeat 0 n)) ->
  Forall (fun g => Forall (fun p => length p = n) (snd g)) data ->
  exact n 5 I (s_rule (from_data n data 5)).
Proof.
  intros Hn Hs HI H0 H1 H2 Hw Hdata F. cbn [s_rule from_data]. split.
  - unfold points_in_dim. rewrite mk_rule_untangle. apply Forall_forall. intros wp Hin.
    apply in_flat_map in Hin. destruct Hin as [g [Hg Hin]]. apply in_map_iff in Hin. destruct Hin as [p [<- Hp]]. cbn [snd].
    rewrite Forall_forall in F. specialize (F g Hg). rewrite Forall_forall in F. auto.
  - intros k Hk Hd. rewrite apply_untangle, Hdata, HI by auto. rewrite mono_repeat by auto.
    assert (G := face_sum n c s2 n Hs 1 [] k ltac:(lia) ltac:(lia) Hk eq_refl Hd). cbn [app] in G. change (0 ^ tdeg []) with 1 in G. rewrite Rmult_1_l in G.
    assert (PN : 1 <= INR n) by (apply (le_INR 1); auto).
    transitivity (face c s2 (INR 1) k + (1 - c) * 0 ^ tdeg k). { rewrite <- G, Hw. ring. }
    rewrite rmoment_cases by auto. unfold face. change (INR 1) with 1. destruct (existsb Nat.odd k) eqn:Ho.
    { destruct (tdeg k) eqn:E; [|cbn; ring]. exfalso. clear -Ho E. induction k as [|a k IH]; [discriminate|]. rewrite tdeg_cons in E. cbn [existsb] in Ho.
      apply IH; [lia|]. replace a with 0%nat in Ho by lia. exact Ho. }
    destruct (tdeg k) as [|[|[|[|[|t]]]]]; rewrite ?H0, ?H1, ?H2; cbn [pow].
    1: field. 1: ring. 1: field. 1: ring. 2: ring.
    destruct (existsb (Nat.eqb 4) k); field.
Qed.

(* ------------------------------------------------------------------ fsd whose counts use up all coordinates *)
Lemma partitions_fuel_zero f : forall ss, partitions_fuel f (ss ++ [0%nat]) = partitions_fuel f ss.
Proof.
  induction f as [|f IH]; intros ss; cbn [partitions_fuel]; rewrite forallb_app; cbn [forallb Nat.eqb andb]; rewrite andb_true_r; f_equal.
  rewrite app_length. cbn [length]. rewrite seq_app, flat_map_app. cbn [seq flat_map Nat.add].
  rewrite app_nth2, Nat.sub_diag by lia. cbn [nth Nat.eqb]. rewrite !app_nil_r.
  rewrite !flat_map_concat_map. f_equal. apply map_ext_in. intros i Hi. apply in_seq in Hi. rewrite app_nth1 by lia. destruct (nth i ss 0 =? 0)%nat; auto.
  f_equal. rewrite <- (IH (dec i ss)). f_equal. assert (L : (i < length ss)%nat) by lia. clear -L. revert i L. induction ss as [|s ss IHs]; intros i L; [cbn in L; lia|].
  destruct i; cbn [app dec]; auto. rewrite IHs; auto. cbn in L. lia.
Qed.
Lemma combine_drop_zero {A} (e : list (list A * nat)) v : combine (e ++ [(v, 0%nat)]) = combine e.
Proof.
  unfold combine, partitions. rewrite !map_app. cbn [map fst snd]. rewrite list_sum_app, partitions_fuel_zero. cbn [list_sum fold_right]. rewrite Nat.add_0_r.
  rewrite !flat_map_concat_map. f_equal. apply map_ext_in. intros t Ht. f_equal. apply map_ext_in. intros i Hi.
  apply in_partitions in Ht. assert (B := labeling_bound _ _ _ Ht Hi). rewrite map_length in B. apply app_nth1. rewrite map_length. auto.
Qed.
(** fsd(n, (u, 1), (v, n - 1)) *)
Lemma bind_fsd_full {B} (P : option B -> Prop) n u v (f : list point -> option B) : (1 <= n)%nat ->
  P (f (combine [([u; - u], 1%nat); ([v; - v], (n - 1)%nat)])) -> P (bind (Rfsd n [(u, 1%nat); (v, (n - 1)%nat)]) f).
Proof.
  intros H HP. apply bind_fsd; [cbn; lia|]. cbn [map fst snd list_sum fold_right app].
  replace (n - (1 + (n - 1 + 0)))%nat with 0%nat by lia.
  change [([u; - u], 1%nat); ([v; - v], (n - 1)%nat); ([0], 0%nat)] with ([([u; - u], 1%nat); ([v; - v], (n - 1)%nat)] ++ [([0], 0%nat)]).
  rewrite combine_drop_zero. auto.
Qed.
(** Only the functional values on exponents matter. *)
Lemma good_pts n d I s : good_scheme n d I (Some s) -> s_dim s = n /\ s_degree s = d /\ exact n d I (s_rule s).
Proof. intros [s' [E H]]. injection E as <-. auto. Qed.
