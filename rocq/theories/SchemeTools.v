(** Tools for exactness proofs of schemes built from fully symmetric point sets. *)
From Coq Require Import Reals List Arith Lia Lra Permutation Bool.
From Verif Require Import Spec RsumLemmas CombModel CombProofs CombProofs2 Moments SymExact PyBase SymmModel MiscModel.
Import ListNotations.
Open Scope R_scope.

(* ------------------------------------------------------- inverting the option monad *)
Lemma bind_inv {A B} (x : option A) (f : A -> option B) b :
  bind x f = Some b -> exists a, x = Some a /\ f a = Some b.
Proof. destruct x; simpl; [eauto|discriminate]. Qed.
Lemma guard_inv {A} b (f : option A) a : guard b f = Some a -> b = true /\ f = Some a.
Proof. destruct b; simpl; [auto|discriminate]. Qed.
Lemma rsqrt_inv x r : rsqrt x = Some r -> 0 <= r /\ r * r = x.
Proof.
  unfold rsqrt. destruct (Rle_dec 0 x); [|discriminate]. intros H; injection H as <-.
  split; [apply sqrt_pos|apply sqrt_sqrt; auto].
Qed.
Lemma rsqrt_ok x : 0 <= x -> rsqrt x = Some (sqrt x).
Proof. intros. unfold rsqrt. destruct (Rle_dec 0 x); [auto|tauto]. Qed.
Lemma rsqrt_None x : x < 0 -> rsqrt x = None.
Proof. intros. unfold rsqrt. destruct (Rle_dec 0 x); [lra|auto]. Qed.
Lemma rdiv_inv a b c : rdiv a b = Some c -> b <> 0 /\ c = a / b.
Proof. unfold rdiv. destruct (Req_EM_T b 0); [discriminate|]. intros H; injection H as <-; auto. Qed.
Lemma rdiv_ok a b : b <> 0 -> rdiv a b = Some (a / b).
Proof. intros. unfold rdiv. destruct (Req_EM_T b 0); tauto. Qed.

Ltac inv_opt :=
  repeat match goal with
  | H : bind _ _ = Some _ |- _ =>
      apply bind_inv in H; let a := fresh "v" in let E := fresh "E" in destruct H as [a [E H]]
  | H : guard _ _ = Some _ |- _ => apply guard_inv in H; let E := fresh "G" in destruct H as [E H]
  | H : rsqrt _ = Some ?r |- _ =>
      apply rsqrt_inv in H; let P := fresh "P" in let Q := fresh "Q" in destruct H as [P Q]
  | H : rdiv _ _ = Some ?c |- _ =>
      apply rdiv_inv in H; let Hn := fresh "Nz" in let E := fresh "D" in destruct H as [Hn E]
  | H : Some _ = Some _ |- _ => injection H as H
  end.

Lemma map_rep {A B} (f : A -> B) v n : map f (repeat v n) = repeat (f v) n.
Proof. induction n; simpl; auto. f_equal; auto. Qed.

(* ------------------------------------------------------- point sets as [combine] *)
Lemma Rfsd_inv n ts p : Rfsd n ts = Some p ->
  (list_sum (map snd ts) <= n)%nat /\
  p = combine (map (fun it => ([fst it; - fst it], snd it)) ts ++ [([0], (n - list_sum (map snd ts))%nat)]).
Proof.
  unfold Rfsd, fsd. destruct (Nat.leb_spec (list_sum (map snd ts)) n); [|discriminate].
  intros E; injection E as <-. auto.
Qed.

Lemma combine_single {A} (v : list A) n : combine [(v, n)] = product (repeat v n).
Proof.
  unfold combine. simpl map.
  assert (E : partitions [n] = [repeat 0%nat n]).
  { induction n as [|n IH].
    - rewrite partitions_zero; auto.
    - rewrite (partitions_step _ n) by (simpl; lia). simpl. rewrite Nat.sub_0_r, IH. auto. }
  rewrite E. simpl. rewrite app_nil_r. f_equal.
  rewrite map_rep. simpl. auto.
Qed.

Lemma product_single {A} (v : A) n : product (repeat [v] n) = [repeat v n].
Proof. induction n; simpl; auto. rewrite IHn. auto. Qed.

Lemma Rz_combine n : Rz n = combine [([0], n)].
Proof. rewrite combine_single, product_single. auto. Qed.

Lemma Reqz_false a : a <> 0 -> Reqz a = false.
Proof. intros H. unfold Reqz. destruct (Req_EM_T a 0); tauto. Qed.

Lemma Rpm_combine n a : a <> 0 -> Rpm (repeat a n) = combine [([a; - a], n)].
Proof.
  intros H. rewrite combine_single. unfold Rpm, pm. rewrite map_rep.
  rewrite Reqz_false by auto. auto.
Qed.

(** One distinguished class of size 1 and one class for the rest. *)
Lemma partitions_0_m q : partitions [0%nat; q] = [repeat 1%nat q].
Proof.
  induction q as [|q IH].
  - rewrite partitions_zero; auto.
  - rewrite (partitions_step _ q) by (simpl; lia). simpl. rewrite Nat.sub_0_r, IH. auto.
Qed.

Lemma partitions_1_m m :
  partitions [1%nat; m] = map (fun i => repeat 1%nat i ++ [0%nat] ++ repeat 1%nat (m - i)) (seq 0 (S m)).
Proof.
  induction m as [|m IH].
  - reflexivity.
  - rewrite (partitions_step _ (S m)) by (simpl; lia).
    cbn [seq length flat_map nth Nat.eqb dec]. rewrite app_nil_r.
    replace (1 - 1)%nat with 0%nat by lia. replace (S m - 1)%nat with m by lia.
    rewrite partitions_0_m, IH. cbn [map]. simpl app at 1. f_equal.
    rewrite <- !seq_shift, !map_map. cbn [map]. reflexivity.
Qed.

Lemma combine_one {A} (l0 l1 : list A) m :
  combine [(l0, 1%nat); (l1, m)] =
  flat_map (fun i => product (repeat l1 i ++ [l0] ++ repeat l1 (m - i))) (seq 0 (S m)).
Proof.
  unfold combine. cbn [map fst snd]. rewrite partitions_1_m.
  rewrite !flat_map_concat_map, map_map. f_equal. apply map_ext. intros i.
  rewrite !map_app, !map_rep. cbn [map nth]. auto.
Qed.

Lemma map_seq_pick {B} (a b : B) i n : (i < n)%nat ->
  map (fun j => if (j =? i)%nat then a else b) (seq 0 n) = repeat b i ++ [a] ++ repeat b (n - i - 1).
Proof.
  intros H. replace n with (i + S (n - i - 1))%nat at 1 by lia. rewrite seq_app, map_app. f_equal.
  - rewrite (map_ext_in _ (fun _ => b)).
    + clear. generalize 0%nat. induction i; intros s; simpl; auto. f_equal; auto.
    + intros j Hj. apply in_seq in Hj. destruct (Nat.eqb_spec j i); [lia|auto].
  - simpl. rewrite Nat.eqb_refl. f_equal. rewrite (map_ext_in _ (fun _ => b)).
    + generalize (S i) as s. induction (n - i - 1)%nat; intros s; simpl; auto. f_equal; auto.
    + intros j Hj. apply in_seq in Hj. destruct (Nat.eqb_spec j i); [lia|auto].
Qed.

Lemma product_singletons {A} (l : list A) : product (map (fun v => [v]) l) = [l].
Proof. induction l; simpl; auto. rewrite IHl. auto. Qed.

Lemma product_app_single {A} (z : A) i ls :
  product (repeat [z] i ++ ls) = map (app (repeat z i)) (product ls).
Proof.
  induction i; simpl; [rewrite map_id; auto|]. rewrite app_nil_r, IHi, map_map. auto.
Qed.

Lemma orbit_Ka n a : orbit Ka n [a] = combine [([a; - a], n)].
Proof. rewrite combine_single. reflexivity. Qed.

Lemma orbit_Ka0 n a : (1 <= n)%nat -> orbit Ka0 n [a] = combine [([a; - a], 1%nat); ([0], (n - 1)%nat)].
Proof.
  intros H. rewrite combine_one. replace (S (n - 1)) with n by lia. unfold orbit.
  cbn [nth]. rewrite !flat_map_concat_map. f_equal. apply map_ext_in. intros i Hi. apply in_seq in Hi.
  rewrite product_app_single. simpl product. rewrite product_single.
  replace (n - i - 1)%nat with (n - 1 - i)%nat by lia. reflexivity.
Qed.

Lemma orbit_K0 n c : orbit K0 n c = combine [([0], n)].
Proof. rewrite combine_single, product_single. reflexivity. Qed.

(* ------------------------------------------------------- rules as [sym_rule] *)
Definition gdata (gs : list group) : list (R * list point) := map (fun g => (fst g, combine (snd g))) gs.

Lemma mk_rule_untangle (data : list (R * list point)) :
  mk_rule (untangle data) = flat_map (fun g => map (fun p => (fst g, p)) (snd g)) data.
Proof.
  unfold mk_rule. destruct (untangle data) as [pts ws] eqn:E. apply untangle_pairs in E.
  simpl. apply E.
Qed.

Lemma mk_rule_gdata gs : mk_rule (untangle (gdata gs)) = sym_rule gs.
Proof.
  rewrite mk_rule_untangle. unfold gdata, sym_rule.
  rewrite !flat_map_concat_map, map_map. auto.
Qed.

(** Same sums and dimensions for a rule whose groups are reordered. *)
Lemma exact_perm n d I q q' : Permutation q q' -> exact n d I q -> exact n d I q'.
Proof.
  intros Hp [H1 H2]. split.
  - unfold points_in_dim in *. rewrite Forall_forall in *. intros x Hx. apply H1.
    eapply Permutation_in; [apply Permutation_sym; exact Hp|auto].
  - intros k Hk Hd. rewrite <- (apply_perm _ _ _ Hp). auto.
Qed.

(* ------------------------------------------------------- number of points *)
Lemma gnum_single w v n : gnum (w, [(v, n)]) = INR (length v) ^ n.
Proof.
  assert (H := gnum_big w n [] v). simpl in H. rewrite Nat.sub_0_r in H.
  rewrite H by lia. field.
Qed.

Lemma gnum_z w n : gnum (w, [([0], n)]) = 1.
Proof. rewrite gnum_single. simpl. apply pow1. Qed.

Lemma gnum_pm w n r : gnum (w, [([r; - r], n)]) = 2 ^ n.
Proof. rewrite gnum_single. simpl. f_equal. Qed.

Lemma gnum_1 w n l v0 : (1 <= n)%nat ->
  gnum (w, [(l, 1%nat); (v0, (n - 1)%nat)]) = INR n * INR (length l) * INR (length v0) ^ (n - 1).
Proof.
  intros H. assert (G := gnum_big w n [(l, 1%nat)] v0 H).
  simpl map in G. simpl list_sum in G. simpl app in G.
  rewrite G. simpl ffR. simpl prodfact. simpl prodpow. rewrite !Nat.mul_1_r. simpl (INR 1). field.
Qed.

Lemma gnum_2 w n l v0 : (2 <= n)%nat ->
  gnum (w, [(l, 2%nat); (v0, (n - 2)%nat)]) =
  INR n * (INR n - 1) / 2 * INR (length l) ^ 2 * INR (length v0) ^ (n - 2).
Proof.
  intros H. assert (G := gnum_big w n [(l, 2%nat)] v0 H).
  simpl map in G. simpl list_sum in G. simpl app in G.
  rewrite G. simpl ffR. simpl prodfact. cbn [prodpow fst snd]. rewrite Nat.mul_1_r, pow_INR.
  simpl (INR 2). field.
Qed.

Lemma gnum_3 w n l v0 : (3 <= n)%nat ->
  gnum (w, [(l, 3%nat); (v0, (n - 3)%nat)]) =
  INR n * (INR n - 1) * (INR n - 2) / 6 * INR (length l) ^ 3 * INR (length v0) ^ (n - 3).
Proof.
  intros H. assert (G := gnum_big w n [(l, 3%nat)] v0 H).
  simpl map in G. simpl list_sum in G. simpl app in G.
  rewrite G. simpl ffR. simpl prodfact. cbn [prodpow fst snd]. rewrite Nat.mul_1_r, pow_INR.
  simpl (INR 6). field.
Qed.

Lemma gnum_4 w n l v0 : (4 <= n)%nat ->
  gnum (w, [(l, 4%nat); (v0, (n - 4)%nat)]) =
  INR n * (INR n - 1) * (INR n - 2) * (INR n - 3) / 24 * INR (length l) ^ 4 * INR (length v0) ^ (n - 4).
Proof.
  intros H. assert (G := gnum_big w n [(l, 4%nat)] v0 H).
  simpl map in G. simpl list_sum in G. simpl app in G.
  rewrite G. simpl ffR. change (prodfact [4%nat]) with 24%nat.
  cbn [prodpow fst snd]. rewrite Nat.mul_1_r, pow_INR.
  replace (INR 24) with 24 by (simpl; ring). field.
Qed.

Lemma gnum_11 w n l1 l2 v0 : (2 <= n)%nat ->
  gnum (w, [(l1, 1%nat); (l2, 1%nat); (v0, (n - 2)%nat)]) =
  INR n * (INR n - 1) * INR (length l1) * INR (length l2) * INR (length v0) ^ (n - 2).
Proof.
  intros H. assert (G := gnum_big w n [(l1, 1%nat); (l2, 1%nat)] v0 H).
  simpl map in G. simpl list_sum in G. simpl app in G.
  rewrite G. simpl ffR. simpl prodfact. cbn [prodpow fst snd]. rewrite !Nat.mul_1_r, !Nat.pow_1_r, mult_INR.
  simpl (INR 1). field.
Qed.

(* ------------------------------------------------------- binomials *)
Lemma ffR_zero c : forall n, (n < c)%nat -> ffR c (INR n) = 0.
Proof.
  induction c as [|c IH]; intros n H; [lia|]. simpl. destruct n as [|n]; [simpl; ring|].
  rewrite S_INR. replace (INR n + 1 - 1) with (INR n) by ring. rewrite IH by lia. ring.
Qed.

Lemma INR_comb c n : INR (comb n c) = ffR c (INR n) / INR (fact c).
Proof.
  unfold comb. destruct (Nat.leb_spec c n).
  - assert (L := length_partitions [c; (n - c)%nat]). simpl in L.
    rewrite Nat.add_0_r, Nat.mul_1_r in L. replace (c + (n - c))%nat with n in L by lia.
    set (q := length (partitions [c; (n - c)%nat])) in *.
    assert (F1 := fact_neq_0 c). assert (F2 := fact_neq_0 (n - c)).
    rewrite <- L at 1. replace (q * (fact c * fact (n - c)))%nat with (q * fact (n - c) * fact c)%nat by ring.
    rewrite Nat.div_mul, Nat.div_mul by auto.
    apply (f_equal INR) in L. rewrite !mult_INR, (fact_ffR c n) in L by auto.
    assert (G1 := INR_fact_neq_0 c). assert (G2 := INR_fact_neq_0 (n - c)).
    apply (Rmult_eq_reg_r (INR (fact c) * INR (fact (n - c)))).
    + rewrite L. field. auto.
    + apply Rmult_integral_contrapositive. auto.
  - rewrite ffR_zero by auto. simpl. unfold Rdiv. ring.
Qed.
