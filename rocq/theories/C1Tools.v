(** One-dimensional exactness: polynomials, affine maps, sums over tilings. *)
From Coq Require Import Reals List Arith Bool Lia Lra Permutation.
From Coquelicot Require Import Coquelicot.
From Verif Require Import Spec RsumLemmas IntegralProofs IntegralPoly Spec1 CombModel PyBase AdaptModel AdaptProofs.
Import ListNotations.
Open Scope R_scope.
Set Bullet Behavior "Strict Subproofs".

Local Ltac toR := cbv beta; change (@plus R_AbelianGroup) with Rplus in *; change (@zero R_AbelianGroup) with 0 in *;
  change (@opp R_AbelianGroup) with Ropp in *; change (@minus R_AbelianGroup) with Rminus in *;
  change (@scal R_Ring R_ModuleSpace) with Rmult in *.

(* ----------------------------------------------------------- polynomials *)
Fixpoint padd (p q : list R) : list R :=
  match p, q with
  | [], _ => q
  | _, [] => p
  | a :: p', b :: q' => (a + b) :: padd p' q'
  end.
Lemma peval_padd p : forall q x, peval (padd p q) x = peval p x + peval q x.
Proof.
  induction p as [|a p IH]; intros [|b q] x; cbn; try ring. rewrite IH. ring.
Qed.
Lemma padd_length p : forall q n, (length p <= n)%nat -> (length q <= n)%nat -> (length (padd p q) <= n)%nat.
Proof.
  induction p as [|a p IH]; intros [|b q] n Hp Hq; cbn in *; auto.
  destruct n; [lia|]. apply le_n_S. apply IH; lia.
Qed.
Lemma peval_scale c p x : peval (map (Rmult c) p) x = c * peval p x.
Proof. induction p as [|a p IH]; cbn; [ring|]. rewrite IH. ring. Qed.
Definition pmul_lin (u v : R) (p : list R) : list R := padd (map (Rmult u) p) (0 :: map (Rmult v) p).
Lemma peval_pmul_lin u v p x : peval (pmul_lin u v p) x = (u + v * x) * peval p x.
Proof. unfold pmul_lin. rewrite peval_padd. cbn. rewrite !peval_scale. ring. Qed.
Lemma pmul_lin_length u v p : (length (pmul_lin u v p) <= S (length p))%nat.
Proof. apply padd_length; cbn; rewrite map_length; lia. Qed.
Fixpoint pcompose (u v : R) (c : list R) : list R :=
  match c with [] => [] | a :: c' => padd [a] (pmul_lin u v (pcompose u v c')) end.
Lemma peval_pcompose u v c x : peval (pcompose u v c) x = peval c (u + v * x).
Proof.
  induction c as [|a c IH]; cbn [pcompose peval]; auto. rewrite peval_padd, peval_pmul_lin, IH. cbn. ring.
Qed.
Lemma pcompose_length u v c : (length (pcompose u v c) <= length c)%nat.
Proof.
  induction c as [|a c IH]; cbn [pcompose length]; auto. apply padd_length; cbn; [lia|].
  pose proof (pmul_lin_length u v (pcompose u v c)). lia.
Qed.
Lemma peval_continuous c x : continuous (peval c) x.
Proof.
  induction c as [|a c IH]; cbn.
  - apply continuous_const.
  - apply (continuous_plus (fun _ => a) (fun x => x * peval c x)); [apply continuous_const|].
    apply (continuous_mult (fun x => x) (peval c)); [apply continuous_id|auto].
Qed.
Lemma peval_ex_RInt c a b : ex_RInt (peval c) a b.
Proof. apply (ex_RInt_continuous (V := R_CompleteNormedModule)). intros x _. apply peval_continuous. Qed.
Lemma peval_nth c x : peval c x = Rsum (map (fun i => nth i c 0 * x ^ i) (seq 0 (length c))).
Proof.
  induction c as [|a c IH]; cbn [peval length seq map Rsum nth]; auto. rewrite <- seq_shift, map_map, IH.
  rewrite <- Rsum_map_scal. cbn [pow]. f_equal; [ring|]. apply Rsum_map_ext. intros i _. cbn. ring.
Qed.
Lemma apply1_ext q f g : (forall wx, In wx q -> f (snd wx) = g (snd wx)) -> apply1 q f = apply1 q g.
Proof. intros H. apply Rsum_map_ext. intros wx Hin. rewrite H; auto. Qed.
Lemma apply1_ext' q f g : (forall x, f x = g x) -> apply1 q f = apply1 q g.
Proof. intros H. apply apply1_ext. auto. Qed.
Lemma apply1_sum {A} q (f : A -> R -> R) l :
  apply1 q (fun x => Rsum (map (fun a => f a x) l)) = Rsum (map (fun a => apply1 q (f a)) l).
Proof.
  unfold apply1. rewrite (Rsum_swap (fun a wx => fst wx * f a (snd wx)) l q). apply Rsum_map_ext. intros wx _.
  rewrite Rsum_map_scal. auto.
Qed.
Lemma apply1_scal q c f : apply1 q (fun x => c * f x) = c * apply1 q f.
Proof. unfold apply1. rewrite <- Rsum_map_scal. apply Rsum_map_ext. intros; ring. Qed.
Lemma apply1_app q1 q2 f : apply1 (q1 ++ q2) f = apply1 q1 f + apply1 q2 f.
Proof. unfold apply1. rewrite map_app, Rsum_app. auto. Qed.

Lemma is_RInt_peval c a b : is_RInt (peval c) a b (Rsum (map (fun i => nth i c 0 * ((b ^ S i - a ^ S i) / INR (S i))) (seq 0 (length c)))).
Proof.
  apply (is_RInt_ext (fun x => Rsum (map (fun i => nth i c 0 * x ^ i) (seq 0 (length c))))).
  { intros x _. symmetry. apply peval_nth. }
  apply (is_RInt_Rsum (fun i x => nth i c 0 * x ^ i)). intros i _. apply is_RInt_scalR. apply is_RInt_pow.
Qed.
(** Exactness on the powers is exactness on all polynomials. *)
Lemma exact1_of_powers d q : (forall k, (k <= d)%nat -> apply1 q (fun x => x ^ k) = pow_int k) -> exact1 d q.
Proof.
  intros H c Hc. rewrite (is_RInt_unique _ _ _ _ (is_RInt_peval c (-1) 1)).
  rewrite (apply1_ext' q _ (fun x => Rsum (map (fun i => nth i c 0 * x ^ i) (seq 0 (length c)))) (peval_nth c)).
  rewrite (apply1_sum q (fun i x => nth i c 0 * x ^ i)). apply Rsum_map_ext. intros i Hi. apply in_seq in Hi.
  rewrite apply1_scal, H by lia. f_equal. unfold pow_int. rewrite pow_m1, pow1.
  destruct (Nat.even i); field; apply not_0_INR; lia.
Qed.
Fixpoint xpow (k : nat) : list R := match k with O => [1] | S k' => 0 :: xpow k' end.
Lemma peval_xpow k x : peval (xpow k) x = x ^ k.
Proof. induction k; cbn; [ring|]. rewrite IHk. ring. Qed.
Lemma xpow_length k : length (xpow k) = S k.
Proof. induction k; cbn; auto. Qed.
Lemma RInt_xpow k : RInt (fun x => x ^ k) (-1) 1 = pow_int k.
Proof.
  apply is_RInt_unique. apply is_RInt_pow_11.
Qed.
Lemma exact1_powers d q k : exact1 d q -> (k <= d)%nat -> apply1 q (fun x => x ^ k) = pow_int k.
Proof.
  intros H Hk. rewrite <- (apply1_ext' q _ _ (peval_xpow k)). rewrite H by (rewrite xpow_length; lia).
  rewrite <- RInt_xpow. apply RInt_ext. intros x _. apply peval_xpow.
Qed.

(* ----------------------------------------------------------- integrate on an interval *)
Lemma c1_integrate_apply q f a b :
  c1_integrate q f (a, b) = Rabs (b - a) / 2 * apply1 q (fun x => f ((a + b) / 2 + (b - a) / 2 * x)).
Proof.
  unfold c1_integrate, to_interval. rewrite interval_length_abs. cbn [fst snd].
  replace (0.5 * Rabs (b - a)) with (Rabs (b - a) / 2) by lra. f_equal.
  apply Rsum_map_ext. intros wx _. f_equal. f_equal. lra.
Qed.
Lemma exact1_affine d q c a b : exact1 d q -> (length c <= S d)%nat ->
  (b - a) / 2 * apply1 q (fun x => peval c ((a + b) / 2 + (b - a) / 2 * x)) = RInt (peval c) a b.
Proof.
  intros H Hc.
  rewrite <- (apply1_ext' q _ _ (peval_pcompose ((a + b) / 2) ((b - a) / 2) c)).
  rewrite H by (pose proof (pcompose_length ((a + b) / 2) ((b - a) / 2) c); lia).
  transitivity (RInt (fun x => (b - a) / 2 * peval c ((b - a) / 2 * x + (a + b) / 2)) (-1) 1).
  - rewrite (RInt_ext (peval (pcompose _ _ c)) (fun x => peval c ((b - a) / 2 * x + (a + b) / 2))).
    2:{ intros x _. rewrite peval_pcompose. f_equal. ring. }
    symmetry. apply (RInt_scal (V := R_CompleteNormedModule) (fun x => peval c ((b - a) / 2 * x + (a + b) / 2))).
    apply (ex_RInt_ext (peval (pcompose ((a + b) / 2) ((b - a) / 2) c))); [|apply peval_ex_RInt].
    intros x _. rewrite peval_pcompose. f_equal. ring.
  - etransitivity; [apply (RInt_comp_lin (V := R_CompleteNormedModule) (peval c) ((b - a) / 2) ((a + b) / 2) (-1) 1)|].
    + apply peval_ex_RInt.
    + f_equal; field.
Qed.
Theorem c1_integrate_exact d q c a b : exact1 d q -> (length c <= S d)%nat ->
  c1_integrate q (peval c) (a, b) = RInt (peval c) (Rmin a b) (Rmax a b).
Proof.
  intros H Hc. rewrite c1_integrate_apply. pose proof (exact1_affine d q c a b H Hc) as E.
  destruct (Rle_dec a b) as [L|L].
  - rewrite Rmin_left, Rmax_right by lra. rewrite Rabs_right by lra. exact E.
  - rewrite Rmin_right, Rmax_left by lra. rewrite Rabs_left by lra.
    rewrite <- (opp_RInt_swap (V := R_CompleteNormedModule) (peval c) a b) by apply peval_ex_RInt. toR.
    rewrite <- E. unfold opp. cbn. field.
Qed.

(* ----------------------------------------------------------- sums over tilings *)
Lemma chain_RInt f a b l : (forall u v, a <= u -> v <= b -> ex_RInt f u v) -> chain a b l ->
  RInt f a b = Rsum (map (fun iv => RInt f (fst iv) (snd iv)) l).
Proof.
  revert a. induction l as [|[u v] l IH]; intros a Hex H; cbn [map Rsum fst snd].
  - cbn in H. subst. apply (RInt_point (V := R_CompleteNormedModule)).
  - cbn in H. destruct H as [-> [Huv H]]. assert (Hvb := chain_le _ _ _ H).
    rewrite <- (IH v); auto.
    + symmetry. apply (RInt_Chasles (V := R_CompleteNormedModule) f); apply Hex; lra.
    + intros; apply Hex; lra.
Qed.
Lemma tiling_RInt f a b l : (forall u v, a <= u -> v <= b -> ex_RInt f u v) -> tiling a b l ->
  RInt f a b = Rsum (map (fun iv => RInt f (fst iv) (snd iv)) l).
Proof.
  intros Hex [c [Hp Hc]]. rewrite (chain_RInt f a b c Hex Hc). apply Rsum_map_perm. auto.
Qed.

(* ----------------------------------------------------------- termination and the limit *)
Section Loop.
Context (m : nat) (val err : interval -> nat -> R).
Context (eps_abs eps_rel : option R) (conn : connection) (min_len : R) (max_num : option nat).
Notation loop := (adapt_loop m val err eps_abs eps_rel conn min_len max_num).
Notation main := (adapt_main m val err eps_abs eps_rel conn min_len max_num).

Lemma split_length iv iv' bad L : In iv' (split_all bad) -> (forall x, In x bad -> interval_length x <= L) ->
  iv = iv' -> interval_length iv' <= L / 2.
Proof.
  intros Hin H _. unfold split_all in Hin. apply in_app_or in Hin.
  destruct Hin as [Hin|Hin]; apply in_map_iff in Hin; destruct Hin as [[u v] [<- Hx]]; specialize (H _ Hx);
    rewrite interval_length_abs in H |- *; unfold midpoint_of; cbn [fst snd].
  - replace (0.5 * (u + v) - u) with ((v - u) * / 2) by lra. rewrite Rabs_mult, (Rabs_right (/ 2)) by lra. lra.
  - replace (v - 0.5 * (u + v)) with ((v - u) * / 2) by lra. rewrite Rabs_mult, (Rabs_right (/ 2)) by lra. lra.
Qed.
Lemma loop_terminates k : forall fuel bad ngood num gv ge L,
  (k < fuel)%nat -> (forall x, In x bad -> interval_length x <= L) -> L < min_len * 2 ^ k -> 0 < min_len ->
  loop (S fuel) bad ngood num gv ge <> StillRunning.
Proof.
  induction k as [|k IH]; intros fuel bad ngood num gv ge L Hf HL HLk Hm; cbn [adapt_loop];
    destruct bad as [|iv0 bad0] eqn:Eb; try discriminate; rewrite <- Eb in *;
    destruct (exceeds _ _); try discriminate;
    destruct (existsb _ _) eqn:Ee; try discriminate.
  - exfalso. cbn [pow] in HLk. set (iv := (fst iv0, midpoint_of iv0)).
    assert (Hiv : In iv (split_all bad)) by (rewrite Eb; left; auto).
    pose proof (split_length iv iv bad L Hiv HL eq_refl) as Hl.
    assert (Hc : existsb (fun iv => Rltb (interval_length iv) min_len) (split_all bad) = true).
    { apply existsb_exists. exists iv. split; auto. apply Rltb_true. 
      pose proof (length_nonneg iv). lra. }
    congruence.
  - destruct fuel; [lia|]. apply (IH fuel _ _ _ _ _ (L / 2)); [lia| | |auto].
    + intros x Hx. apply filter_In in Hx. apply (split_length x x bad L); tauto.
    + cbn [pow] in HLk. lra.
Qed.
Theorem main_terminates a b k fuel : 0 < min_len -> b - a < min_len * 2 ^ k -> (k + 1 < fuel)%nat ->
  main fuel [(a, b)] <> StillRunning.
Proof.
  intros Hm HL Hf. unfold adapt_main.
  match goal with |- context [forallb ?p _] => destruct (forallb p [(a, b)]) eqn:Ea end; [|discriminate]. cbn [andb].
  destruct (match eps_abs, eps_rel with None, None => false | _, _ => true end); [|discriminate].
  cbn [forallb fst snd] in Ea. rewrite andb_true_r in Ea. apply Rleb_true in Ea.
  destruct fuel; [lia|].
  match goal with |- context [adapt_loop ?a1 ?a2 ?a3 ?a4 ?a5 ?a6 ?a7 ?a8 ?a9 ?b1 ?b2 ?b3 ?b4 ?b5] =>
    assert (H : adapt_loop a1 a2 a3 a4 a5 a6 a7 a8 a9 b1 b2 b3 b4 b5 <> StillRunning); [|
    destruct (adapt_loop a1 a2 a3 a4 a5 a6 a7 a8 a9 b1 b2 b3 b4 b5); cbn; try discriminate; exact H] end.
  apply (loop_terminates k) with (L := b - a); auto; [lia|].
  intros x Hx. apply filter_In in Hx. destruct Hx as [[<-|[]] _]. rewrite interval_length_abs, Rabs_right; lra.
Qed.

(** What the counter does guarantee: the intervals accepted before the last round number at most limit - 1. *)
Lemma loop_counter a b fuel mx : max_num = Some mx -> forall bad ngood num gv ge v e acc,
  tiling a b (acc ++ bad) -> bad <> [] -> (num + ngood = 1 + length acc)%nat ->
  (forall j, gv j = sum_over val acc j) ->
  loop fuel bad ngood num gv ge = Returned v e ->
  exists l1 l2, tiling a b (l1 ++ l2) /\ (forall j, v j = sum_over val (l1 ++ l2) j) /\ (1 + length l1 <= mx)%nat /\
    exists l0, l2 = split_all l0.
Proof.
  intros Emx. induction fuel as [|fuel IH]; intros bad ngood num gv ge v e acc Ht Hne Hn Hv H; cbn in H; [discriminate|].
  destruct bad as [|iv0 bad0] eqn:Eb; [congruence|]. rewrite <- Eb in *.
  destruct (exceeds _ _) eqn:Ex; [discriminate|]. destruct (existsb _ _); [discriminate|].
  unfold exceeds in Ex. rewrite Emx in Ex. apply Nat.ltb_ge in Ex.
  set (ivs := split_all bad) in *. set (p := later_good m val err eps_abs eps_rel conn gv ge ivs) in *.
  assert (Ht' : tiling a b (acc ++ ivs)) by (apply tiling_split_all; auto).
  destruct (filter (fun iv => negb (p iv)) ivs) as [|x l] eqn:Ef.
  - destruct fuel; [discriminate|]. cbn in H. injection H as <- <-.
    destruct (filter_all p ivs Ef) as [E1 E2]. exists acc, ivs. split; auto. split; [|split; [lia|exists bad; auto]].
    intros j. rewrite Hv, E1. unfold sum_over. rewrite map_app, Rsum_app. auto.
  - apply (IH _ _ _ _ _ _ _ (acc ++ filter p ivs)) in H; auto.
    + rewrite <- Ef, <- app_assoc. eapply tiling_perm; [|exact Ht']. apply Permutation_app_head. apply partition_perm.
    + discriminate.
    + unfold interval in *. rewrite app_length. lia.
    + intros j. rewrite Hv. unfold sum_over. rewrite map_app, Rsum_app. auto.
Qed.
End Loop.

(** With both tolerances zero nothing is ever accepted. *)
Lemma zero_tolerance_loop m val err conn mx : (0 < m)%nat -> (forall iv j, 0 <= err iv j) ->
  forall fuel bad gv ge, bad <> [] -> (forall j, ge j = 0) -> (1 <= mx)%nat ->
  adapt_loop m val err (Some 0) (Some 0) conn 0 (Some mx) fuel bad 0 1 gv ge = StillRunning.
Proof.
  intros Hm He. induction fuel as [|fuel IH]; intros bad gv ge Hne Hge Hmx; cbn [adapt_loop]; auto.
  destruct bad as [|iv0 bad0] eqn:Eb; [congruence|]. rewrite <- Eb in *.
  unfold exceeds. destruct (Nat.ltb_spec mx (1 + 0)); [lia|].
  assert (E0 : existsb (fun iv => Rltb (interval_length iv) 0) (split_all bad) = false).
  { destruct (existsb _ _) eqn:E; auto. apply existsb_exists in E. destruct E as [iv [_ E]].
    apply Rltb_true in E. pose proof (length_nonneg iv). lra. }
  rewrite E0. set (ivs := split_all bad).
  assert (Hg : forall iv, later_good m val err (Some 0) (Some 0) conn gv ge ivs iv = false).
  { intros iv. unfold later_good. cbn [opt_list map app]. set (total := Rsum (map interval_length ivs)).
    assert (F : forall al : nat -> R, al 0%nat = 0 -> all_components m (fun j => if Req_EM_T total 0 then false else
        Rltb (err iv j) (al j * (interval_length iv / total))) = false).
    { intros al Hal. destruct m; [lia|]. unfold all_components. cbn [seq forallb]. rewrite Hal.
      destruct (Req_EM_T total 0); auto. replace (0 * _) with 0 by ring.
      assert (E : Rltb (err iv 0%nat) 0 = false) by (apply Rltb_false; specialize (He iv 0%nat); lra). rewrite E. auto. }
    rewrite !F by (rewrite Hge; ring). destruct conn; auto. }
  assert (Hf : filter (later_good m val err (Some 0) (Some 0) conn gv ge ivs) ivs = []).
  { induction ivs as [|x l IHl]; auto. cbn. 
    assert (forall l' : list interval, filter (later_good m val err (Some 0) (Some 0) conn gv ge (x :: l)) l' = []) as G.
    { induction l' as [|y l' IH']; auto. cbn. rewrite Hg. auto. }
    rewrite Hg. apply G. }
  assert (Hb : filter (fun iv => negb (later_good m val err (Some 0) (Some 0) conn gv ge ivs iv)) ivs = ivs).
  { clear -Hg. assert (G : forall l, filter (fun iv => negb (later_good m val err (Some 0) (Some 0) conn gv ge ivs iv)) l = l).
    { induction l as [|y l IH']; auto. cbn. rewrite Hg. cbn. congruence. }
    apply G. }
  rewrite Hf, Hb. cbn [length]. replace (1 + 0)%nat with 1%nat by auto. apply IH; auto.
  - unfold ivs, split_all. rewrite Eb. discriminate.
  - intros j. rewrite Hge. unfold sum_over. cbn. ring.
Qed.
Theorem zero_tolerance_runs_forever m val err conn mx a b fuel : (0 < m)%nat -> (forall iv j, 0 <= err iv j) ->
  a <= b -> (1 <= mx)%nat ->
  adapt_main m val err (Some 0) (Some 0) conn 0 (Some mx) fuel [(a, b)] = StillRunning.
Proof.
  intros Hm He Hab Hmx. unfold adapt_main. cbn [forallb fst snd]. 
  assert (E : Rleb a b = true) by (apply Rleb_true; auto). rewrite E. cbn [andb].
  assert (Hg : first_good m val err (Some 0) (Some 0) conn (a, b) = false).
  { unfold first_good. cbn [opt_list map app].
    assert (F : forall al : nat -> R, al 0%nat = 0 -> all_components m (fun j => Rltb (err (a, b) j) (al j)) = false).
    { intros al Hal. destruct m; [lia|]. unfold all_components. cbn [seq forallb]. rewrite Hal.
      assert (E' : Rltb (err (a, b) 0%nat) 0 = false) by (apply Rltb_false; specialize (He (a, b) 0%nat); lra). rewrite E'. auto. }
    rewrite !F by ring. destruct conn; auto. }
  cbn [filter]. rewrite Hg. cbn [negb length]. rewrite zero_tolerance_loop; auto; discriminate.
Qed.
