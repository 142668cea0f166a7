(** The weights of quadpy/c1/_gauss_patterson.py: what _get_weights computes for arbitrary points. *)
From Coq Require Import Reals List Arith ZArith Bool Lia Lra Permutation Sorted QArith Qreals.
From Coquelicot Require Import Coquelicot.
From Verif Require Import Spec Spec1 RsumLemmas CombModel AdaptModel PyBase UnModel C1Tools Interp C1Model C1Proofs LegSpec GwProofs GwBound PattersonModel.
Import ListNotations.
Set Bullet Behavior "Strict Subproofs".
Open Scope R_scope.

(* ------------------------------------------------------------------ Lagrange polynomials *)
Lemma others_in n i j : In j (gp_others n i) <-> (j < n /\ j <> i)%nat.
Proof.
  unfold gp_others. rewrite filter_In, in_seq. split.
  - intros [H1 H2]. apply negb_true_iff, Nat.eqb_neq in H2. lia.
  - intros [H1 H2]. split; [lia|]. apply negb_true_iff, Nat.eqb_neq. auto.
Qed.
Lemma filter_length_le {A} (f : A -> bool) l : (length (filter f l) <= length l)%nat.
Proof. induction l as [|a l IH]; cbn; auto. destruct (f a); cbn; lia. Qed.
Lemma others_length n i : (i < n)%nat -> (length (gp_others n i) <= n - 1)%nat.
Proof.
  intros H. unfold gp_others. replace n with (i + S (n - i - 1))%nat at 1 by lia. rewrite seq_app, filter_app, app_length. cbn [seq filter Nat.add].
  rewrite Nat.eqb_refl. cbn [negb]. assert (A := filter_length_le (fun j => negb (j =? i)%nat) (seq 0 i)). assert (B := filter_length_le (fun j => negb (j =? i)%nat) (seq (S i) (n - i - 1))).
  rewrite seq_length in A, B. lia.
Qed.
Lemma prod_lin_pol {A} (u v : A -> R) l : pol (S (length l)) (fun x => fold_right Rmult 1 (map (fun j => (x - u j) / v j) l)).
Proof.
  induction l as [|a l IH]; cbn [length map fold_right]; [apply (pol_const 1 1); lia|].
  apply (pol_ext _ (fun x => (- u a / v a + / v a * x) * fold_right Rmult 1 (map (fun j => (x - u j) / v j) l))).
  - intros x. f_equal. unfold Rdiv. ring.
  - apply pol_lin. auto.
Qed.
Lemma lagrange_pol pts i : (i < length pts)%nat -> pol (length pts) (gp_lagrange pts i).
Proof.
  intros H. apply (pol_le (S (length (gp_others (length pts) i)))); [assert (A := others_length (length pts) i H); lia|]. apply prod_lin_pol.
Qed.
Lemma nodup_nth_neq (pts : list R) i j : NoDup pts -> (i < length pts)%nat -> (j < length pts)%nat -> i <> j -> nth i pts 0 - nth j pts 0 <> 0.
Proof. intros H Hi Hj N E. apply N. apply (proj1 (NoDup_nth pts 0) H i j Hi Hj). lra. Qed.
Lemma lagrange_at pts i m : NoDup pts -> (i < length pts)%nat -> (m < length pts)%nat -> gp_lagrange pts i (nth m pts 0) = if (m =? i)%nat then 1 else 0.
Proof.
  intros Hd Hi Hm. unfold gp_lagrange. destruct (Nat.eqb_spec m i) as [-> | N].
  - assert (G : forall l, (forall j, In j l -> (j < length pts)%nat /\ j <> i) -> fold_right Rmult 1 (map (fun j => (nth i pts 0 - nth j pts 0) / (nth i pts 0 - nth j pts 0)) l) = 1).
    { induction l as [|j l IH]; intros H; cbn; auto. rewrite IH by (intros; apply H; right; auto). destruct (H j (or_introl eq_refl)). field. apply nodup_nth_neq; auto. }
    apply G. intros j Hj. apply others_in; auto.
  - assert (G : forall l, In m l -> fold_right Rmult 1 (map (fun j => (nth m pts 0 - nth j pts 0) / (nth i pts 0 - nth j pts 0)) l) = 0).
    { induction l as [|j l IH]; intros []; cbn; [subst; unfold Rdiv; ring|]. rewrite IH by auto. ring. }
    apply G. apply others_in. auto.
Qed.
Lemma Rsum_single {A} (f : A -> R) (g : A -> bool) l a : In a l -> NoDup l -> (forall b, In b l -> b <> a -> f b = 0) -> Rsum (map f l) = f a.
Proof.
  induction l as [|b l IH]; intros Hin Hd H; [destruct Hin|]. inversion Hd; subst. cbn [map Rsum]. destruct Hin as [-> | Hin].
  - rewrite Rsum_map_zero; [ring|]. intros c Hc. apply H; [right; auto|]. intros ->. auto.
  - rewrite (H b); [|left; auto|intros ->; auto]. rewrite IH; auto; [ring|]. intros c Hc. apply H. right; auto.
Qed.
Lemma lagrange_interp pts f : NoDup pts -> pol (length pts) f ->
  forall x, Rsum (map (fun i => f (nth i pts 0) * gp_lagrange pts i x) (seq 0 (length pts))) = f x.
Proof.
  intros Hd Hf. apply (pol_unique pts); auto.
  - apply pol_sum. intros i Hi. apply in_seq in Hi. apply pol_scal. apply lagrange_pol. lia.
  - intros x Hx. destruct (In_nth _ _ 0 Hx) as [m [Hm E]]. rewrite <- E.
    rewrite (Rsum_single _ (fun _ => true) _ m).
    + rewrite lagrange_at by auto. rewrite Nat.eqb_refl. ring.
    + apply in_seq. lia.
    + apply seq_NoDup.
    + intros i Hi N. apply in_seq in Hi. rewrite lagrange_at by (auto; lia). destruct (Nat.eqb_spec m i); [congruence|]. ring.
Qed.

(* ------------------------------------------------------------------ _get_weights *)
Definition gp_k (n : nat) : nat := if (n mod 2 =? 0)%nat then (n / 2 - 1)%nat else ((n + 1) / 2)%nat.
Definition leg_rule (leggauss : nat -> list R * list R) (k : nat) : rule1 := List.combine (snd (leggauss k)) (fst (leggauss k)).
Lemma get_weights_run lg pts : NoDup pts -> (1 <= gp_k (length pts))%nat ->
  gp_get_weights lg pts = Some (map (fun i => apply1 (leg_rule lg (gp_k (length pts))) (gp_lagrange pts i)) (seq 0 (length pts))).
Proof.
  intros Hd Hk. unfold gp_get_weights. fold (gp_k (length pts)). apply opt_list_map. intros i Hi. apply in_seq in Hi.
  rewrite (proj2 (Nat.leb_le _ _) Hk). cbn [guard].
  replace (forallb _ _) with true; [cbn [guard]|].
  - unfold leg_rule. destruct (lg (gp_k (length pts))) as [p w]. cbn [fst snd]. f_equal. rewrite c1_integrate_apply.
    replace (Rabs (1 - -1) / 2) with 1 by (rewrite Rabs_right by lra; lra). rewrite Rmult_1_l. apply apply1_ext'. intros x. f_equal. lra.
  - symmetry. apply forallb_forall. intros j Hj. apply others_in in Hj. unfold Reqz. destruct (Req_EM_T _ 0) as [E|E]; auto. exfalso. revert E. apply nodup_nth_neq; auto; lia.
Qed.
Lemma get_weights_some lg pts w : gp_get_weights lg pts = Some w -> (2 <= length pts)%nat -> NoDup pts /\ (1 <= gp_k (length pts))%nat.
Proof.
  intros H Hn. unfold gp_get_weights in H. fold (gp_k (length pts)) in H.
  assert (G : forall (f : nat -> option R) l w, opt_list f l = Some w -> forall i, In i l -> exists v, f i = Some v).
  { intros f. induction l as [|a l IH]; intros w' E i []; cbn in E; destruct (f a) as [v|] eqn:Ea; cbn in E; try discriminate.
    - subst. eauto.
    - destruct (opt_list f l) eqn:El; cbn in E; [|discriminate]. eapply IH; eauto. }
  assert (K : forall i, In i (seq 0 (length pts)) -> (1 <= gp_k (length pts))%nat /\ forall j, In j (gp_others (length pts) i) -> nth i pts 0 - nth j pts 0 <> 0).
  { intros i Hi. destruct (G _ _ _ H i Hi) as [v E]. destruct (1 <=? gp_k (length pts))%nat eqn:E1; cbn [guard] in E; [|discriminate].
    match type of E with guard ?b _ = _ => destruct b eqn:E2 end; cbn [guard] in E; [|discriminate]. split; [apply Nat.leb_le; auto|].
    intros j Hj. rewrite forallb_forall in E2. specialize (E2 j Hj). unfold Reqz in E2. destruct (Req_EM_T _ 0); [discriminate|auto]. }
  split; [|apply (K 0%nat); apply in_seq; lia]. apply (NoDup_nth pts 0). intros i j Hi Hj E. destruct (Nat.eq_dec i j) as [|N]; auto. exfalso.
  apply (proj2 (K i ltac:(apply in_seq; lia)) j); [apply others_in; lia|lra].
Qed.
Lemma rule_seq (g : nat -> R) pts : List.combine (map g (seq 0 (length pts))) pts = map (fun i => (g i, nth i pts 0)) (seq 0 (length pts)).
Proof.
  rewrite (combine_nth_seq _ pts 0 0) by (rewrite map_length, seq_length; auto). rewrite map_length, seq_length. apply map_ext_in. intros i Hi. apply in_seq in Hi. f_equal.
  rewrite (nth_indep _ 0 (g 0%nat)) by (rewrite map_length, seq_length; lia). rewrite map_nth. f_equal. apply seq_nth. lia.
Qed.
(** The rule with these weights gives polynomials of degree < n the value of the k-point Gauss rule. *)
Theorem get_weights_gauss lg pts w : NoDup pts -> (1 <= gp_k (length pts))%nat -> gp_get_weights lg pts = Some w ->
  length w = length pts /\ forall f, pol (length pts) f -> apply1 (List.combine w pts) f = apply1 (leg_rule lg (gp_k (length pts))) f.
Proof.
  intros Hd Hk H. rewrite (get_weights_run lg pts Hd Hk) in H. injection H as <-. split; [rewrite map_length, seq_length; auto|]. intros f Hf. rewrite rule_seq.
  unfold apply1 at 1. rewrite map_map. cbn [fst snd]. rewrite <- (apply1_ext' _ _ _ (lagrange_interp pts f Hd Hf)).
  rewrite (apply1_sum _ (fun i x => f (nth i pts 0) * gp_lagrange pts i x)). apply Rsum_map_ext. intros i _. rewrite apply1_scal. ring.
Qed.
Lemma gp_k_odd n : Nat.odd n = true -> (1 <= gp_k n /\ 2 * gp_k n = n + 1)%nat.
Proof.
  intros H. apply Nat.odd_spec in H. destruct H as [m ->]. unfold gp_k. replace ((2 * m + 1) mod 2)%nat with 1%nat by (rewrite Nat.add_comm, Nat.mul_comm, Nat.mod_add; auto).
  cbn [Nat.eqb]. replace (2 * m + 1 + 1)%nat with ((m + 1) * 2)%nat by lia. rewrite Nat.div_mul by auto. lia.
Qed.
Lemma gp_k_even n : Nat.even n = true -> (gp_k n = n / 2 - 1 /\ n = 2 * (n / 2))%nat.
Proof.
  intros H. apply Nat.even_spec in H. destruct H as [m ->]. unfold gp_k. replace ((2 * m) mod 2)%nat with 0%nat by (rewrite Nat.mul_comm, Nat.mod_mul; auto).
  cbn [Nat.eqb]. split; auto. rewrite (Nat.mul_comm 2 m), Nat.div_mul by auto. lia.
Qed.
Theorem get_weights_odd lg pts : leggauss_ok lg -> NoDup pts -> Nat.odd (length pts) = true ->
  exists w, gp_get_weights lg pts = Some w /\ length w = length pts /\ exact1 (length pts - 1) (List.combine w pts).
Proof.
  intros Hl Hd Ho. destruct (gp_k_odd _ Ho) as [K1 K2]. eexists. split; [apply get_weights_run; auto|].
  destruct (get_weights_gauss lg pts _ Hd K1 (get_weights_run lg pts Hd K1)) as [L H]. split; auto.
  apply exact1_of_pol. intros f Hf. assert (Hp : (length pts <> 0)%nat) by (intros E; rewrite E in Ho; discriminate).
  rewrite H by (apply (pol_le (S (length pts - 1))); [lia|auto]). apply (exact1_pol (2 * gp_k (length pts) - 1)).
  - apply Hl. auto.
  - apply (pol_le (S (length pts - 1))); [lia|auto].
Qed.
Lemma combine_snd {A B} (l : list A) : forall (m : list B), length l = length m -> map snd (List.combine l m) = m.
Proof. induction l as [|a l IH]; intros [|b m] H; cbn in *; try lia; auto. f_equal. apply IH. lia. Qed.
Lemma combine_fst {A B} (l : list A) : forall (m : list B), length l = length m -> map fst (List.combine l m) = l.
Proof. induction l as [|a l IH]; intros [|b m] H; cbn in *; try lia; auto. f_equal. apply IH. lia. Qed.
Theorem get_weights_odd_symmetric lg pts : leggauss_ok lg -> NoDup pts -> Nat.odd (length pts) = true -> (forall x, In x pts -> In (- x) pts) ->
  exists w, gp_get_weights lg pts = Some w /\ length w = length pts /\ exact1 (length pts) (List.combine w pts).
Proof.
  intros Hl Hd Ho Hs. destruct (get_weights_odd lg pts Hl Hd Ho) as [w [E [L H]]]. exists w. split; auto. split; auto. apply symmetric_bonus; auto.
  - rewrite combine_length. lia.
  - rewrite combine_snd by auto. auto.
  - rewrite combine_snd by auto. auto.
Qed.

(* ------------------------------------------------------------------ an even number of points *)
Lemma psq_RInt_pos l : 0 < RInt (peval (psq l)) (-1) 1.
Proof.
  destruct (avoid l (-1) 1 ltac:(lra)) as [u [v [Hu [Huv [Hv Ha]]]]].
  assert (X : forall a b, ex_RInt (peval (psq l)) a b) by (intros; apply peval_ex_RInt).
  rewrite <- (RInt_Chasles _ (-1) u 1) by auto. rewrite <- (RInt_Chasles _ u v 1) by auto.
  change (0 < RInt (peval (psq l)) (-1) u + (RInt (peval (psq l)) u v + RInt (peval (psq l)) v 1)).
  assert (A : 0 <= RInt (peval (psq l)) (-1) u) by (apply RInt_ge_0; auto; intros; apply psq_ge).
  assert (B : 0 <= RInt (peval (psq l)) v 1) by (apply RInt_ge_0; auto; intros; apply psq_ge).
  assert (C : 0 < RInt (peval (psq l)) u v).
  { apply RInt_gt_0; auto; [|intros; apply peval_continuous]. intros x Hx. apply psq_pos. intros Q. apply (Ha x Q). auto. }
  lra.
Qed.
Theorem too_many1 q : ~ exact1 (2 * length q) q.
Proof.
  intros H. assert (P := psq_RInt_pos (map snd q)). rewrite <- H in P by (assert (L := psq_length (map snd q)); rewrite map_length in L; lia).
  rewrite apply1_0 in P; [lra|]. intros x Hx. apply psq_0; auto.
Qed.
Theorem get_weights_even lg pts w : leggauss_ok lg -> Nat.even (length pts) = true -> (4 <= length pts)%nat -> NoDup pts -> gp_get_weights lg pts = Some w ->
  exact1 (length pts - 3) (List.combine w pts) /\ ~ exact1 (length pts - 2) (List.combine w pts).
Proof.
  intros Hl He Hn Hd H. destruct (gp_k_even _ He) as [K1 K2]. assert (K3 : (1 <= gp_k (length pts))%nat) by lia.
  destruct (get_weights_gauss lg pts w Hd K3 H) as [L G]. destruct (Hl _ K3) as [L1 [L2 E]]. fold (leg_rule lg (gp_k (length pts))) in E. split.
  - apply exact1_of_pol. intros f Hf. rewrite G by (apply (pol_le (S (length pts - 3))); [lia|auto]). apply (exact1_pol (2 * gp_k (length pts) - 1)); auto. apply (pol_le (S (length pts - 3))); [lia|auto].
  - intros X. apply (too_many1 (leg_rule lg (gp_k (length pts)))). apply exact1_of_pol. intros f Hf.
    assert (Lr : length (leg_rule lg (gp_k (length pts))) = gp_k (length pts)) by (unfold leg_rule; rewrite combine_length; lia). rewrite Lr in Hf.
    rewrite <- G by (apply (pol_le (S (2 * gp_k (length pts)))); [lia|auto]). apply (exact1_pol (length pts - 2)); auto. apply (pol_le (S (2 * gp_k (length pts)))); [lia|auto].
Qed.
