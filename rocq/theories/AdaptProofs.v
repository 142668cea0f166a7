(** Proofs about the adaptive loop, for arbitrary value and error estimates. *)
From Coq Require Import Reals List Arith Bool Lia Lra Permutation.
From Verif Require Import Spec RsumLemmas CombModel PyBase Spec1 AdaptModel.
Import ListNotations.
Open Scope R_scope.

Lemma Rltb_true x y : Rltb x y = true <-> x < y.
Proof. unfold Rltb. destruct (Rlt_dec x y); split; auto; discriminate. Qed.
Lemma Rltb_false x y : Rltb x y = false <-> ~ x < y.
Proof. unfold Rltb. destruct (Rlt_dec x y); split; auto; try discriminate. tauto. Qed.
Lemma Rleb_true x y : Rleb x y = true <-> x <= y.
Proof. unfold Rleb. destruct (Rle_dec x y); split; auto; discriminate. Qed.

Lemma interval_length_abs a b : interval_length (a, b) = Rabs (b - a).
Proof. unfold interval_length. cbn [fst snd]. rewrite <- Rsqr_pow2. apply sqrt_Rsqr_abs. Qed.

Lemma partition_perm {A} (p : A -> bool) l :
  Permutation l (filter p l ++ filter (fun x => negb (p x)) l).
Proof.
  induction l as [|a l IH]; cbn; auto. destruct (p a); cbn.
  - constructor. exact IH.
  - etransitivity; [constructor; exact IH|]. apply Permutation_middle.
Qed.

(* ------------------------------------------------------------------ tilings *)
Lemma chain_app a b l1 l2 : chain a b (l1 ++ l2) <-> exists c, chain a c l1 /\ chain c b l2.
Proof.
  revert a. induction l1 as [|[u v] l1 IH]; intros a; cbn.
  - split; [intros H; exists a; auto|intros [c [-> H]]; auto].
  - rewrite IH. split.
    + intros [-> [H1 [c [H2 H3]]]]. exists c. auto.
    + intros [c [[-> [H1 H2]] H3]]. split; auto. split; auto. exists c. auto.
Qed.
Lemma chain_le a b l : chain a b l -> a <= b.
Proof.
  revert a. induction l as [|[u v] l IH]; intros a; cbn; [intros ->; lra|].
  intros [-> [H1 H2]]. apply IH in H2. lra.
Qed.
Lemma tiling_perm a b l l' : Permutation l l' -> tiling a b l -> tiling a b l'.
Proof. intros H [c [Hc Hch]]. exists c. split; auto. transitivity l; auto. Qed.
Lemma tiling_le a b l iv : tiling a b l -> In iv l -> a <= fst iv /\ fst iv <= snd iv /\ snd iv <= b.
Proof.
  intros [c [Hp Hc]] Hin. apply (Permutation_in iv (Permutation_sym Hp)) in Hin.
  apply in_split in Hin. destruct Hin as [l1 [l2 ->]]. destruct iv as [u v]. apply chain_app in Hc.
  destruct Hc as [w [H1 H2]]. cbn in H2. destruct H2 as [-> [H2 H3]]. apply chain_le in H1. apply chain_le in H3.
  cbn. lra.
Qed.
Lemma tiling_split a b u v w l : u <= w <= v -> tiling a b ((u, v) :: l) -> tiling a b ((u, w) :: (w, v) :: l).
Proof.
  intros Hw [c [Hp Hc]].
  assert (Hin : In (u, v) c) by (apply (Permutation_in _ (Permutation_sym Hp)); left; auto).
  apply in_split in Hin. destruct Hin as [l1 [l2 ->]].
  exists (l1 ++ (u, w) :: (w, v) :: l2). split.
  - assert (Hl : Permutation l (l1 ++ l2)) by (apply (Permutation_cons_app_inv l1 l2 (a := (u, v))); apply Permutation_sym; exact Hp).
    symmetry. etransitivity; [|apply Permutation_middle]. constructor.
    etransitivity; [|apply Permutation_middle]. constructor. exact Hl.
  - apply chain_app in Hc. destruct Hc as [s [H1 H2]]. apply chain_app. exists s. split; auto.
    cbn in H2 |- *. destruct H2 as [-> [H2 H3]]. repeat split; try lra. auto.
Qed.

Lemma midpoint_between iv : fst iv <= snd iv -> fst iv <= midpoint_of iv <= snd iv.
Proof. unfold midpoint_of. lra. Qed.

Lemma tiling_split_all a b bad : forall acc, tiling a b (acc ++ bad) -> tiling a b (acc ++ split_all bad).
Proof.
  induction bad as [|iv bad IH]; intros acc H; auto.
  assert (Hiv : fst iv <= midpoint_of iv <= snd iv).
  { apply midpoint_between. apply (tiling_le a b _ iv H). apply in_or_app. right. left. auto. }
  assert (H1 : tiling a b ((fst iv, midpoint_of iv) :: (midpoint_of iv, snd iv) :: acc ++ bad)).
  { apply tiling_split; auto. eapply tiling_perm; [|exact H]. rewrite <- surjective_pairing.
    symmetry. apply Permutation_middle. }
  specialize (IH ((fst iv, midpoint_of iv) :: (midpoint_of iv, snd iv) :: acc) H1).
  eapply tiling_perm; [|exact IH]. unfold split_all. cbn [map app].
  etransitivity; [|apply Permutation_middle]. constructor.
  rewrite !app_assoc. etransitivity; [|apply Permutation_middle]. auto.
Qed.

Section Loop.
Context (m : nat) (val err : interval -> nat -> R).
Context (eps_abs eps_rel : option R) (conn : connection) (min_len : R) (max_num : option nat).
Notation loop := (adapt_loop m val err eps_abs eps_rel conn min_len max_num).
Notation main := (adapt_main m val err eps_abs eps_rel conn min_len max_num).

(** While the loop runs, accepted and open intervals together tile [a,b], and the sums are the sums over the
    accepted ones; on return they tile by themselves. *)
Lemma loop_returned a b fuel : forall bad ngood num gv ge v e acc,
  tiling a b (acc ++ bad) ->
  (forall j, gv j = sum_over val acc j) -> (forall j, ge j = sum_over err acc j) ->
  loop fuel bad ngood num gv ge = Returned v e ->
  exists l, tiling a b l /\ (forall j, v j = sum_over val l j) /\ (forall j, e j = sum_over err l j).
Proof.
  induction fuel as [|fuel IH]; intros bad ngood num gv ge v e acc Ht Hv He H; cbn in H; [discriminate|].
  destruct bad as [|iv0 bad0] eqn:Eb.
  - injection H as <- <-. rewrite app_nil_r in Ht. exists acc. auto.
  - rewrite <- Eb in *. destruct (exceeds _ _); [discriminate|]. destruct (existsb _ _); [discriminate|].
    set (ivs := split_all bad) in *. set (p := later_good m val err eps_abs eps_rel conn gv ge ivs) in *.
    apply (IH _ _ _ _ _ _ _ (acc ++ filter p ivs)) in H; auto.
    + rewrite <- app_assoc. eapply tiling_perm; [|apply tiling_split_all; exact Ht].
      apply Permutation_app_head. apply partition_perm.
    + intros j. rewrite Hv. unfold sum_over. rewrite map_app, Rsum_app. auto.
    + intros j. rewrite He. unfold sum_over. rewrite map_app, Rsum_app. auto.
Qed.

Theorem main_returned fuel ivs v e : main fuel ivs = Returned v e ->
  exists a b l, ivs = [(a, b)] /\ a <= b /\ tiling a b l /\
    (forall j, v j = sum_over val l j) /\ (forall j, e j = sum_over err l j).
Proof.
  unfold adapt_main. match goal with |- context [forallb ?p ivs] => destruct (forallb p ivs) eqn:Ea end; [|discriminate]. cbn [andb].
  destruct (match eps_abs, eps_rel with None, None => false | _, _ => true end); [|discriminate].
  destruct (adapt_loop _ _ _ _ _ _ _ _ _ _) as [v' e'| | | | |] eqn:El; try discriminate.
  destruct (length ivs =? 1)%nat eqn:En; [|discriminate]. intros H. injection H as <- <-.
  apply Nat.eqb_eq in En. destruct ivs as [|[a b] [|]]; try discriminate.
  cbn [forallb fst snd] in Ea. rewrite andb_true_r in Ea. apply Rleb_true in Ea.
  set (p := first_good m val err eps_abs eps_rel conn) in *.
  eapply (loop_returned a b) in El; [| |reflexivity|reflexivity].
  - destruct El as [l Hl]. exists a, b, l. auto.
  - eapply tiling_perm; [apply partition_perm|]. exists [(a, b)]. split; auto. cbn. auto.
Qed.

(** Several intervals never lead to a result. *)
Theorem main_many fuel ivs v e : length ivs <> 1%nat -> main fuel ivs <> Returned v e.
Proof.
  intros Hn H. apply main_returned in H. destruct H as [a [b [l [-> _]]]]. apply Hn. auto.
Qed.

(* ------------------------------------------------------------------ tolerance *)
Lemma Rsum_lt {A} (f g : A -> R) l : l <> [] -> (forall x, In x l -> f x < g x) -> Rsum (map f l) < Rsum (map g l).
Proof.
  induction l as [|a l IH]; intros Hn H; [congruence|]. cbn. destruct l as [|b l].
  - cbn. specialize (H a (or_introl eq_refl)). lra.
  - assert (Rsum (map f (b :: l)) < Rsum (map g (b :: l))) by (apply IH; [congruence|intros; apply H; right; auto]).
    specialize (H a (or_introl eq_refl)). lra.
Qed.

(** The bound guaranteed for component j, in terms of the returned value. *)
Definition meets (c : connection) (ea er : option R) (v e : R) : Prop :=
  let bounds := opt_list ea ++ map (fun r => r * Rabs v) (opt_list er) in
  match c with
  | Any => exists bd, In bd bounds /\ e < bd
  | All => forall bd, In bd bounds -> e < bd
  end.

Lemma all_comp p j : all_components m p = true -> (j < m)%nat -> p j = true.
Proof. intros H Hj. apply (proj1 (forallb_forall _ _) H). apply in_seq. lia. Qed.

(** Per interval condition after [connect]: a bound among the allowances holds (Any) or all hold (All). *)
Lemma later_good_bound gv ge ivs iv j : (j < m)%nat -> later_good m val err eps_abs eps_rel conn gv ge ivs iv = true ->
  let total := Rsum (map interval_length ivs) in
  let v := gv j + sum_over val ivs j in
  (eps_abs <> None \/ eps_rel <> None) ->
  total <> 0 /\
  match conn with
  | Any => exists bd, In bd (opt_list eps_abs ++ map (fun r => r * Rabs v) (opt_list eps_rel)) /\
             err iv j < (bd - ge j) * (interval_length iv / total)
  | All => forall bd, In bd (opt_list eps_abs ++ map (fun r => r * Rabs v) (opt_list eps_rel)) ->
             err iv j < (bd - ge j) * (interval_length iv / total)
  end.
Proof.
  intros Hj H total v Hsome. unfold later_good in H. fold total in H.
  destruct (Req_EM_T total 0) as [E|E].
  { exfalso. destruct conn, eps_abs as [ea|], eps_rel as [er|]; cbn in H; try (destruct Hsome; congruence);
      unfold all_components in H; rewrite ?orb_false_r, ?andb_true_r in H;
      try (apply orb_true_iff in H; destruct H as [H|H]); try (apply andb_true_iff in H; destruct H as [H _]);
      pose proof (proj1 (forallb_forall _ _) H j ltac:(apply in_seq; lia)); discriminate. }
  split; auto.
  assert (G : forall al, all_components m (fun j0 => Rltb (err iv j0) (al j0 * (interval_length iv / total))) = true ->
     err iv j < al j * (interval_length iv / total)).
  { intros al Ha. apply Rltb_true. apply (all_comp _ j) in Ha; auto. }
  destruct conn.
  - unfold connect in H. rewrite existsb_app in H. apply orb_true_iff in H. destruct H as [H|H].
    + destruct eps_abs as [ea|]; cbn in H; [|discriminate]. rewrite orb_false_r in H. apply G in H.
      exists ea. split; [left; auto|exact H].
    + destruct eps_rel as [er|]; cbn in H; [|discriminate]. rewrite orb_false_r in H. apply G in H.
      exists (er * Rabs v). split; [apply in_or_app; right; left; auto|exact H].
  - unfold connect in H. rewrite forallb_app in H. apply andb_true_iff in H. destruct H as [H1 H2].
    intros bd Hb. apply in_app_or in Hb. destruct Hb as [Hb|Hb].
    + destruct eps_abs as [ea|]; cbn in H1, Hb; [|tauto]. destruct Hb as [<-|[]]. rewrite andb_true_r in H1.
      apply G in H1. exact H1.
    + destruct eps_rel as [er|]; cbn in H2, Hb; [|tauto]. destruct Hb as [<-|[]]. rewrite andb_true_r in H2.
      apply G in H2. exact H2.
Qed.

Lemma length_nonneg iv : 0 <= interval_length iv.
Proof. apply sqrt_pos. Qed.

Lemma tau_sum ivs : Rsum (map interval_length ivs) <> 0 ->
  Rsum (map (fun iv => interval_length iv / Rsum (map interval_length ivs)) ivs) = 1.
Proof.
  intros H. unfold Rdiv. rewrite Rsum_map_scal_r. apply Rinv_r. exact H.
Qed.

(** Sum of the errors of a round in which every interval is accepted. *)
Lemma round_bound gv ge ivs j : (j < m)%nat -> ivs <> [] -> (eps_abs <> None \/ eps_rel <> None) ->
  (forall iv, In iv ivs -> later_good m val err eps_abs eps_rel conn gv ge ivs iv = true) ->
  meets conn eps_abs eps_rel (gv j + sum_over val ivs j) (ge j + sum_over err ivs j).
Proof.
  intros Hj Hne Hs Hall. set (v := gv j + sum_over val ivs j).
  set (total := Rsum (map interval_length ivs)).
  assert (Hb : forall iv, In iv ivs -> total <> 0 /\
    match conn with
    | Any => exists bd, In bd (opt_list eps_abs ++ map (fun r => r * Rabs v) (opt_list eps_rel)) /\
             err iv j < (bd - ge j) * (interval_length iv / total)
    | All => forall bd, In bd (opt_list eps_abs ++ map (fun r => r * Rabs v) (opt_list eps_rel)) ->
             err iv j < (bd - ge j) * (interval_length iv / total)
    end).
  { intros iv Hiv. apply (later_good_bound gv ge ivs iv j Hj (Hall iv Hiv) Hs). }
  assert (Htot : total <> 0).
  { destruct ivs as [|iv0 ?]; [congruence|]. apply (Hb iv0). left. auto. }
  assert (Htau : Rsum (map (fun iv => interval_length iv / total) ivs) = 1) by (apply tau_sum; auto).
  assert (Hpos : 0 < total).
  { assert (0 <= total) by (apply Rsum_nonneg; intros x Hx; apply in_map_iff in Hx; destruct Hx as [? [<- _]]; apply length_nonneg).
    lra. }
  assert (Ht0 : forall iv, 0 <= interval_length iv / total).
  { intros iv. apply Rmult_le_pos; [apply length_nonneg|]. left. apply Rinv_0_lt_compat. auto. }
  assert (Step : forall bd, (forall iv, In iv ivs -> err iv j < (bd - ge j) * (interval_length iv / total)) ->
    ge j + sum_over err ivs j < bd).
  { intros bd H. assert (sum_over err ivs j < bd - ge j); [|lra]. unfold sum_over.
    replace (bd - ge j) with ((bd - ge j) * Rsum (map (fun iv => interval_length iv / total) ivs)) by (rewrite Htau; ring).
    rewrite <- Rsum_map_scal. apply Rsum_lt; auto. }
  unfold meets. destruct conn.
  - (* the largest bound among the (at most two) works for every interval *)
    assert (Hmax : exists bd, In bd (opt_list eps_abs ++ map (fun r => r * Rabs v) (opt_list eps_rel)) /\
      forall b', In b' (opt_list eps_abs ++ map (fun r => r * Rabs v) (opt_list eps_rel)) -> b' <= bd).
    { destruct eps_abs as [ea|], eps_rel as [er|]; cbn.
      - destruct (Rle_dec ea (er * Rabs v)).
        + exists (er * Rabs v). split; auto. intros b' [<-|[<-|[]]]; lra.
        + exists ea. split; auto. intros b' [<-|[<-|[]]]; lra.
      - exists ea. split; auto. intros b' [<-|[]]; lra.
      - exists (er * Rabs v). split; auto. intros b' [<-|[]]; lra.
      - destruct Hs; congruence. }
    destruct Hmax as [bd [Hin Hle]]. exists bd. split; auto. apply Step. intros iv Hiv.
    destruct (Hb iv Hiv) as [_ [b' [Hb' Hlt]]]. eapply Rlt_le_trans; [exact Hlt|].
    apply Rmult_le_compat_r; auto. specialize (Hle b' Hb'). lra.
  - intros bd Hin. apply Step. intros iv Hiv. apply (proj2 (Hb iv Hiv) bd Hin).
Qed.

Lemma filter_all {A} (p : A -> bool) l : filter (fun x => negb (p x)) l = [] -> filter p l = l /\ forall x, In x l -> p x = true.
Proof.
  induction l as [|a l IH]; cbn; [split; [auto|tauto]|]. destruct (p a) eqn:E; cbn; [|discriminate].
  intros H. destruct (IH H) as [H1 H2]. split; [congruence|]. intros x [<-|Hx]; auto.
Qed.

Lemma loop_tolerance fuel : forall bad ngood num gv ge v e j,
  (j < m)%nat -> (eps_abs <> None \/ eps_rel <> None) -> bad <> [] ->
  loop fuel bad ngood num gv ge = Returned v e -> meets conn eps_abs eps_rel (v j) (e j).
Proof.
  induction fuel as [|fuel IH]; intros bad ngood num gv ge v e j Hj Hs Hne H; cbn in H; [discriminate|].
  destruct bad as [|iv0 bad0] eqn:Eb; [congruence|]. rewrite <- Eb in *.
  destruct (exceeds _ _); [discriminate|]. destruct (existsb _ _); [discriminate|].
  set (ivs := split_all bad) in *. set (p := later_good m val err eps_abs eps_rel conn gv ge ivs) in *.
  destruct (filter (fun iv => negb (p iv)) ivs) as [|x l] eqn:Ef.
  - destruct fuel; [discriminate|]. cbn in H. injection H as <- <-.
    destruct (filter_all p ivs Ef) as [E1 E2]. rewrite E1. apply round_bound; auto.
    unfold ivs, split_all. rewrite Eb. discriminate.
  - eapply IH in H; eauto. congruence.
Qed.

Theorem main_tolerance fuel ivs v e j : (j < m)%nat -> main fuel ivs = Returned v e ->
  meets conn eps_abs eps_rel (v j) (e j).
Proof.
  intros Hj H. destruct (main_returned _ _ _ _ H) as [a [b [_ [-> _]]]]. revert H.
  unfold adapt_main. match goal with |- context [forallb ?p _] => destruct (forallb p [(a, b)]) end; [|discriminate]. cbn [andb].
  assert (Hs : (match eps_abs, eps_rel with None, None => false | _, _ => true end) = true -> eps_abs <> None \/ eps_rel <> None).
  { destruct eps_abs; [left; congruence|]. destruct eps_rel; [right; congruence|discriminate]. }
  destruct (match eps_abs, eps_rel with None, None => false | _, _ => true end); [|discriminate].
  specialize (Hs eq_refl).
  set (p := first_good m val err eps_abs eps_rel conn).
  destruct (adapt_loop _ _ _ _ _ _ _ _ _ _) as [v' e'| | | | |] eqn:El; try discriminate.
  cbn [length Nat.eqb]. intros H. injection H as <- <-.
  cbn [filter] in El. destruct (p (a, b)) eqn:Ep; cbn [negb] in El.
  - destruct fuel; [discriminate|]. cbn in El. injection El as <- <-.
    unfold sum_over. cbn [map Rsum]. rewrite !Rplus_0_r. unfold meets.
    unfold p, first_good in Ep. destruct conn.
    + unfold connect in Ep. rewrite existsb_app in Ep. apply orb_true_iff in Ep. destruct Ep as [E|E].
      * destruct eps_abs as [ea|]; cbn in E; [|discriminate]. rewrite orb_false_r in E.
        apply (all_comp _ j) in E; auto. apply Rltb_true in E. exists ea. split; [left|]; auto.
      * destruct eps_rel as [er|]; cbn in E; [|discriminate]. rewrite orb_false_r in E.
        apply (all_comp _ j) in E; auto. apply Rltb_true in E. exists (er * Rabs (val (a, b) j)).
        split; auto. apply in_or_app. right. left. auto.
    + unfold connect in Ep. rewrite forallb_app in Ep. apply andb_true_iff in Ep. destruct Ep as [E1 E2].
      intros bd Hb. apply in_app_or in Hb. destruct Hb as [Hb|Hb].
      * destruct eps_abs as [ea|]; cbn in E1, Hb; [|tauto]. destruct Hb as [<-|[]]. rewrite andb_true_r in E1.
        apply (all_comp _ j) in E1; auto. apply Rltb_true in E1. auto.
      * destruct eps_rel as [er|]; cbn in E2, Hb; [|tauto]. destruct Hb as [<-|[]]. rewrite andb_true_r in E2.
        apply (all_comp _ j) in E2; auto. apply Rltb_true in E2. auto.
  - eapply loop_tolerance; [exact Hj|exact Hs| |exact El]. congruence.
Qed.
End Loop.
