(** The code's monomial integrals are the iterated integrals. *)
From Coq Require Import Reals List Arith Lia Lra Permutation Bool.
From Coquelicot Require Import Coquelicot.
From Verif Require Import Spec RsumLemmas IntegralSpec IntegralProofs PyBase MiscModel CnModel TnBase.
Import ListNotations.
Open Scope R_scope.

Lemma fold_left_Rmult l : forall a, fold_left Rmult l a = a * Rprod l.
Proof. induction l as [|x l IH]; intros a; cbn; [ring|]. rewrite IH. ring. Qed.
Lemma prod_list_Rprod l : prod_list l = Rprod l.
Proof. unfold prod_list. rewrite fold_left_Rmult. ring. Qed.

Lemma box_int_ext lim : forall f g, (forall x, length x = length lim -> f x = g x) -> box_int lim f = box_int lim g.
Proof.
  induction lim as [|[a b] lim IH]; intros f g H; simpl; auto.
  apply RInt_ext. intros x _. apply IH. intros xs Hx. apply H. simpl. lia.
Qed.

Definition axis_int (ak : R * R * nat) : R :=
  (snd (fst ak) ^ (snd ak + 1) - fst (fst ak) ^ (snd ak + 1)) / INR (snd ak + 1).

Lemma box_int_mono lim : forall k c, length k = length lim ->
  box_int lim (fun x => c * mono k x) = c * Rprod (map axis_int (List.combine lim k)).
Proof.
  induction lim as [|[a b] lim IH]; intros [|e k] c H; simpl in H; try lia; simpl; auto.
  rewrite (RInt_ext _ (fun x => scal (c * Rprod (map axis_int (List.combine lim k))) (x ^ e))).
  { rewrite (is_RInt_unique _ a b (scal (c * Rprod (map axis_int (List.combine lim k))) ((b ^ S e - a ^ S e) / INR (S e)))).
    { unfold axis_int at 2. cbn [fst snd]. rewrite Nat.add_1_r. unfold scal; cbn -[pow INR]; unfold mult; cbn -[pow INR]. 
      toR. ring. }
    apply (is_RInt_scal (V := R_NormedModule)). apply is_RInt_pow. }
  intros x _. rewrite (box_int_ext _ _ (fun xs => (c * x ^ e) * mono k xs)) by (intros; ring).
  rewrite IH by lia. unfold scal; cbn -[pow INR]; unfold mult; cbn -[pow INR]. toR. ring.
Qed.

Theorem monomial_ncube lim k : length k = length lim ->
  integrate_monomial_over_ncube lim k = box_int lim (mono k).
Proof.
  intros H. unfold integrate_monomial_over_ncube. rewrite prod_list_Rprod.
  rewrite (box_int_ext lim _ (fun x => 1 * mono k x)) by (intros; ring).
  rewrite box_int_mono by auto. rewrite Rmult_1_l. reflexivity.
Qed.

Lemma box_int_cube n f : box_int (repeat (-1, 1) n) f = cube_int n f.
Proof. revert f. induction n as [|n IH]; intros f; simpl; auto. apply RInt_ext. intros x _. apply IH. Qed.

Lemma ncube_cube_moment k :
  integrate_monomial_over_ncube (repeat (-1, 1) (length k)) k = 2 ^ length k * cube_moment k.
Proof.
  rewrite monomial_ncube by (rewrite repeat_length; auto). rewrite box_int_cube.
  rewrite <- (cube_mean_mono (length k)) by auto. unfold cube_mean. field. apply pow_nonzero. lra.
Qed.

(* ------------------------------------------------------------------ unit simplex *)
Lemma first_nonzero_None k : first_nonzero k = None -> k = repeat 0%nat (length k).
Proof.
  induction k as [|[|a] k IH]; simpl; auto; try discriminate.
  destruct (first_nonzero k) as [[v k2]|]; [discriminate|]. intros _. f_equal. auto.
Qed.
Lemma first_nonzero_Some k v k2 : first_nonzero k = Some (v, k2) ->
  length k2 = length k /\ list_sum k = S (list_sum k2) /\ prodfactR k = INR v * prodfactR k2.
Proof.
  revert v k2. induction k as [|[|a] k IH]; intros v k2; try discriminate.
  { simpl. destruct (first_nonzero k) as [[v' k2']|]; [|discriminate]. intros E; injection E as <- <-.
    destruct (IH _ _ eq_refl) as [H1 [H2 H3]]. simpl. split; [lia|]. split; auto.
    unfold prodfactR in *. cbn [map Rprod]. rewrite H3. ring. }
  cbn [first_nonzero]. intros E; injection E as <- <-. split; auto. split; auto.
  unfold prodfactR. cbn [map Rprod]. change (fact (S a)) with (S a * fact a)%nat. rewrite mult_INR. ring.
Qed.

Lemma imus_closed fuel : forall k, list_sum k = fuel ->
  imus_fuel fuel k = prodfactR k / INR (fact (list_sum k + length k)).
Proof.
  induction fuel as [|fuel IH]; intros k H; cbn [imus_fuel].
  all: destruct (first_nonzero k) as [[v k2]|] eqn:E.
  { apply first_nonzero_Some in E. lia. }
  { apply first_nonzero_None in E. rewrite H. cbn [Nat.add].
    replace (prodfactR k) with 1; auto. rewrite E. generalize (length k). intros m.
    unfold prodfactR. induction m; cbn [repeat map Rprod]; auto. rewrite <- IHm. simpl. ring. }
  { apply first_nonzero_Some in E. destruct E as [H1 [H2 H3]]. rewrite IH by lia.
    rewrite H1, H2, H3. change (S (list_sum k2) + length k)%nat with (S (list_sum k2 + length k)).
    change (fact (S (list_sum k2 + length k))) with (S (list_sum k2 + length k) * fact (list_sum k2 + length k))%nat.
    rewrite mult_INR. field. split; [apply INR_fact_neq_0|apply not_0_INR; lia]. }
  { apply first_nonzero_None in E. exfalso. rewrite E in H. clear -H. 
    assert (X : forall m, list_sum (repeat 0%nat m) = 0%nat) by (induction m; simpl; auto). rewrite X in H. lia. }
Qed.

Theorem monomial_unit_simplex k :
  integrate_monomial_over_unit_simplex k = simplex_int (length k) 1 (mono k).
Proof.
  unfold integrate_monomial_over_unit_simplex. rewrite imus_closed by auto.
  rewrite (simplex_int_ext _ _ _ (fun x => 1 * (mono k x * (1 - Rsum x) ^ 0))) by (intros; simpl; ring).
  rewrite simplex_int_mono. rewrite pow1. unfold tdeg. rewrite Nat.add_0_r, (Nat.add_comm (length k)).
  simpl (INR (fact 0)). field. apply INR_fact_neq_0.
Qed.
