(** Closed forms of the monomial integrals over the cube and the simplex. *)
From Coq Require Import Reals List Arith Lia Lra Permutation Bool.
From Coquelicot Require Import Coquelicot.
From Verif Require Import Spec RsumLemmas IntegralSpec.
Import ListNotations.
Open Scope R_scope.

Local Arguments INR n : simpl nomatch.
Ltac toR := match goal with |- ?a = ?b => change (@eq R a b) end.
Ltac fold_INR :=
  repeat match goal with
  | |- context [match ?a with 0%nat => 1 | S _ => INR ?a + 1 end] =>
      change (match a with 0%nat => 1 | S _ => INR a + 1 end) with (INR (S a))
  end.

(* ------------------------------------------------------------------ cube *)
Lemma cube_int_ext n : forall f g, (forall x, length x = n -> f x = g x) -> cube_int n f = cube_int n g.
Proof.
  induction n as [|n IH]; intros f g H; simpl; auto.
  apply RInt_ext. intros x _. apply IH. intros xs Hx. apply H. simpl. lia.
Qed.

Definition pow_int (a : nat) : R := if Nat.even a then 2 / INR (S a) else 0.

Lemma is_RInt_pow a l u : is_RInt (fun x => x ^ a) l u ((u ^ S a - l ^ S a) / INR (S a)).
Proof.
  replace ((u ^ S a - l ^ S a) / INR (S a)) with (u ^ S a / INR (S a) - l ^ S a / INR (S a))
    by (field; apply not_0_INR; lia).
  apply (is_RInt_derive (fun x => x ^ S a / INR (S a)) (fun x => x ^ a)).
  - intros x _. auto_derive; auto. change (pred (S a)) with a. fold_INR. field. apply not_0_INR. lia.
  - intros x _. apply (ex_derive_continuous (V := R_NormedModule)). auto_derive; auto.
Qed.

Lemma pow_m1 a : (-1) ^ S a = if Nat.even a then -1 else 1.
Proof.
  destruct (Nat.even a) eqn:E.
  - apply Nat.even_spec in E. destruct E as [b ->]. rewrite <- tech_pow_Rmult, pow_mult.
    replace ((-1)^2) with 1 by ring. rewrite pow1. ring.
  - assert (O : Nat.odd a = true) by (rewrite <- Nat.negb_even, E; auto).
    apply Nat.odd_spec in O. destruct O as [b ->].
    replace (S (2 * b + 1)) with (2 * (b + 1))%nat by lia. rewrite pow_mult.
    replace ((-1)^2) with 1 by ring. rewrite pow1. ring.
Qed.

Lemma RInt_pow_11 a c : RInt (fun x => c * x ^ a) (-1) 1 = c * pow_int a.
Proof.
  apply is_RInt_unique. unfold pow_int.
  replace (c * (if Nat.even a then 2 / INR (S a) else 0)) with (scal c ((1 ^ S a - (-1) ^ S a) / INR (S a))).
  - apply (is_RInt_scal (V := R_NormedModule)). apply is_RInt_pow.
  - unfold scal; cbn -[pow INR]; unfold mult; cbn -[pow INR].
    assert (INR (S a) <> 0) by (apply not_0_INR; lia).
    rewrite pow_m1, pow1. destruct (Nat.even a); field; auto.
Qed.

Fixpoint Rprod (l : list R) : R := match l with [] => 1 | x :: l' => x * Rprod l' end.

Lemma cube_int_mono k : forall c, cube_int (length k) (fun x => c * mono k x) = c * Rprod (map pow_int k).
Proof.
  induction k as [|a k IH]; intros c; simpl; auto.
  rewrite (RInt_ext _ (fun x => (c * Rprod (map pow_int k)) * x ^ a)).
  - rewrite RInt_pow_11. toR. ring.
  - intros x _. rewrite (cube_int_ext _ _ (fun xs => (c * x ^ a) * mono k xs)) by (intros; ring).
    rewrite IH. toR. ring.
Qed.

Definition cube_moment (k : list nat) : R :=
  Rprod (map (fun a => if Nat.even a then 1 / INR (S a) else 0) k).

Theorem cube_mean_mono n k : length k = n -> cube_mean n (mono k) = cube_moment k.
Proof.
  intros <-. unfold cube_mean.
  rewrite (cube_int_ext _ _ (fun x => 1 * mono k x)) by (intros; ring).
  rewrite cube_int_mono. unfold cube_moment.
  induction k as [|a k IH].
  - simpl. field.
  - cbn [map Rprod length]. rewrite <- IH. unfold pow_int at 1. rewrite <- tech_pow_Rmult.
    assert (2 ^ length k <> 0) by (apply pow_nonzero; lra).
    assert (INR (S a) <> 0) by (apply not_0_INR; lia).
    destruct (Nat.even a); field; auto.
Qed.

Lemma Rprod_perm l l' : Permutation l l' -> Rprod l = Rprod l'.
Proof. induction 1; simpl; [reflexivity|rewrite IHPermutation; reflexivity|ring|congruence]. Qed.

Lemma Rprod_app l l' : Rprod (l ++ l') = Rprod l * Rprod l'.
Proof. induction l; simpl; [ring|rewrite IHl; ring]. Qed.

Lemma cube_moment_perm k k' : Permutation k k' -> cube_moment k = cube_moment k'.
Proof. intros H. apply Rprod_perm. apply Permutation_map. auto. Qed.

Lemma cube_moment_odd k : existsb Nat.odd k = true -> cube_moment k = 0.
Proof.
  unfold cube_moment. induction k as [|a k IH]; simpl; [discriminate|]. intros H.
  destruct (Nat.odd a) eqn:E.
  - rewrite <- Nat.negb_odd, E. simpl. ring.
  - rewrite IH by auto. ring.
Qed.

Lemma cube_moment_zeros l m : cube_moment (l ++ repeat 0%nat m) = cube_moment l.
Proof.
  unfold cube_moment. rewrite map_app, Rprod_app.
  replace (Rprod (map _ (repeat 0%nat m))) with 1; [ring|].
  induction m; simpl; auto. rewrite <- IHm. field.
Qed.

(* ------------------------------------------------------------------ simplex *)
Lemma simplex_int_ext n : forall h f g, (forall x, length x = n -> f x = g x) ->
  simplex_int n h f = simplex_int n h g.
Proof.
  induction n as [|n IH]; intros h f g H; simpl; auto.
  apply RInt_ext. intros x _. apply IH. intros xs Hx. apply H. simpl. lia.
Qed.

Lemma is_RInt_beta b : forall a h,
  is_RInt (fun x => x ^ a * (h - x) ^ b) 0 h
    (INR (fact a) * INR (fact b) / INR (fact (a + b + 1)) * h ^ (a + b + 1)).
Proof.
  induction b as [|b IH]; intros a h.
  - apply (is_RInt_ext (fun x => x ^ a)); [intros; simpl; ring|].
    replace (INR (fact a) * INR (fact 0) / INR (fact (a + 0 + 1)) * h ^ (a + 0 + 1))
      with ((h ^ S a - 0 ^ S a) / INR (S a)); [apply is_RInt_pow|].
    replace (a + 0 + 1)%nat with (S a) by lia. rewrite fact_simpl, mult_INR.
    rewrite (pow_ne_zero (S a)) by lia. simpl (fact 0). simpl (INR 1).
    field. split; [apply INR_fact_neq_0|apply not_0_INR; lia].
  - (* derivative of x^(a+1) (h-x)^(b+1) integrates to zero *)
    assert (H0 : is_RInt (fun x => INR (S a) * (x ^ a * (h - x) ^ S b) - INR (S b) * (x ^ S a * (h - x) ^ b))
                   0 h (h ^ S a * (h - h) ^ S b - 0 ^ S a * (h - 0) ^ S b)).
    { apply (is_RInt_derive (fun x => x ^ S a * (h - x) ^ S b)).
      - intros x _. auto_derive; auto. change (pred (S a)) with a. change (pred (S b)) with b.
        change (match a with 0%nat => 1 | S _ => INR a + 1 end) with (INR (S a)).
        change (match b with 0%nat => 1 | S _ => INR b + 1 end) with (INR (S b)).
        toR. simpl. replace (h + - x) with (h - x) by ring. generalize ((h - x) ^ b) (x ^ a). intros. ring.
      - intros x _. apply (ex_derive_continuous (V := R_NormedModule)). auto_derive. auto. }
    assert (IHS := IH (S a) h).
    assert (H1 := is_RInt_scal (V := R_NormedModule) _ _ _ (INR (S b)) _ IHS).
    assert (H2 := is_RInt_plus (V := R_NormedModule) _ _ _ _ _ _ H0 H1).
    assert (H3 := is_RInt_scal (V := R_NormedModule) _ _ _ (/ INR (S a)) _ H2).
    assert (Sa : INR (S a) <> 0) by (apply not_0_INR; lia).
    assert (Sb : INR (S b) <> 0) by (apply not_0_INR; lia).
    eapply is_RInt_ext in H3.
    + eapply (eq_rect _ (fun v => is_RInt _ 0 h v)); [exact H3|].
      change ((/ INR (S a)) * ((h ^ S a * (h - h) ^ S b - 0 ^ S a * (h - 0) ^ S b) +
        INR (S b) * (INR (fact (S a)) * INR (fact b) / INR (fact (S a + b + 1)) * h ^ (S a + b + 1))) =
        INR (fact a) * INR (fact (S b)) / INR (fact (a + S b + 1)) * h ^ (a + S b + 1)).
      replace (a + S b + 1)%nat with (S a + b + 1)%nat by lia.
      replace (h - h) with 0 by ring. rewrite !(pow_ne_zero (S _)) by lia.
      rewrite (fact_simpl a), (fact_simpl b), !mult_INR.
      generalize (INR_fact_neq_0 (S a + b + 1)). generalize (INR (fact (S a + b + 1))) (h ^ (S a + b + 1)).
      intros F P HF. field. auto.
    + intros x _.
      change ((/ INR (S a)) * ((INR (S a) * (x ^ a * (h - x) ^ S b) - INR (S b) * (x ^ S a * (h - x) ^ b)) +
        INR (S b) * (x ^ S a * (h - x) ^ b)) = x ^ a * (h - x) ^ S b).
      generalize ((h - x) ^ b) ((h - x) ^ S b) (x ^ S a) (x ^ a). intros. field. auto.
Qed.

Definition prodfactR (k : list nat) : R := Rprod (map (fun a => INR (fact a)) k).

Lemma simplex_int_mono k : forall b c h,
  simplex_int (length k) h (fun x => c * (mono k x * (h - Rsum x) ^ b)) =
  c * (prodfactR k * INR (fact b) / INR (fact (length k + tdeg k + b)) * h ^ (length k + tdeg k + b)).
Proof.
  induction k as [|a k IH]; intros b c h.
  - unfold prodfactR, tdeg. simpl. replace (h - 0) with h by ring. field. apply INR_fact_neq_0.
  - simpl simplex_int.
    set (D := (length k + tdeg k + b)%nat).
    rewrite (RInt_ext _ (fun x => scal (c * (prodfactR k * INR (fact b) / INR (fact D))) (x ^ a * (h - x) ^ D))).
    + rewrite (is_RInt_unique _ _ _ _
        (is_RInt_scal (V := R_NormedModule) _ _ _ _ _ (is_RInt_beta D a h))).
      replace (length (a :: k) + tdeg (a :: k) + b)%nat with (a + D + 1)%nat
        by (unfold D, tdeg; simpl; unfold list_sum; lia).
      change (c * (prodfactR k * INR (fact b) / INR (fact D)) *
        (INR (fact a) * INR (fact D) / INR (fact (a + D + 1)) * h ^ (a + D + 1)) =
        c * (INR (fact a) * prodfactR k * INR (fact b) / INR (fact (a + D + 1)) * h ^ (a + D + 1))).
      generalize (INR_fact_neq_0 (a + D + 1)) (INR_fact_neq_0 D).
      generalize (INR (fact (a + D + 1))) (INR (fact D)) (h ^ (a + D + 1)). intros; field; auto.
    + intros x _. rewrite (simplex_int_ext _ _ _ (fun xs => (c * x ^ a) * (mono k xs * ((h - x) - Rsum xs) ^ b))).
      * rewrite IH. fold D.
        change (c * x ^ a * (prodfactR k * INR (fact b) / INR (fact D) * (h - x) ^ D) =
          c * (prodfactR k * INR (fact b) / INR (fact D)) * (x ^ a * (h - x) ^ D)).
        generalize ((h - x) ^ D). intros; field. apply INR_fact_neq_0.
      * intros xs _. simpl. replace (h - (x + Rsum xs)) with (h - x - Rsum xs) by ring. ring.
Qed.

(** n! prod k_i! / (n + |k|)! for exponents of the n+1 barycentric coordinates. *)
Definition simplex_moment (n : nat) (k : list nat) : R :=
  INR (fact n) * prodfactR k / INR (fact (n + tdeg k)).

Theorem simplex_mean_mono n k : length k = S n -> simplex_mean n (mono k) = simplex_moment n k.
Proof.
  intros Hk. destruct k as [|b k]; [discriminate|]. injection Hk as Hk.
  unfold simplex_mean, simplex_moment. subst n.
  rewrite (simplex_int_ext _ _ _ (fun x => 1 * (mono k x * (1 - Rsum x) ^ b))).
  - rewrite simplex_int_mono. rewrite pow1. unfold prodfactR. simpl.
    replace (length k + (b + tdeg k))%nat with (length k + tdeg k + b)%nat by lia.
    field. apply INR_fact_neq_0.
  - intros x _. simpl. ring.
Qed.

Lemma prodfactR_perm k k' : Permutation k k' -> prodfactR k = prodfactR k'.
Proof. intros H. apply Rprod_perm. apply Permutation_map. auto. Qed.

Lemma simplex_moment_perm n k k' : Permutation k k' -> simplex_moment n k = simplex_moment n k'.
Proof. intros H. unfold simplex_moment. rewrite (prodfactR_perm _ _ H), (tdeg_perm _ _ H). auto. Qed.

Lemma simplex_moment_zeros n l m : simplex_moment n (l ++ repeat 0%nat m) = simplex_moment n l.
Proof.
  unfold simplex_moment. rewrite tdeg_app, tdeg_zeros, Nat.add_0_r. f_equal. f_equal.
  unfold prodfactR. rewrite map_app, Rprod_app.
  replace (Rprod (map _ (repeat 0%nat m))) with 1; [ring|].
  induction m; simpl; auto. rewrite <- IHm. ring.
Qed.
