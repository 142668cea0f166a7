(** Newton-Cotes rules. *)
From Coq Require Import Reals List Arith ZArith Lia Lra FinFun.
From Coquelicot Require Import Coquelicot.
From Verif Require Import Spec Spec1 RsumLemmas IntegralProofs IntegralPoly SphereInt C1Tools Interp PyBase UnModel C1Model C1Proofs.
Import ListNotations.
Set Bullet Behavior "Strict Subproofs".
Open Scope R_scope.

Definition others (is : list nat) (r : nat) : list nat := filter (fun i => negb (i =? r)%nat) is.
Lemma nc_prod_vanish is r t : nc_prod is r t = vanish (map INR (others is r)) t.
Proof. unfold nc_prod, vanish, others. rewrite map_map. auto. Qed.
Lemma others_in is r i : In i (others is r) <-> In i is /\ i <> r.
Proof. unfold others. rewrite filter_In. split; intros [A B]; split; auto; destruct (Nat.eqb_spec i r); cbn in *; auto; discriminate. Qed.
Lemma others_length is r : NoDup is -> In r is -> length (others is r) = (length is - 1)%nat.
Proof.
  induction 1 as [|a is Ha Hn IH]; intros H; [destruct H|]. unfold others in *. cbn [filter]. destruct (Nat.eqb_spec a r) as [-> | Hne]; cbn [negb].
  - cbn [length]. replace (S (length is) - 1)%nat with (length is) by lia. f_equal. clear -Ha. induction is as [|b is IH]; cbn; auto. destruct (Nat.eqb_spec b r) as [-> | _]; [exfalso; apply Ha; left; auto|]. cbn. rewrite IH; auto. intros G. apply Ha. right. auto.
  - cbn [length]. destruct H as [-> | H]; [contradiction|]. rewrite IH by auto. destruct is; [destruct H|cbn; lia].
Qed.
Lemma nc_prod_other is r i : In i is -> i <> r -> nc_prod is r (INR i) = 0.
Proof. intros H Hn. rewrite nc_prod_vanish. apply vanish_in. apply in_map. apply others_in. auto. Qed.
Lemma nc_prod_self is r : nc_prod is r (INR r) <> 0.
Proof. rewrite nc_prod_vanish. apply vanish_nz. rewrite in_map_iff. intros [i [E H]]. apply INR_eq in E. subst. apply others_in in H. tauto. Qed.
Lemma nc_prod_pol is r : NoDup is -> In r is -> pol (length is) (nc_prod is r).
Proof.
  intros Hn H. apply (pol_ext _ (vanish (map INR (others is r)))); [intros; symmetry; apply nc_prod_vanish|].
  apply (pol_le (S (length (map INR (others is r))))); [|apply vanish_pol]. rewrite map_length, others_length by auto. destruct is; [destruct H|cbn; lia].
Qed.
Lemma NoDup_map_INR is : NoDup is -> NoDup (map INR is).
Proof. intros H. apply Injective_map_NoDup; auto. intros a b E. apply INR_eq. auto. Qed.
Lemma lagrange is g : NoDup is -> pol (length is) g -> forall t, g t = Rsum (map (fun r => g (INR r) / nc_prod is r (INR r) * nc_prod is r t) is).
Proof.
  intros Hn Hg. apply (pol_unique (map INR is)); [apply NoDup_map_INR; auto|rewrite map_length; auto| |].
  - rewrite map_length. apply (pol_sum (length is) is (fun r t => g (INR r) / nc_prod is r (INR r) * nc_prod is r t)). intros r Hr. apply pol_scal. apply nc_prod_pol; auto.
  - intros x Hx. apply in_map_iff in Hx. destruct Hx as [i [<- Hi]].
    transitivity (Rsum (map (fun r => if (r =? i)%nat then g (INR i) else 0) is)).
    + clear Hg. induction Hn as [|a is Ha Hn IH]; [destruct Hi|]. cbn [map Rsum]. destruct Hi as [-> | Hi].
      * rewrite Nat.eqb_refl, Rsum_map_zero; [ring|]. intros r Hr. destruct (Nat.eqb_spec r i); auto. subst. contradiction.
      * rewrite <- IH by auto. destruct (Nat.eqb_spec a i); [subst; contradiction|ring].
    + apply Rsum_map_ext. intros r Hr. destruct (Nat.eqb_spec r i) as [-> | Hne].
      * field. apply nc_prod_self.
      * rewrite (nc_prod_other is r i) by auto. ring.
Qed.
Lemma pol_continuous m f x : pol m f -> continuous f x.
Proof. intros [c [L E]]. apply (continuous_ext (peval c)); [intros; symmetry; apply E|]. apply peval_continuous. Qed.
Lemma pol_is_RInt m f a b : pol m f -> is_RInt f a b (RInt f a b).
Proof. intros H. apply (@RInt_correct R_CompleteNormedModule). apply (@ex_RInt_continuous R_CompleteNormedModule). intros. eapply pol_continuous. eauto. Qed.

Definition nc_weight (n : nat) (is : list nat) (r : nat) : R := 2 / INR n * (RInt (nc_prod is r) 0 (INR n) / nc_prod is r (INR r)).
Definition nc_rule (n : nat) (is : list nat) : rule1 := map (fun r => (nc_weight n is r, -1 + INR r * (2 / INR n))) is.
Theorem nc_exact n is : (1 <= n)%nat -> NoDup is -> (1 <= length is)%nat -> exact1 (length is - 1) (nc_rule n is).
Proof.
  intros Hn Hnd Hl. assert (P : INR n <> 0) by (apply not_0_INR; lia). apply exact1_of_pol. intros f Hf. replace (S (length is - 1)) with (length is) in Hf by lia.
  set (g := fun t => f (-1 + 2 / INR n * t)). assert (Hg : pol (length is) g) by (apply pol_comp; auto).
  assert (I : is_RInt f (2 / INR n * 0 + -1) (2 / INR n * INR n + -1) (RInt f (-1) 1)).
  { replace (2 / INR n * 0 + -1) with (-1) by (field; auto). replace (2 / INR n * INR n + -1) with 1 by (field; auto). eapply pol_is_RInt. eauto. }
  apply (is_RInt_comp_lin f) in I.
  assert (J : is_RInt (fun y => scal (2 / INR n) (f (2 / INR n * y + -1))) 0 (INR n) (2 / INR n * Rsum (map (fun r => g (INR r) / nc_prod is r (INR r) * RInt (nc_prod is r) 0 (INR n)) is))).
  { apply (is_RInt_ext (fun y => 2 / INR n * Rsum (map (fun r => g (INR r) / nc_prod is r (INR r) * nc_prod is r y) is))).
    - intros y _. rewrite <- (lagrange is g Hnd Hg). unfold g, scal. cbn. unfold mult. cbn. f_equal. f_equal. ring.
    - apply is_RInt_scalR. apply (is_RInt_Rsum (fun r y => g (INR r) / nc_prod is r (INR r) * nc_prod is r y)). intros r Hr. apply is_RInt_scalR. apply (pol_is_RInt (length is)). apply nc_prod_pol; auto. }
  rewrite (RInt_uniq _ _ _ _ _ I J). unfold apply1, nc_rule. rewrite map_map. cbn [fst snd]. rewrite <- Rsum_map_scal. apply Rsum_map_ext. intros r Hr.
  unfold nc_weight, g. replace (-1 + INR r * (2 / INR n)) with (-1 + 2 / INR n * INR r) by ring. field. split; auto. apply nc_prod_self.
Qed.
Theorem nc_bonus n is : (1 <= n)%nat -> NoDup is -> Nat.odd (length is) = true -> (forall i, In i is -> (i <= n)%nat /\ In (n - i)%nat is) -> exact1 (length is) (nc_rule n is).
Proof.
  intros Hn Hnd Ho Hs. assert (P : INR n <> 0) by (apply not_0_INR; lia). assert (Hm0 : (length is <> 0)%nat) by (intros E; rewrite E in Ho; discriminate).
  assert (M : map snd (nc_rule n is) = map (fun r => -1 + INR r * (2 / INR n)) is) by (unfold nc_rule; rewrite map_map; auto).
  apply symmetric_bonus; auto.
  - unfold nc_rule. apply map_length.
  - rewrite M. apply Injective_map_NoDup; auto. intros a b E. apply INR_eq. assert (INR a * (2 / INR n) = INR b * (2 / INR n)) by lra. apply Rmult_eq_reg_r in H; auto.
    apply Rmult_integral_contrapositive. split; [lra|apply Rinv_neq_0_compat; auto].
  - rewrite M. intros x Hx. apply in_map_iff in Hx. destruct Hx as [i [<- Hi]]. destruct (Hs i Hi) as [Hle Hin]. apply in_map_iff. exists (n - i)%nat. split; auto. rewrite minus_INR by auto. field. auto.
  - apply nc_exact; auto. lia.
Qed.
(* ------------------------------------------------------------------ the denominators *)
Lemma others_seq s m a : (a < m)%nat -> others (seq s m) (s + a) = seq s a ++ seq (s + a + 1) (m - 1 - a).
Proof.
  intros H. replace m with (a + S (m - 1 - a))%nat at 1 by lia. rewrite seq_app. unfold others. rewrite filter_app. cbn [seq filter]. replace (s + a =? s + a)%nat with true by (symmetry; apply Nat.eqb_refl). cbn [negb].
  assert (K : forall l r, ~ In r l -> filter (fun i => negb (i =? r)%nat) l = l).
  { induction l as [|b l IH]; intros r Hr; cbn; auto. destruct (Nat.eqb_spec b r) as [-> | _]; [exfalso; apply Hr; left; auto|]. cbn. rewrite IH; auto. intros G. apply Hr. right. auto. }
  rewrite !K by (rewrite in_seq; lia). f_equal. replace (S (s + a)) with (s + a + 1)%nat by lia. reflexivity.
Qed.
Lemma vanish_app l l' t : vanish (l ++ l') t = vanish l t * vanish l' t.
Proof. unfold vanish. induction l as [|a l IH]; cbn; [ring|]. cbn in IH. rewrite IH. ring. Qed.
Lemma vanish_below s a : forall r, r = (s + a)%nat -> vanish (map INR (seq s a)) (INR r) = INR (fact a).
Proof.
  revert s. induction a as [|a IH]; intros s r ->; [reflexivity|]. cbn [seq map]. unfold vanish. cbn [map fold_right].
  change (fold_right Rmult 1 (map (fun x => INR (s + S a) - x) (map INR (seq (S s) a)))) with (vanish (map INR (seq (S s) a)) (INR (s + S a))).
  rewrite (IH (S s)) by lia. rewrite plus_INR. rewrite fact_simpl, mult_INR. ring.
Qed.
Lemma vanish_above b : forall r j, vanish (map INR (seq (r + 1 + j) b)) (INR r) * INR (fact j) = (-1) ^ b * INR (fact (j + b)).
Proof.
  induction b as [|b IH]; intros r j; [cbn [seq map plus]; unfold vanish; cbn [map fold_right pow]; rewrite Nat.add_0_r; ring|]. cbn [seq map]. unfold vanish. cbn [map fold_right].
  change (fold_right Rmult 1 (map (fun x => INR r - x) (map INR (seq (S (r + 1 + j)) b)))) with (vanish (map INR (seq (S (r + 1 + j)) b)) (INR r)).
  assert (E := IH r (S j)). replace (r + 1 + S j)%nat with (S (r + 1 + j)) in E by lia. rewrite fact_simpl, mult_INR, S_INR in E. replace (j + S b)%nat with (S j + b)%nat by lia. cbn [pow].
  rewrite !plus_INR. cbn [INR]. replace (-1 * (-1) ^ b * INR (fact (S j + b))) with (-1 * ((-1) ^ b * INR (fact (S j + b)))) by ring. rewrite <- E. ring.
Qed.
Lemma nc_denominator s m a : (a < m)%nat -> nc_prod (seq s m) (s + a) (INR (s + a)) = (-1) ^ (m - 1 - a) * INR (fact a * fact (m - 1 - a)).
Proof.
  intros H. rewrite nc_prod_vanish, others_seq, map_app, vanish_app by auto. rewrite (vanish_below s a) by auto.
  assert (E := vanish_above (m - 1 - a) (s + a) 0). rewrite !Nat.add_0_r in E. cbn [fact] in E. cbn [Nat.add] in E. change (INR 1) with 1 in E. rewrite Rmult_1_r in E. rewrite E, mult_INR. ring.
Qed.
Lemma pow_m1_sq k : (-1) ^ k * (-1) ^ k = 1.
Proof. rewrite <- Rpow_mult_distr. replace (-1 * -1) with 1 by ring. apply pow1. Qed.
Lemma pow_m1_inv k : / (-1) ^ k = (-1) ^ k.
Proof. apply (Rmult_eq_reg_l ((-1) ^ k)); [|apply pow_nonzero; lra]. rewrite pow_m1_sq. apply Rinv_r. apply pow_nonzero. lra. Qed.
(* ------------------------------------------------------------------ the two constructors *)
Lemma nc_closed_run n : (1 <= n)%nat -> exists d, newton_cotes_closed n = Some (mk_c1 d (nc_rule n (seq 0 (n + 1)))) /\ d = Z.of_nat (if Nat.even n then n + 1 else n).
Proof.
  intros Hn. assert (P : INR n <> 0) by (apply not_0_INR; lia). eexists. split; [|reflexivity]. unfold newton_cotes_closed.
  rewrite (opt_list_map _ (nc_weight n (seq 0 (n + 1)))).
  - cbn [bind]. unfold c1_scheme_of, linspace. rewrite combine_map2. unfold nc_rule. do 2 f_equal.
    + destruct (Nat.even n); auto.
    + apply map_ext. intros r. f_equal. replace (n + 1 - 1)%nat with n by lia. field. auto.
  - intros r Hr. apply in_seq in Hr. rewrite rdiv_ok by auto. f_equal. unfold nc_weight. assert (D := nc_denominator 0 (n + 1) r ltac:(lia)). cbn [Nat.add] in D. rewrite D.
    replace (n + 1 - 1 - r)%nat with (n - r)%nat by lia. unfold Rdiv. rewrite (Rinv_mult_distr ((-1) ^ (n - r))) by (try (apply pow_nonzero; lra); apply not_0_INR; pose proof (fact_neq_0 r); pose proof (fact_neq_0 (n - r)); nia).
    rewrite pow_m1_inv. ring.
Qed.
Lemma tl_linspace n : (1 <= n)%nat -> removelast (tl (linspace (-1) 1 (n + 1))) = map (fun r => -1 + INR r * ((1 - -1) / INR n)) (seq 1 (n - 1)).
Proof.
  intros H. unfold linspace. replace (n + 1 - 1)%nat with n by lia. replace (n + 1)%nat with (1 + (n - 1) + 1)%nat by lia. rewrite !seq_app, !map_app. cbn [seq map app tl Nat.add]. apply removelast_last.
Qed.
Lemma nc_open_run n : newton_cotes_open n = Some (mk_c1 (if Nat.even (n + 1) then Z.of_nat n else (Z.of_nat n - 1)%Z) (nc_rule (n + 1) (seq 1 n))).
Proof.
  assert (P : INR (n + 1) <> 0) by (apply not_0_INR; lia). unfold newton_cotes_open. replace (n + 1 - 1)%nat with n by lia. replace (n + 2)%nat with (n + 1 + 1)%nat by lia. rewrite tl_linspace by lia. replace (n + 1 - 1)%nat with n by lia.
  rewrite (opt_list_map _ (nc_weight (n + 1) (seq 1 n))).
  - cbn [bind]. unfold c1_scheme_of. rewrite combine_map2. unfold nc_rule. do 2 f_equal. apply map_ext. intros r. f_equal. field. auto.
  - intros r Hr. apply in_seq in Hr. rewrite rdiv_ok by auto. f_equal. unfold nc_weight. assert (D := nc_denominator 1 n (r - 1) ltac:(lia)). replace (1 + (r - 1))%nat with r in D by lia. rewrite D.
    replace (n - 1 - (r - 1))%nat with (n - r)%nat by lia. replace (n + 1 - r + 1)%nat with (n - r + 2)%nat by lia. rewrite pow_add.
    unfold Rdiv. rewrite (Rinv_mult_distr ((-1) ^ (n - r))) by (try (apply pow_nonzero; lra); apply not_0_INR; pose proof (fact_neq_0 (r - 1)); pose proof (fact_neq_0 (n - r)); nia).
    rewrite pow_m1_inv. ring.
Qed.
Theorem nc_closed_exact n : (1 <= n)%nat -> exact1 (if Nat.even n then n + 1 else n) (nc_rule n (seq 0 (n + 1))).
Proof.
  intros Hn. assert (L : length (seq 0 (n + 1)) = (n + 1)%nat) by apply seq_length. destruct (Nat.even n) eqn:E.
  - rewrite <- L at 1. apply nc_bonus; auto; [apply seq_NoDup| |].
    + rewrite L. replace (n + 1)%nat with (S n) by lia. rewrite Nat.odd_succ. auto.
    + intros i Hi. apply in_seq in Hi. split; [lia|]. apply in_seq. lia.
  - replace n with (length (seq 0 (n + 1)) - 1)%nat at 1 by lia. apply nc_exact; auto; [apply seq_NoDup|lia].
Qed.
Theorem nc_open_exact n : (1 <= n)%nat -> exact1 (if Nat.even (n + 1) then n else n - 1) (nc_rule (n + 1) (seq 1 n)).
Proof.
  intros Hn. assert (L : length (seq 1 n) = n) by apply seq_length. destruct (Nat.even (n + 1)) eqn:E.
  - rewrite <- L at 1. apply nc_bonus; auto; [lia|apply seq_NoDup| |].
    + rewrite L. rewrite <- Nat.even_succ. replace (S n) with (n + 1)%nat by lia. auto.
    + intros i Hi. apply in_seq in Hi. split; [lia|]. apply in_seq. lia.
  - replace (n - 1)%nat with (length (seq 1 n) - 1)%nat at 1 by lia. apply nc_exact; auto; [lia|apply seq_NoDup|lia].
Qed.
