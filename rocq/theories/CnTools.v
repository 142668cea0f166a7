(** Tactics and lemmas for exactness of fully symmetric rules. *)
From Coq Require Import Reals List Arith Lia Lra Permutation Bool.
From Verif Require Import Spec RsumLemmas CombModel CombProofs CombProofs2 Moments SymExact
  IntegralSpec IntegralProofs PyBase SymmModel SymmProofs MiscModel CnModel SchemeTools.
Import ListNotations.
Open Scope R_scope.

Definition cubeI (n : nat) (k : list nat) : R := cube_mean n (mono k).

Lemma cubeI_perm n k k' : Permutation k k' -> length k = n -> cubeI n k = cubeI n k'.
Proof.
  intros H Hk. unfold cubeI. rewrite !cube_mean_mono; auto.
  - apply cube_moment_perm; auto.
  - rewrite <- (Permutation_length H). auto.
Qed.
Lemma cubeI_odd n k : length k = n -> existsb Nat.odd k = true -> cubeI n k = 0.
Proof. intros Hk H. unfold cubeI. rewrite cube_mean_mono by auto. apply cube_moment_odd; auto. Qed.
Lemma cubeI_canon n l m : (length l + m)%nat = n -> cubeI n (l ++ repeat 0%nat m) = cube_moment l.
Proof.
  intros H. unfold cubeI. rewrite cube_mean_mono by (rewrite app_length, repeat_length; auto).
  apply cube_moment_zeros.
Qed.

Lemma cube_exact_even n d gs :
  (forall g, In g gs -> ok_group n g) ->
  (forall g, In g gs -> even_group g) ->
  (forall l, In l (eparts d) -> (length l <= n)%nat ->
     Rsum (map (fun g => fst g * (gnum g * gavg g (INR n) l)) gs) = cube_moment l) ->
  exact n d (cubeI n) (sym_rule gs).
Proof.
  intros H1 H2 H3. apply sym_exact_even; auto.
  - apply cubeI_perm.
  - apply cubeI_odd.
  - intros l m Hl Hn. rewrite cubeI_canon by auto. apply H3; auto. lia.
Qed.

Lemma mean_pm_2 r : mean [r; - r] 2 = r * r.
Proof. replace (r * r) with ((r * r) ^ 1) by ring. apply (mean_pm_even r 1). Qed.
Lemma mean_pm_4 r : mean [r; - r] 4 = (r * r) ^ 2.
Proof. apply (mean_pm_even r 2). Qed.
Lemma mean_pm_6 r : mean [r; - r] 6 = (r * r) ^ 3.
Proof. apply (mean_pm_even r 3). Qed.
Lemma mean_pm_8 r : mean [r; - r] 8 = (r * r) ^ 4.
Proof. apply (mean_pm_even r 4). Qed.
Lemma mean_z_S a : mean [0] (S a) = 0.
Proof. rewrite mean_single. apply pow_ne_zero. lia. Qed.

Ltac ok_groups :=
  let g := fresh "g" in let Hg := fresh "Hg" in
  intros g Hg; cbn [In] in Hg;
  repeat (destruct Hg as [<-|Hg];
    [split; [cbn; lia|
      let e := fresh "e" in let He := fresh "He" in
      intros e He; cbn in He; repeat (destruct He as [<-|He]; [discriminate|]); destruct He]|]);
  try destruct Hg.
Ltac even_groups :=
  let g := fresh "g" in let Hg := fresh "Hg" in
  intros g Hg; cbn [In] in Hg;
  repeat (destruct Hg as [<-|Hg];
    [let e := fresh "e" in let a := fresh "a" in let He := fresh "He" in let Ha := fresh "Ha" in
     intros e a He Ha; cbn in He;
     repeat (destruct He as [<-|He]; [first [apply mean_pm_odd; exact Ha | apply mean_0_odd; exact Ha]|]);
     destruct He|]);
  try destruct Hg.
(** Case split over the canonical exponents. *)
Ltac split_parts Hl :=
  cbn in Hl; repeat (destruct Hl as [<-|Hl]); try destruct Hl.
Ltac exp_avg := unfold gavg, emeans, ecounts; cbn [map fst snd avg decR nth length seq Rsum].
Ltac red_means := rewrite ?mean_pm_2, ?mean_pm_4, ?mean_pm_6, ?mean_pm_8, ?mean_z_S.


Ltac is_lit k := lazymatch k with O => idtac | S ?m => is_lit m end.
Ltac inr_lits :=
  repeat match goal with
  | |- context [INR ?k] => is_lit k; let r := eval cbv in (Z.of_nat k) in
      replace (INR k) with (IZR r) by (simpl; lra)
  end.
Lemma INR_sub_nz n c : (c < n)%nat -> INR n - INR c <> 0.
Proof. intros H. rewrite <- minus_INR by lia. apply not_0_INR. lia. Qed.
Lemma INR_nz n : (0 < n)%nat -> INR n <> 0.
Proof. intros H. apply not_0_INR. lia. Qed.
Lemma pow2_nz n : 2 ^ n <> 0.
Proof. apply pow_nonzero. lra. Qed.
(** Facts INR n - c <> 0 for the dimensions at hand. *)
Ltac nz_facts n :=
  try (assert (INR n <> 0) by (apply INR_nz; lia));
  try (assert (INR n - 1 <> 0) by (apply (INR_sub_nz n 1); lia));
  try (assert (INR n - 2 <> 0) by (replace 2 with (INR 2) by (simpl; lra); apply (INR_sub_nz n 2); lia));
  try (assert (INR n - 3 <> 0) by (replace 3 with (INR 3) by (simpl; lra); apply (INR_sub_nz n 3); lia));
  assert (2 ^ n <> 0) by apply pow2_nz.
Ltac num_groups :=
  rewrite ?gnum_z, ?gnum_pm; rewrite ?gnum_1, ?gnum_2, ?gnum_3, ?gnum_4, ?gnum_11 by lia.
Ltac moment_lhs n Hn :=
  cbn [length] in Hn; cbn [map fst snd Rsum]; num_groups; exp_avg; red_means; cbn [length];
  rewrite ?minus_INR by lia.
Ltac prep n := inr_lits; rewrite ?pow1; nz_facts n; generalize dependent (INR n).
Ltac cube_rhs := unfold cube_moment; cbn [map Nat.even Rprod].

(* ------------------------------------------------------- running a constructor *)
Lemma bind_sqrt {B} (P : option B -> Prop) x (f : R -> option B) :
  0 <= x -> (forall r, 0 <= r -> r * r = x -> P (f r)) -> P (bind (rsqrt x) f).
Proof.
  intros H Hf. rewrite rsqrt_ok by auto. cbn [bind]. apply Hf; [apply sqrt_pos|apply sqrt_sqrt; auto].
Qed.
Lemma bind_div {B} (P : option B -> Prop) a b (f : R -> option B) :
  b <> 0 -> (forall c, c = a / b -> P (f c)) -> P (bind (rdiv a b) f).
Proof. intros H Hf. rewrite rdiv_ok by auto. cbn [bind]. apply Hf. auto. Qed.
Lemma bind_fsd {B} (P : option B -> Prop) n ts (f : list point -> option B) :
  (list_sum (map snd ts) <= n)%nat ->
  P (f (combine (map (fun it => ([fst it; - fst it], snd it)) ts ++ [([0], (n - list_sum (map snd ts))%nat)]))) ->
  P (bind (Rfsd n ts) f).
Proof.
  intros H Hf. unfold Rfsd, fsd. destruct (Nat.leb_spec (list_sum (map snd ts)) n); [|lia]. exact Hf.
Qed.
Lemma bind_guard {B} (P : option B -> Prop) b (f : option B) : b = true -> P f -> P (guard b f).
Proof. intros -> H. exact H. Qed.
Lemma bind_Some {A B} (P : option B -> Prop) a (f : A -> option B) : P (f a) -> P (bind (Some a) f).
Proof. auto. Qed.

(* ------------------------------------------------------- fully symmetric functionals *)
(** I is invariant under permutations, vanishes on odd exponents, and its value on x^(l,0,...,0) is mom l. *)
Definition fs_functional (n : nat) (I mom : list nat -> R) : Prop :=
  (forall k k', Permutation k k' -> length k = n -> I k = I k') /\
  (forall k, length k = n -> existsb Nat.odd k = true -> I k = 0) /\
  (forall l m, (length l + m)%nat = n -> I (l ++ repeat 0%nat m) = mom l).

Lemma cube_fs n : fs_functional n (cubeI n) cube_moment.
Proof. split; [apply cubeI_perm|]. split; [apply cubeI_odd|apply cubeI_canon]. Qed.

Lemma fs_exact_even n d I mom gs : fs_functional n I mom ->
  (forall g, In g gs -> ok_group n g) ->
  (forall g, In g gs -> even_group g) ->
  (forall l, In l (eparts d) -> (length l <= n)%nat ->
     Rsum (map (fun g => fst g * (gnum g * gavg g (INR n) l)) gs) = mom l) ->
  exact n d I (sym_rule gs).
Proof.
  intros [F1 [F2 F3]] H1 H2 H3. apply sym_exact_even; auto.
  intros l m Hl Hn. rewrite F3 by auto. apply H3; auto. lia.
Qed.
