(** Clenshaw-Curtis and Fejer rules. *)
From Coq Require Import Reals List Arith ZArith Lia Lra Bool.
From Coquelicot Require Import Coquelicot.
From Verif Require Import Spec Spec1 RsumLemmas IntegralProofs IntegralPoly SphereInt C1Tools TrigSums TrigPoly Interp OrbitProofs AdaptModel PyBase UnModel C1Model C1Proofs.
Import ListNotations.
Set Bullet Behavior "Strict Subproofs".
Open Scope R_scope.

Lemma Rsum_pick s N i (f : nat -> R) : (s <= i < s + N)%nat -> Rsum (map (fun m => if (m =? i)%nat then f m else 0) (seq s N)) = f i.
Proof.
  revert s. induction N as [|N IH]; intros s H; [lia|]. cbn [seq map Rsum]. destruct (Nat.eqb_spec s i) as [-> | Hne].
  - rewrite Rsum_map_zero; [ring|]. intros m Hm. apply in_seq in Hm. destruct (Nat.eqb_spec m i); [lia|auto].
  - rewrite IH by lia. ring.
Qed.
Lemma rev_map_seq {A} (f : nat -> A) s N : rev (map f (seq s N)) = map (fun i => f (2 * s + N - 1 - i)%nat) (seq s N).
Proof.
  rewrite <- map_rev. assert (E : rev (seq s N) = map (fun i => (2 * s + N - 1 - i)%nat) (seq s N)).
  { replace (seq s N) with (map (fun i => (s + i)%nat) (seq 0 N)) at 1.
    - rewrite <- map_rev, rev_seq_map, !map_map. replace (seq s N) with (map (fun i => (s + i)%nat) (seq 0 N)).
      + rewrite map_map. apply map_ext_in. intros i Hi. apply in_seq in Hi. lia.
      + clear. revert s. induction N as [|N IH]; intros s; cbn; auto. f_equal; [lia|]. rewrite <- (IH (S s)), <- seq_shift, map_map. apply map_ext. intros. lia.
    - clear. revert s. induction N as [|N IH]; intros s; cbn; auto. f_equal; [lia|]. rewrite <- (IH (S s)), <- seq_shift, map_map. apply map_ext. intros. lia. }
  rewrite E, map_map. auto.
Qed.
Lemma Rsum_reverse s N (f : nat -> R) : Rsum (map f (seq s N)) = Rsum (map (fun i => f (2 * s + N - 1 - i)%nat) (seq s N)).
Proof. rewrite <- rev_map_seq. apply Rsum_perm. apply Permutation.Permutation_rev. Qed.
Lemma removelast_map_seq {A} (f : nat -> A) s N : removelast (map f (seq s (N + 1))) = map f (seq s N).
Proof. rewrite seq_app, map_app. cbn [seq map]. apply removelast_last. Qed.
Lemma tl_map_seq {A} (f : nat -> A) s N : tl (map f (seq s (N + 1))) = map f (seq (S s) N).
Proof. replace (N + 1)%nat with (S N) by lia. reflexivity. Qed.
Lemma rev_tl_map_seq {A} (f : nat -> A) N : rev (tl (map f (seq 0 (N + 1)))) = map (fun i => f (N - i)%nat) (seq 0 N).
Proof. rewrite tl_map_seq, rev_map_seq, <- seq_shift, map_map. apply map_ext_in. intros i Hi. apply in_seq in Hi. f_equal; lia. Qed.

(* ------------------------------------------------------------------ sums over roots of unity *)
Lemma cos_mod N p k : (1 <= N)%nat -> cos (2 * PI * INR p * INR k / INR N) = cos (2 * PI * INR (p mod N) * INR k / INR N).
Proof.
  intros H. assert (P : INR N <> 0) by (apply not_0_INR; lia). rewrite (Nat.div_mod p N) at 1 by lia. rewrite plus_INR, mult_INR.
  replace (2 * PI * (INR N * INR (p / N) + INR (p mod N)) * INR k / INR N) with (2 * PI * INR (p mod N) * INR k / INR N + 2 * INR (p / N * k) * PI) by (rewrite mult_INR; field; auto).
  apply cos_period.
Qed.
Lemma root_sum N p : (1 <= N)%nat -> Rsum (map (fun k => cos (2 * PI * INR p * INR k / INR N)) (seq 0 N)) = if (p mod N =? 0)%nat then INR N else 0.
Proof.
  intros H. assert (P : INR N <> 0) by (apply not_0_INR; lia). rewrite (Rsum_map_ext _ (fun k => cos (2 * PI * INR (p mod N) * INR k / INR N))) by (intros; apply cos_mod; auto).
  assert (B : (p mod N < N)%nat) by (apply Nat.mod_upper_bound; lia). destruct (Nat.eqb_spec (p mod N) 0) as [E|E].
  - rewrite E. rewrite (Rsum_map_ext _ (fun _ => 1)); [rewrite Rsum_map_const, seq_length; ring|]. intros k _. cbn [INR]. replace (2 * PI * 0 * INR k / INR N) with 0 by (field; auto). apply cos_0.
  - rewrite <- (krylov_cos N (p mod N)) by lia. apply Rsum_map_ext. intros k _. f_equal. field. auto.
Qed.
Lemma cos_cos a b : cos a * cos b = (cos (a + b) + cos (a - b)) / 2.
Proof. rewrite cos_plus, cos_minus. field. Qed.
Lemma root_cos_cos N m i : (m < N)%nat -> (i < N)%nat ->
  Rsum (map (fun k => cos (2 * PI * INR m * INR k / INR N) * cos (2 * PI * INR i * INR k / INR N)) (seq 0 N)) =
  INR N / 2 * ((if (m =? (N - i) mod N)%nat then 1 else 0) + (if (m =? i)%nat then 1 else 0)).
Proof.
  intros Hm Hi. assert (P : INR N <> 0) by (apply not_0_INR; lia).
  rewrite (Rsum_map_ext _ (fun k => / 2 * cos (2 * PI * INR (m + i) * INR k / INR N) + / 2 * cos (2 * PI * INR (m + (N - i)) * INR k / INR N))).
  - rewrite Rsum_map_plus, !Rsum_map_scal, !root_sum by lia.
    assert (E1 : ((m + i) mod N =? 0)%nat = (m =? (N - i) mod N)%nat).
    { destruct (Nat.eq_dec i 0) as [-> | Hi0].
      - rewrite Nat.add_0_r, Nat.mod_small, Nat.sub_0_r, Nat.mod_same by lia. auto.
      - rewrite (Nat.mod_small (N - i)) by lia. destruct (Nat.eqb_spec m (N - i)) as [-> | Hne].
        + replace (N - i + i)%nat with N by lia. rewrite Nat.mod_same by lia. auto.
        + apply Nat.eqb_neq. destruct (le_lt_dec N (m + i)).
          * replace (m + i)%nat with (m + i - N + 1 * N)%nat by lia. rewrite Nat.mod_add, Nat.mod_small by lia. lia.
          * rewrite Nat.mod_small by lia. lia. }
    assert (E2 : ((m + (N - i)) mod N =? 0)%nat = (m =? i)%nat).
    { destruct (Nat.eqb_spec m i) as [-> | Hne].
      - replace (i + (N - i))%nat with N by lia. rewrite Nat.mod_same by lia. auto.
      - apply Nat.eqb_neq. destruct (le_lt_dec N (m + (N - i))).
        + replace (m + (N - i))%nat with (m - i + 1 * N)%nat by lia. rewrite Nat.mod_add, Nat.mod_small by lia. lia.
        + rewrite Nat.mod_small by lia. lia. }
    rewrite E1, E2. destruct (m =? (N - i) mod N)%nat, (m =? i)%nat; field.
  - intros k _. rewrite cos_cos.
    replace (2 * PI * INR m * INR k / INR N + 2 * PI * INR i * INR k / INR N) with (2 * PI * INR (m + i) * INR k / INR N) by (rewrite plus_INR; field; auto).
    replace (cos (2 * PI * INR m * INR k / INR N - 2 * PI * INR i * INR k / INR N)) with (cos (2 * PI * INR (m + (N - i)) * INR k / INR N)); [field|].
    rewrite plus_INR, minus_INR by lia.
    replace (2 * PI * (INR m + (INR N - INR i)) * INR k / INR N) with (2 * PI * INR m * INR k / INR N - 2 * PI * INR i * INR k / INR N + 2 * INR k * PI) by (field; auto).
    apply cos_period.
Qed.
(* ------------------------------------------------------------------ real symmetric spectra *)
Definition spectrum_sym (N : nat) (a : nat -> R) : Prop := forall i, (0 < i < N)%nat -> a (N - i)%nat = a i.
Definition wcos (N : nat) (a : nat -> R) (k : nat) : R := / INR N * Rsum (map (fun m => a m * cos (2 * PI * INR m * INR k / INR N)) (seq 0 N)).
Lemma wcos_sum N a i : (i < N)%nat -> spectrum_sym N a -> Rsum (map (fun k => wcos N a k * cos (2 * PI * INR i * INR k / INR N)) (seq 0 N)) = a i.
Proof.
  intros Hi Hs. assert (P : INR N <> 0) by (apply not_0_INR; lia). unfold wcos.
  rewrite (Rsum_map_ext _ (fun k => Rsum (map (fun m => / INR N * a m * (cos (2 * PI * INR m * INR k / INR N) * cos (2 * PI * INR i * INR k / INR N))) (seq 0 N)))).
  2:{ intros k _. rewrite Rmult_assoc, <- Rsum_map_scal_r, <- Rsum_map_scal. apply Rsum_map_ext. intros. ring. }
  rewrite (Rsum_swap (fun k m => / INR N * a m * (cos (2 * PI * INR m * INR k / INR N) * cos (2 * PI * INR i * INR k / INR N)))).
  rewrite (Rsum_map_ext _ (fun m => / 2 * (if (m =? (N - i) mod N)%nat then a m else 0) + / 2 * (if (m =? i)%nat then a m else 0))).
  - rewrite Rsum_map_plus, !Rsum_map_scal, !Rsum_pick by (try (assert (B := Nat.mod_upper_bound (N - i) N)); lia).
    assert (E : a ((N - i) mod N)%nat = a i); [|rewrite E; field]. destruct (Nat.eq_dec i 0) as [-> | Hi0]; [rewrite Nat.sub_0_r, Nat.mod_same by lia; auto|]. rewrite Nat.mod_small by lia. apply Hs. lia.
  - intros m Hm. apply in_seq in Hm. rewrite Rsum_map_scal, root_cos_cos by lia. destruct (m =? (N - i) mod N)%nat, (m =? i)%nat; field; auto.
Qed.
Lemma wcos_sym N a k : (1 <= N)%nat -> (k <= N)%nat -> wcos N a (N - k) = wcos N a k.
Proof.
  intros HN H. assert (P : INR N <> 0) by (apply not_0_INR; lia). unfold wcos. f_equal. apply Rsum_map_ext. intros m _. f_equal. rewrite minus_INR by auto.
  replace (2 * PI * INR m * (INR N - INR k) / INR N) with (- (2 * PI * INR m * INR k / INR N) + 2 * INR m * PI) by (field; auto). rewrite cos_period. apply cos_neg.
Qed.
Lemma ihfft_re_map a N : (1 <= N)%nat -> ihfft_re (map a (seq 0 N)) = map (wcos N a) (seq 0 (N / 2 + 1)).
Proof.
  intros H. unfold ihfft_re. rewrite map_length, seq_length. apply map_ext. intros k. unfold wcos. f_equal. apply Rsum_map_ext. intros m Hm. apply in_seq in Hm. f_equal.
  rewrite (nth_indep _ 0 (a 0%nat)) by (rewrite map_length, seq_length; lia). rewrite map_nth, seq_nth by lia. auto.
Qed.
Lemma ihfft_im_map a N : (1 <= N)%nat -> spectrum_sym N a -> List.Forall (fun x => x = 0) (ihfft_im (map a (seq 0 N))).
Proof.
  intros H Hs. assert (P : INR N <> 0) by (apply not_0_INR; lia). apply List.Forall_forall. intros x Hx. unfold ihfft_im in Hx. rewrite map_length, seq_length in Hx. apply in_map_iff in Hx. destruct Hx as [k [<- _]].
  assert (Z : Rsum (map (fun m => a m * sin (2 * PI * INR m * INR k / INR N)) (seq 0 N)) = 0).
  { destruct N as [|N]; [lia|]. cbn [seq map Rsum]. change (INR 0) with 0. replace (2 * PI * 0 * INR k / INR (S N)) with 0 by (field; auto). rewrite sin_0, Rmult_0_r, Rplus_0_l.
    assert (E := Rsum_reverse 1 N (fun m => a m * sin (2 * PI * INR m * INR k / INR (S N)))).
    rewrite (Rsum_map_ext (fun i => a (2 * 1 + N - 1 - i)%nat * sin (2 * PI * INR (2 * 1 + N - 1 - i) * INR k / INR (S N))) (fun m => -1 * (a m * sin (2 * PI * INR m * INR k / INR (S N))))) in E.
    - rewrite Rsum_map_scal in E. lra.
    - intros m Hm. apply in_seq in Hm. replace (2 * 1 + N - 1 - m)%nat with (S N - m)%nat by lia. rewrite Hs, minus_INR by lia.
      replace (2 * PI * (INR (S N) - INR m) * INR k / INR (S N)) with (- (2 * PI * INR m * INR k / INR (S N)) + 2 * INR k * PI) by (field; auto). rewrite sin_period, sin_neg. ring. }
  rewrite (Rsum_map_ext _ (fun m => a m * sin (2 * PI * INR m * INR k / INR N))); [rewrite Z; ring|]. intros m Hm. apply in_seq in Hm. f_equal.
  rewrite (nth_indep _ 0 (a 0%nat)) by (rewrite map_length, seq_length; lia). rewrite map_nth, seq_nth by lia. auto.
Qed.
Lemma Rltb_0_tol : Rltb 0 (1 / 10 ^ 15) = true.
Proof. unfold Rltb. destruct Rlt_dec; auto. exfalso. apply n. apply Rdiv_lt_0_compat; [lra|apply pow_lt; lra]. Qed.
Lemma ihfft_checked_map a N : (1 <= N)%nat -> spectrum_sym N a -> ihfft_checked (map a (seq 0 N)) = Some (map (wcos N a) (seq 0 (N / 2 + 1))).
Proof.
  intros H Hs. unfold ihfft_checked. rewrite (ihfft_re_map a N H). replace (forallb _ _) with true; [reflexivity|]. symmetry. apply forallb_forall. intros x Hx.
  assert (F := ihfft_im_map a N H Hs). rewrite List.Forall_forall in F. rewrite (F x Hx). apply Rltb_0_tol.
Qed.
Lemma mirror_map a N : (1 <= N)%nat -> mirror N (map (wcos N a) (seq 0 (N / 2 + 1))) = map (wcos N a) (seq 0 (N + 1)).
Proof.
  intros H. unfold mirror. assert (D := Nat.div_mod N 2 ltac:(lia)). destruct (Nat.odd N) eqn:E.
  - assert (M : (N mod 2 = 1)%nat) by (apply Nat.odd_spec in E; destruct E as [q ->]; rewrite Nat.add_comm, Nat.mul_comm, Nat.mod_add by lia; auto).
    set (L := (N / 2)%nat) in *. replace (seq 0 (N + 1)) with (seq 0 ((L + 1) + (L + 1))) by (f_equal; lia). rewrite (seq_app (L + 1)), map_app. f_equal. rewrite rev_map_seq. cbn [Nat.add].
    replace (seq (L + 1) (L + 1)) with (map (fun i => (L + 1 + i)%nat) (seq 0 (L + 1))).
    + rewrite map_map. apply map_ext_in. intros i Hi. apply in_seq in Hi. rewrite <- (wcos_sym N a (L + 1 + i)) by lia. f_equal. lia.
    + generalize (L + 1)%nat at 1 3. intros s. generalize (L + 1)%nat. intros n. clear. revert s. induction n as [|n IH]; intros s; cbn; auto. f_equal; [lia|]. rewrite <- (IH (S s)), <- seq_shift, map_map. apply map_ext. intros. lia.
  - assert (M : (N mod 2 = 0)%nat) by (rewrite <- Nat.negb_even in E; apply negb_false_iff in E; apply Nat.even_spec in E; destruct E as [q ->]; rewrite Nat.mul_comm; apply Nat.mod_mul; lia).
    set (L := (N / 2)%nat) in *. replace (seq 0 (N + 1)) with (seq 0 ((L + 1) + L)) by (f_equal; lia). rewrite (seq_app (L + 1) L), map_app. f_equal. rewrite removelast_map_seq, rev_map_seq. cbn [Nat.add].
    replace (seq (L + 1) L) with (map (fun i => (L + 1 + i)%nat) (seq 0 L)).
    + rewrite map_map. apply map_ext_in. intros i Hi. apply in_seq in Hi. rewrite <- (wcos_sym N a (L + 1 + i)) by lia. f_equal. lia.
    + generalize (L + 1)%nat. intros s. generalize L. intros n. clear. revert s. induction n as [|n IH]; intros s; cbn; auto. f_equal; [lia|]. rewrite <- (IH (S s)), <- seq_shift, map_map. apply map_ext. intros. lia.
Qed.
