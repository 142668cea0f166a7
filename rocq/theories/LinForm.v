(** A rule that agrees with a radial functional on the powers (a . x)^m, m <= d <= 7, of all linear forms is exact of degree d:
    monomials are polarisations of such powers. *)
From Coq Require Import Reals List Arith Lia Lra.
From Verif Require Import Spec RsumLemmas CombModel IntegralSpec IntegralProofs CnProofs4 SphereSpec SphereInt RadialInt RadialTools NsimplexProofs.
Import ListNotations.
Local Notation length := List.length.
Open Scope R_scope.
Set Bullet Behavior "Strict Subproofs".

(* ------------------------------------------------------------------ the binomial formula for small exponents *)
Fixpoint bin (m i : nat) : nat := match m, i with _, O => 1 | O, S _ => 0 | S m', S i' => bin m' i' + bin m' i end%nat.
Lemma binom_c m c y : (c + y) ^ m = Rsum (map (fun i => INR (bin m i) * c ^ i * y ^ (m - i)) (seq 0 (m + 1))).
Proof.
  induction m as [|m IH]; [cbn; ring|].
  assert (Z : forall k, (m < k)%nat -> bin m k = 0%nat). { clear. intros k; revert k. induction m as [|m IH]; intros [|k] H; try lia; cbn; auto. rewrite !IH by lia. auto. }
  assert (L : Rsum (map (fun i => INR (bin m i) * c ^ i * y ^ (m - i)) (seq 0 (m + 2))) = (c + y) ^ m).
  { rewrite IH. replace (m + 2)%nat with (S (m + 1)) by lia. rewrite seq_S, map_app, Rsum_app. cbn [map Rsum Nat.add]. rewrite Z by lia. cbn [INR]. ring. }
  replace (S m + 1)%nat with (S (m + 1)) by lia. cbn [pow]. rewrite Rmult_plus_distr_r. cbn [seq map Rsum]. rewrite <- seq_shift, map_map.
  assert (A : Rsum (map (fun i => INR (bin m i) * c ^ i * y ^ (m - i)) (seq 0 (m + 1))) = (c + y) ^ m) by (rewrite IH; auto).
  assert (B : y * (c + y) ^ m = y ^ S m + Rsum (map (fun i => INR (bin m (S i)) * c ^ S i * y ^ (m - i)) (seq 0 (m + 1)))).
  { rewrite <- L. replace (m + 2)%nat with (S (m + 1)) by lia. cbn [seq map Rsum]. rewrite <- seq_shift, map_map. rewrite Rmult_plus_distr_l, <- Rsum_map_scal. f_equal.
    - replace (bin m 0) with 1%nat by (destruct m; auto). rewrite Nat.sub_0_r. cbn. ring.
    - apply Rsum_map_ext. intros i Hi. apply in_seq in Hi. destruct (Nat.eq_dec i m) as [->|Ne]; [rewrite Z by lia; cbn; ring|]. replace (m - i)%nat with (S (m - S i)) by lia. cbn [pow]. ring. }
  rewrite B. rewrite <- A at 1. rewrite <- Rsum_map_scal. replace (INR (bin (S m) 0) * c ^ 0 * y ^ (S m - 0)) with (y ^ S m) by (cbn; ring).
  assert (T : forall u v w : R, u + (v + w) = v + (u + w)) by (intros; ring). rewrite T. f_equal. rewrite <- Rsum_map_plus. apply Rsum_map_ext. intros i Hi. apply in_seq in Hi.
  cbn [bin]. rewrite plus_INR. replace (S m - S i)%nat with (m - i)%nat by lia. cbn [pow]. ring.
Qed.
(* ------------------------------------------------------------------ polarisation *)
Fixpoint polar (l : list R) (s : R) (m : nat) : R := match l with [] => s ^ m | x :: l' => polar l' (s + x) m - polar l' s m end.
Lemma polar_shift l : forall s x m, polar l (s + x) m = Rsum (map (fun i => INR (bin m i) * x ^ i * polar l s (m - i)) (seq 0 (m + 1))).
Proof.
  induction l as [|y l IH]; intros s x m; cbn [polar].
  - rewrite Rplus_comm. apply binom_c.
  - replace (s + x + y) with (s + y + x) by ring. rewrite (IH (s + y)), (IH s). rewrite <- Rsum_map_minus. apply Rsum_map_ext. intros; ring.
Qed.
Lemma polar_val l : forall s m, ((m < length l)%nat -> polar l s m = 0) /\ (m = length l -> polar l s m = INR (fact m) * Rprod l).
Proof.
  induction l as [|x l IH]; intros s m; cbn [length polar]; [split; [lia|intros ->; cbn; ring]|].
  assert (E : polar l (s + x) m - polar l s m = Rsum (map (fun i => INR (bin m (S i)) * x ^ S i * polar l s (m - S i)) (seq 0 m))).
  { rewrite polar_shift. replace (m + 1)%nat with (S m) by lia. cbn [seq map Rsum]. rewrite <- seq_shift, map_map, Nat.sub_0_r. replace (bin m 0) with 1%nat by (destruct m; auto). cbn [INR pow]. ring. }
  rewrite E. split.
  - intros H. rewrite (Rsum_map_ext _ (fun _ => 0)); [apply Rsum_zero; auto|]. intros i Hi. apply in_seq in Hi. rewrite (proj1 (IH s (m - S i)%nat)) by lia. ring.
  - intros ->. cbn [seq map Rsum]. rewrite (proj2 (IH s (S (length l) - 1)%nat)) by lia. rewrite (Rsum_map_ext _ (fun _ => 0)).
    + rewrite Rsum_zero by auto. replace (S (length l) - 1)%nat with (length l) by lia. assert (B1 : forall k, bin k 1 = k) by (clear; induction k as [|k IH]; auto; cbn [bin]; rewrite IH; destruct k; cbn; lia).
      rewrite B1. change (fact (S (length l))) with (S (length l) * fact (length l))%nat. rewrite mult_INR. cbn [Rprod pow]. ring.
    + intros i Hi. apply in_seq in Hi. rewrite (proj1 (IH s (S (length l) - S i)%nat)) by lia. ring.
Qed.
(** The same with linear forms *)
Fixpoint bump (i : nat) (a : point) : point := match a, i with [], _ => [] | x :: a', O => x + 1 :: a' | x :: a', S i' => x :: bump i' a' end.
Lemma bump_length i : forall a, length (bump i a) = length a.
Proof. induction i as [|i IH]; intros [|x a]; cbn; auto. Qed.
Lemma bump_dot i : forall a x, length a = length x -> (i < length a)%nat -> dot (bump i a) x = dot a x + coord x i.
Proof.
  unfold coord. induction i as [|i IH]; intros [|u a] [|v x] H Hi; cbn in *; try lia; [ring|]. rewrite IH by lia. ring.
Qed.
Fixpoint polarF (F : point -> R) (l : list nat) (a : point) : R := match l with [] => F a | i :: l' => polarF F l' (bump i a) - polarF F l' a end.
Lemma polarF_ext F G n l : (forall a, length a = n -> F a = G a) -> forall a, length a = n -> polarF F l a = polarF G l a.
Proof. intros H. induction l as [|i l IH]; intros a La; cbn [polarF]; auto. rewrite !IH by (rewrite ?bump_length; auto). auto. Qed.
Lemma polarF_scal c F l : forall a, polarF (fun a => c * F a) l a = c * polarF F l a.
Proof. induction l as [|i l IH]; intros a; cbn [polarF]; auto. rewrite !IH. ring. Qed.
Lemma apply_ext_in n q f g : points_in_dim n q -> (forall x, length x = n -> f x = g x) -> apply q f = apply q g.
Proof. intros H E. unfold apply. apply Rsum_map_ext. intros wp Hw. unfold points_in_dim in H. rewrite Forall_forall in H. rewrite E by auto. auto. Qed.
Lemma polarF_apply n q m l : points_in_dim n q -> Forall (fun i => (i < n)%nat) l -> forall a, length a = n ->
  polarF (fun a => apply q (fun x => dot a x ^ m)) l a = apply q (fun x => polar (map (coord x) l) (dot a x) m).
Proof.
  intros Hq Hl. induction l as [|i l IH]; intros a La; cbn [polarF polar map]; [auto|]. inversion Hl; subst. rewrite !IH by (rewrite ?bump_length; auto). rewrite <- apply_minus.
  apply (apply_ext_in (length a)); auto. intros x Hx. rewrite bump_dot by lia. auto.
Qed.
Lemma dot_zero n : forall x, dot (repeat 0 n) x = 0.
Proof. induction n as [|n IH]; intros [|t x]; cbn; auto. rewrite IH. ring. Qed.
Theorem mono_polar n q k : points_in_dim n q -> length k = n ->
  INR (fact (tdeg k)) * apply q (mono k) = polarF (fun a => apply q (fun x => dot a x ^ tdeg k)) (idx k) (repeat 0 n).
Proof.
  intros Hq Hk. rewrite (polarF_apply n) by (auto using repeat_length; apply Forall_forall; intros i Hi; apply idx_bound in Hi; lia). rewrite <- apply_scal. apply (apply_ext_in n); auto. intros x Hx.
  rewrite (proj2 (polar_val (map (coord x) (idx k)) _ _)) by (rewrite map_length, idx_length; auto). rewrite idx_mono by lia. auto.
Qed.
(* ------------------------------------------------------------------ a product rule with the moments of a normal distribution *)
Definition g1 : list (R * R) := [(7 / 18, 0); (1 / 4, 1); (1 / 4, -1); (1 / 20, 2); (1 / 20, -2); (1 / 180, 3); (1 / 180, -3)].
Fixpoint grule (n : nat) : rule := match n with O => [(1, [])] | S n' => flat_map (fun wt => map (fun wx => (fst wt * fst wx, snd wt :: snd wx)) (grule n')) g1 end.
Lemma grule_dim n : points_in_dim n (grule n).
Proof.
  induction n as [|n IH]; [repeat constructor|]. unfold points_in_dim in *. rewrite Forall_forall in *. intros wp Hw. cbn [grule] in Hw. apply in_flat_map in Hw. destruct Hw as [wt [_ Hw]].
  apply in_map_iff in Hw. destruct Hw as [wx [<- Hx]]. cbn. rewrite IH; auto.
Qed.
Lemma grule_S n f : apply (grule (S n)) f = Rsum (map (fun wt => fst wt * apply (grule n) (fun x => f (snd wt :: x))) g1).
Proof.
  cbn [grule]. unfold apply at 1. rewrite Rsum_map_flat_map. apply Rsum_map_ext. intros wt _. rewrite map_map. unfold apply. rewrite <- Rsum_map_scal. apply Rsum_map_ext. intros wx _. cbn [fst snd]. apply Rmult_assoc.
Qed.
Definition mu1 (j : nat) : R := if Nat.odd j then 0 else df j.
Lemma g1_moment j : (j <= 7)%nat -> Rsum (map (fun wt => fst wt * snd wt ^ j) g1) = mu1 j.
Proof. intros H. destruct j as [|[|[|[|[|[|[|[|j]]]]]]]]; try lia; unfold mu1; cbn; field. Qed.
Lemma grule_mono k : (tdeg k <= 7)%nat -> apply (grule (length k)) (mono k) = rmoment (fun _ => 1) k.
Proof.
  induction k as [|a k IH]; intros H; [unfold rmoment; cbn; ring|]. rewrite tdeg_cons in H. cbn [length]. rewrite grule_S, rm_one_cons, <- IH by lia. fold (mu1 a). rewrite <- g1_moment by lia.
  rewrite <- Rsum_map_scal_r. apply Rsum_map_ext. intros wt _. cbn [mono]. rewrite apply_scal. ring.
Qed.
Definition gform (m : nat) (s : R) : R := mu1 m * s ^ (m / 2).
Lemma grule_form n : forall a m, length a = n -> (m <= 7)%nat -> apply (grule n) (fun x => dot a x ^ m) = gform m (dot a a).
Proof.
  induction n as [|n IH]; intros [|u a] m L Hm; try discriminate.
  - unfold apply, gform. cbn. destruct m as [|[|[|[|[|[|[|[|m]]]]]]]]; try lia; unfold mu1; cbn; ring.
  - rewrite grule_S. cbn [dot].
    assert (E : forall t, apply (grule n) (fun x => (u * t + dot a x) ^ m) = Rsum (map (fun i => INR (bin m i) * (u * t) ^ i * gform (m - i) (dot a a)) (seq 0 (m + 1)))).
    { intros t. rewrite (apply_ext_in n _ _ (fun x => Rsum (map (fun i => INR (bin m i) * (u * t) ^ i * dot a x ^ (m - i)) (seq 0 (m + 1))))) by (apply grule_dim || (intros; apply binom_c)).
      rewrite apply_sum. apply Rsum_map_ext. intros i Hi. apply in_seq in Hi. rewrite apply_scal, IH by (cbn in L; lia). auto. }
    rewrite (Rsum_map_ext _ (fun wt => Rsum (map (fun i => (INR (bin m i) * u ^ i * gform (m - i) (dot a a)) * (fst wt * snd wt ^ i)) (seq 0 (m + 1))))).
    2:{ intros wt _. rewrite E, <- Rsum_map_scal. apply Rsum_map_ext. intros i _. rewrite Rpow_mult_distr. ring. }
    rewrite Rsum_swap. rewrite (Rsum_map_ext _ (fun i => INR (bin m i) * u ^ i * gform (m - i) (dot a a) * mu1 i)).
    2:{ intros i Hi. apply in_seq in Hi. rewrite Rsum_map_scal, g1_moment by lia. auto. }
    generalize (dot a a). intros s. clear - Hm. destruct m as [|[|[|[|[|[|[|[|m]]]]]]]]; [| | | | | | | |exfalso; lia]; unfold gform, mu1; cbn; ring.
Qed.
Theorem exact_by_forms n d I h q : (d <= 7)%nat -> (forall k, length k = n -> I k = rmoment h k) -> points_in_dim n q ->
  (forall a m, length a = n -> (m <= d)%nat -> apply q (fun x => dot a x ^ m) = h (m / 2)%nat * gform m (dot a a)) -> exact n d I q.
Proof.
  intros Hd HI HP H. split; auto. intros k Hk Hkd. assert (F : INR (fact (tdeg k)) <> 0) by apply INR_fact_neq_0. apply (Rmult_eq_reg_l (INR (fact (tdeg k)))); auto.
  rewrite (mono_polar n) by auto. rewrite (polarF_ext _ (fun a => h (tdeg k / 2)%nat * apply (grule n) (fun x => dot a x ^ tdeg k)) n) by (rewrite ?repeat_length; auto; intros a La; rewrite grule_form by (auto; lia); apply H; auto).
  rewrite polarF_scal, <- mono_polar by (auto using grule_dim). rewrite HI, rmoment_scale by auto. rewrite <- Hk, grule_mono by lia. ring.
Qed.
