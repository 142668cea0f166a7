(** Jacobi polynomials: the documented recurrence coefficients are those of the weight (1 - x)^a (1 + x)^b. *)
From Coq Require Import Reals List Arith ZArith Lia Lra.
From Coquelicot Require Import Coquelicot.
From Verif Require Import Spec Spec1 RsumLemmas GwSpec GwProofs GwExist GwModel GwRc GwRadau.
Import ListNotations.
Set Bullet Behavior "Strict Subproofs".
Open Scope R_scope.

Section Jacobi.
Context (a b : R) (Ha : -1 < a) (Hb : -1 < b).
Definition kap (k : nat) : R := match k with S O => 1 / (a + b + 2) | _ => (INR k + a + b) / ((2 * INR k - 1 + a + b) * (2 * INR k + a + b)) end.
Definition rho (k m : nat) : R := -2 * (INR m - INR k) * (b + INR k + 1) * kap (S k) / (a + b + INR m + INR k + 2).
Definition tau (k m : nat) : R := -4 * (INR m + 1) * (a + INR m + 1) * (b + INR k + 1) * kap (S k) / ((a + b + INR m + INR k + 2) * (a + b + INR m + INR k + 3)).
Fixpoint gjac (nu : nat -> R) (k m : nat) : R := match k with O => nu m | S k' => rho k' m * gjac nu k' m end.
Lemma gjac_tau nu : (forall m, nu (S m) = 2 * (a + INR m + 1) / (a + b + INR m + 2) * nu m) -> forall k m, gjac nu (S k) (S m) = tau k m * gjac nu k m.
Proof.
  intros Hnu. induction k as [|k IH]; intros m.
  - cbn [gjac]. rewrite Hnu. unfold rho, tau. rewrite S_INR. change (INR 0) with 0. assert (P := pos_INR m). field. repeat split; lra.
  - change (gjac nu (S (S k)) (S m)) with (rho (S k) (S m) * gjac nu (S k) (S m)). rewrite IH. change (gjac nu (S k) m) with (rho k m * gjac nu k m).
    unfold rho, tau. rewrite !S_INR. assert (P := pos_INR m). assert (P' := pos_INR k). field. repeat split; lra.
Qed.
Lemma three_term k m : rho k m * rho (S k) m = (1 - jacobi_alpha a b (S k)) * rho k m - tau k m - jacobi_beta a b (S k).
Proof.
  unfold rho, tau. assert (P := pos_INR m). destruct k as [|k].
  - cbn [jacobi_alpha jacobi_beta kap]. change (INR 0) with 0. change (INR 1) with 1. change (INR 2) with (1 + 1). field. repeat split; lra.
  - cbn [jacobi_alpha jacobi_beta kap]. rewrite !S_INR. assert (P' := pos_INR k). set (X := INR k) in *. set (M := INR m) in *. field. repeat split; lra.
Qed.
Lemma first_term nu m : nu (S m) = 2 * (a + INR m + 1) / (a + b + INR m + 2) * nu m -> rho 0 m * nu m = (1 - jacobi_alpha a b 0) * nu m - nu (S m).
Proof. intros ->. unfold rho. cbn [jacobi_alpha kap]. change (INR 0) with 0. assert (P := pos_INR m). field. repeat split; lra. Qed.

(** U i m = L(x^i (1 - x)^m) *)
Context (U : nat -> nat -> R) (HU : forall i m, U (S i) m = U i m - U i (S m))
  (HU0 : forall m, U 0%nat (S m) = 2 * (a + INR m + 1) / (a + b + INR m + 2) * U 0%nat m).
Let al := jacobi_alpha a b.
Let be := jacobi_beta a b.
Lemma lmonic_step k : forall i m, lmonic al be (fun j => U j m) k (S i) = lmonic al be (fun j => U j m) k i - lmonic al be (fun j => U j (S m)) k i.
Proof.
  assert (G : forall k, (forall i m, lmonic al be (fun j => U j m) k (S i) = lmonic al be (fun j => U j m) k i - lmonic al be (fun j => U j (S m)) k i) /\
     (forall i m, lmonic al be (fun j => U j m) (S k) (S i) = lmonic al be (fun j => U j m) (S k) i - lmonic al be (fun j => U j (S m)) (S k) i)).
  { induction k0 as [|k0 [IH1 IH2]].
    - split; intros i m; cbn [lmonic]; rewrite ?HU; ring.
    - split; auto. intros i m. rewrite !lmonic_SS. rewrite (IH2 (S i) m), (IH2 i m), (IH1 i m). rewrite (IH2 i (S m)). ring. }
  apply (G k).
Qed.
Lemma lmonic_gjac k : forall m, lmonic al be (fun j => U j m) k 0 = gjac (U 0%nat) k m.
Proof.
  assert (G : forall k, (forall m, lmonic al be (fun j => U j m) k 0 = gjac (U 0%nat) k m) /\ (forall m, lmonic al be (fun j => U j m) (S k) 0 = gjac (U 0%nat) (S k) m)).
  { induction k0 as [|k0 [IH1 IH2]].
    - split; intros m; cbn [lmonic gjac]; auto. rewrite HU. rewrite (first_term (U 0%nat) m (HU0 m)). unfold al. ring.
    - split; auto. intros m. rewrite lmonic_SS, lmonic_step, !IH2, IH1. rewrite gjac_tau by exact HU0. change (gjac (U 0%nat) (S (S k0)) m) with (rho (S k0) m * (rho k0 m * gjac (U 0%nat) k0 m)). change (gjac (U 0%nat) (S k0) m) with (rho k0 m * gjac (U 0%nat) k0 m).
      assert (T := three_term k0 m). unfold al, be. nra. }
  intros m. apply (G k).
Qed.
Lemma gjac_zero nu k m : (m < k)%nat -> gjac nu k m = 0.
Proof. induction k as [|k IH]; intros H; [lia|]. cbn [gjac]. destruct (Nat.eq_dec m k) as [->|N]; [unfold rho; unfold Rdiv; ring|rewrite IH by lia; ring]. Qed.
Theorem jacobi_orthogonal n : orthogonal al be (fun i => U i 0%nat) n.
Proof.
  intros k i [Hi _]. assert (G : forall i m, (i + m < k)%nat -> lmonic al be (fun j => U j m) k i = 0).
  { clear i Hi. induction i as [|i IH]; intros m Hm; [rewrite lmonic_gjac; apply gjac_zero; auto|]. rewrite lmonic_step, !IH by lia. ring. }
  apply (G i 0%nat). lia.
Qed.
End Jacobi.

Section Ends.
Lemma jacobi_beta_pos a b k : -1 < a -> -1 < b -> (0 < k)%nat -> 0 < jacobi_beta a b k.
Proof.
  intros Ha Hb Hk. destruct k as [|[|k]]; [lia| |]; cbn [jacobi_beta].
  - apply Rdiv_lt_0_compat; [apply Rmult_lt_0_compat; [|lra]; lra|]. apply Rmult_lt_0_compat; [apply pow_lt|]; lra.
  - rewrite !S_INR. assert (P := pos_INR k). set (X := INR k) in *. apply Rdiv_lt_0_compat; repeat apply Rmult_lt_0_compat; try lra.
Qed.
(** p_{k+1}(1) / p_k(1) *)
Definition ratio1 (a b : R) (k : nat) : R := match k with O => 2 * (a + 1) / (a + b + 2) | _ => 2 * (a + INR k + 1) * (a + b + INR k + 1) / ((2 * INR k + a + b + 1) * (2 * INR k + a + b + 2)) end.
Lemma ratio1_pos a b k : -1 < a -> -1 < b -> 0 < ratio1 a b k.
Proof.
  intros Ha Hb. destruct k as [|k]; cbn [ratio1]; [apply Rdiv_lt_0_compat; lra|]. rewrite S_INR. assert (P := pos_INR k). apply Rdiv_lt_0_compat; repeat apply Rmult_lt_0_compat; lra.
Qed.
Lemma jacobi_at_1 a b : -1 < a -> -1 < b -> forall k, monic (jacobi_alpha a b) (jacobi_beta a b) (S k) 1 = ratio1 a b k * monic (jacobi_alpha a b) (jacobi_beta a b) k 1.
Proof.
  intros Ha Hb. induction k as [|k IH].
  - cbn [monic ratio1 jacobi_alpha]. field. lra.
  - rewrite monic_SS, IH. destruct k as [|k].
    + cbn [ratio1 jacobi_alpha jacobi_beta monic]. change (INR 1) with 1. field. repeat split; lra.
    + cbn [ratio1 jacobi_alpha jacobi_beta]. rewrite !S_INR. assert (P := pos_INR k). set (X := INR k) in *. field. repeat split; lra.
Qed.
Lemma jacobi_pos_1 a b k : -1 < a -> -1 < b -> 0 < monic (jacobi_alpha a b) (jacobi_beta a b) k 1.
Proof. intros Ha Hb. induction k as [|k IH]; [cbn; lra|]. rewrite jacobi_at_1 by auto. apply Rmult_lt_0_compat; auto. apply ratio1_pos; auto. Qed.
Lemma jacobi_sym a b k : -1 < a -> -1 < b -> - jacobi_alpha a b k = jacobi_alpha b a k /\ jacobi_beta a b k = jacobi_beta b a k.
Proof.
  intros Ha Hb. destruct k as [|[|k]]; cbn [jacobi_alpha jacobi_beta]; rewrite ?S_INR; assert (P := pos_INR k) || idtac; try (change (INR 0) with 0); split; try field; try lra; try (repeat split; lra).
Qed.
Theorem jacobi_good_ends a b int_1 : -1 < a -> -1 < b -> good_ends (jacobi_rc a b int_1).
Proof.
  intros Ha Hb k. cbn [rc_alpha rc_beta jacobi_rc]. split; [apply jacobi_pos_1; auto|]. assert (E := monic_neg (jacobi_alpha a b) (jacobi_beta a b) k 1). replace (- (1)) with (-1) in E by ring. rewrite E, <- Rmult_assoc, <- Rpow_mult_distr. replace (-1 * -1) with 1 by ring. rewrite pow1, Rmult_1_l.
  rewrite (monic_ext _ _ (jacobi_alpha b a) (jacobi_beta b a)) by (intros; apply jacobi_sym; auto). apply jacobi_pos_1; auto.
Qed.
End Ends.
