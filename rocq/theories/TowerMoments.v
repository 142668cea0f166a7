(** The moments of the reference integrals as computable rational numbers. *)
From Coq Require Import Reals List Arith Lia Lra Bool ZArith QArith Qreals.
From Verif Require Import Spec RsumLemmas IntegralSpec IntegralProofs SphereSpec SphereInt RadialInt Tower.
Import ListNotations.
Set Bullet Behavior "Strict Subproofs".
Open Scope R_scope.

Definition Qprod (l : list Q) : Q := fold_right (fun x y => Qred (x * y)) 1%Q l.
Definition qnat (n : nat) : Q := inject_Z (Z.of_nat n).
Fixpoint zfact (n : nat) : Z := match n with O => 1%Z | S m => (Z.of_nat (S m) * zfact m)%Z end.
Definition cubeQ (k : list nat) : Q := Qprod (map (fun a => if Nat.even a then / qnat (S a) else 0)%Q k).
Definition simplexQ (n : nat) (k : list nat) : Q :=
  (inject_Z (zfact n) * Qprod (map (fun a => inject_Z (zfact a)) k) / inject_Z (zfact (n + tdeg k)))%Q.
Fixpoint dfQ (a : nat) : Q := match a with O => 1%Q | S O => 1%Q | S (S b) => (qnat (b + 1) * dfQ b)%Q end.
Fixpoint riseQ (x : Q) (m : nat) : Q := match m with O => 1%Q | S m' => (x * riseQ (x + 2) m')%Q end.
Definition rmQ (h : nat -> Q) (k : list nat) : Q := if existsb Nat.odd k then 0%Q else (Qprod (map dfQ k) * h (tdeg k / 2)%nat)%Q.
Definition sphereQ (n : nat) : list nat -> Q := rmQ (fun m => / riseQ (qnat n) m)%Q.
Definition ballQ (n : nat) : list nat -> Q := rmQ (fun m => / riseQ (qnat n + 2) m)%Q.
Definition enrQ (n : nat) : list nat -> Q :=
  rmQ (fun m => inject_Z (zfact (n - 1 + 2 * m)) / inject_Z (zfact (n - 1)) / riseQ (qnat n) m)%Q.
Definition enr2Q (n : nat) : list nat -> Q := rmQ (fun m => / inject_Z (2 ^ Z.of_nat m))%Q.

Lemma Q2R_Qprod l : Q2R (Qprod l) = Rprod (map Q2R l).
Proof. induction l as [|x l IH]; cbn [Qprod fold_right map Rprod]; [apply Q2R_1|]. rewrite Q2R_red, Q2R_mult. unfold Qprod in IH. rewrite IH. auto. Qed.
Lemma Q2R_qnat n : Q2R (qnat n) = INR n.
Proof. unfold qnat. rewrite Q2R_IZR, INR_IZR_INZ. auto. Qed.
Lemma zfact_fact n : Q2R (inject_Z (zfact n)) = INR (fact n).
Proof.
  rewrite Q2R_IZR. induction n as [|n IH]; [cbn; auto|]. cbn [zfact]. rewrite fact_simpl, mult_INR, mult_IZR, <- IH, INR_IZR_INZ. auto.
Qed.
Lemma Q2R_invnz q : Q2R q <> 0 -> Q2R (/ q) = / Q2R q.
Proof. intros H. apply Q2R_inv. intros E. apply H. rewrite (Qeq_eqR _ _ E). apply Q2R_0. Qed.
Lemma Q2R_divnz a b : Q2R b <> 0 -> Q2R (a / b) = Q2R a / Q2R b.
Proof. intros H. unfold Qdiv, Rdiv. rewrite Q2R_mult, Q2R_invnz; auto. Qed.
Theorem cubeQ_ok n k : length k = n -> cube_mean n (mono k) = Q2R (cubeQ k).
Proof.
  intros H. rewrite (cube_mean_mono n k H). unfold cube_moment, cubeQ. rewrite Q2R_Qprod, map_map. f_equal. apply map_ext. intros a.
  destruct (Nat.even a); [|symmetry; apply Q2R_0]. rewrite Q2R_invnz, Q2R_qnat; [field; apply not_0_INR; lia|]. rewrite Q2R_qnat. apply not_0_INR. lia.
Qed.
Theorem simplexQ_ok n k : length k = S n -> simplex_mean n (mono k) = Q2R (simplexQ n k).
Proof.
  intros H. rewrite (simplex_mean_mono n k H). unfold simplex_moment, simplexQ. rewrite Q2R_divnz, Q2R_mult, !zfact_fact, Q2R_Qprod, map_map; [|rewrite zfact_fact; apply INR_fact_neq_0].
  f_equal. f_equal. clear H. induction k as [|a k IH]; cbn [map Rprod]; [reflexivity|]. rewrite zfact_fact, <- IH. reflexivity.
Qed.
Lemma dfQ_df a : Q2R (dfQ a) = df a.
Proof. induction a as [a IH] using lt_wf_ind. destruct a as [|[|b]]; try apply Q2R_1. cbn [dfQ df]. rewrite Q2R_mult, Q2R_qnat, IH by lia. auto. Qed.
Lemma riseQ_rise m : forall x y, Q2R x = y -> Q2R (riseQ x m) = rise y m.
Proof.
  induction m as [|m IH]; intros x y H; cbn [riseQ rise]; [apply Q2R_1|]. rewrite Q2R_mult, H. f_equal. apply IH. rewrite Q2R_plus, H. f_equal. exact (Q2R_IZR 2).
Qed.
Lemma rmQ_ok h g k : (forall m, Q2R (h m) = g m) -> Q2R (rmQ h k) = rmoment g k.
Proof.
  intros H. unfold rmQ, rmoment. destruct (existsb Nat.odd k); [apply Q2R_0|]. rewrite Q2R_mult, Q2R_Qprod, map_map, H. f_equal. f_equal. apply map_ext. apply dfQ_df.
Qed.
Lemma rise_nz n m : (1 <= n)%nat -> rise (INR n) m <> 0.
Proof. intros H. apply Rgt_not_eq. apply rise_pos. apply lt_0_INR. lia. Qed.
Theorem sphereQ_ok n k : (1 <= n)%nat -> length k = n -> sphere_mean n (mono k) = Q2R (sphereQ n k).
Proof.
  intros Hn H. change (sphere_mean n (mono k)) with (sphereI n k). rewrite (sphereI_val n k Hn H). symmetry. apply rmQ_ok. intros m. unfold h_sphere.
  rewrite Q2R_invnz; rewrite (riseQ_rise m _ _ (Q2R_qnat n)); auto. apply rise_nz; auto.
Qed.
Lemma q2 n : Q2R (qnat n + 2) = INR n + 2.
Proof. rewrite Q2R_plus, Q2R_qnat. f_equal. exact (Q2R_IZR 2). Qed.
Theorem ballQ_ok n k : length k = n -> ball_mean n (mono k) = Q2R (ballQ n k).
Proof.
  intros H. change (ball_mean n (mono k)) with (ballI n k). rewrite (ballI_val n k H). symmetry. apply rmQ_ok. intros m. unfold h_ball.
  rewrite Q2R_invnz; rewrite (riseQ_rise m _ _ (q2 n)); auto. apply Rgt_not_eq. apply rise_pos. pose proof (pos_INR n). lra.
Qed.
Theorem enrQ_ok n k : (1 <= n)%nat -> length k = n -> enr_mean n (mono k) = Q2R (enrQ n k).
Proof.
  intros Hn H. change (enr_mean n (mono k)) with (enrI n k). rewrite (enrI_val n k Hn H). symmetry. apply rmQ_ok. intros m. unfold h_enr.
  rewrite Q2R_divnz, Q2R_divnz, !zfact_fact, (riseQ_rise m _ _ (Q2R_qnat n)); auto.
  - rewrite zfact_fact. apply INR_fact_neq_0.
  - rewrite (riseQ_rise m _ _ (Q2R_qnat n)). apply rise_nz; auto.
Qed.
Theorem enr2Q_ok n k : (1 <= n)%nat -> length k = n -> enr2_mean n (mono k) = Q2R (enr2Q n k).
Proof.
  intros Hn H. change (enr2_mean n (mono k)) with (enr2I n k). rewrite (enr2I_val n k Hn H). symmetry. apply rmQ_ok. intros m. unfold h_enr2.
  assert (E : Q2R (inject_Z (2 ^ Z.of_nat m)) = 2 ^ m) by (rewrite Q2R_IZR, <- pow_IZR; auto).
  rewrite Q2R_invnz; rewrite E; auto. apply pow_nonzero. lra.
Qed.
