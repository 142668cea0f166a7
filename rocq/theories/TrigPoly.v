(** Trigonometric polynomials: powers of cos and sin as sums of cos(j t), sin(j t); their integrals. *)
From Coq Require Import Reals List Arith Lia Lra.
From Coquelicot Require Import Coquelicot.
From Verif Require Import Spec RsumLemmas IntegralProofs IntegralPoly.
Import ListNotations.
Set Bullet Behavior "Strict Subproofs".
Open Scope R_scope.

(* ------------------------------------------------------------------ cosine polynomials *)
Definition cosval (l : list (nat * R)) (t : R) : R := Rsum (map (fun jc => snd jc * cos (INR (fst jc) * t)) l).
Definition cospoly (d : nat) (f : R -> R) : Prop := exists l, List.Forall (fun jc => (fst jc <= d)%nat) l /\ forall t, f t = cosval l t.
Lemma cosval_app l l' t : cosval (l ++ l') t = cosval l t + cosval l' t.
Proof. unfold cosval. rewrite map_app, Rsum_app. auto. Qed.
Lemma cospoly_ext d f g : (forall t, f t = g t) -> cospoly d f -> cospoly d g.
Proof. intros H [l [Hl E]]. exists l. split; auto. intros t. rewrite <- H. auto. Qed.
Lemma cospoly_le d d' f : (d <= d')%nat -> cospoly d f -> cospoly d' f.
Proof. intros H [l [Hl E]]. exists l. split; auto. eapply Forall_impl; [|exact Hl]. cbn beta in *. intros. lia. Qed.
Lemma cospoly_cos d j : (j <= d)%nat -> cospoly d (fun t => cos (INR j * t)).
Proof. intros H. exists [(j, 1)]. split; [constructor; auto|]. intros t. unfold cosval. cbn [map Rsum fst snd]. ring. Qed.
Lemma cospoly_const d c : cospoly d (fun _ => c).
Proof. exists [(0%nat, c)]. split; [constructor; auto; cbn; lia|]. intros t. unfold cosval. cbn [map Rsum fst snd INR]. rewrite Rmult_0_l, cos_0. ring. Qed.
Lemma cospoly_add d f g : cospoly d f -> cospoly d g -> cospoly d (fun t => f t + g t).
Proof. intros [l [Hl E]] [l' [Hl' E']]. exists (l ++ l'). split; [apply Forall_app; auto|]. intros t. rewrite cosval_app, E, E'. auto. Qed.
Lemma cospoly_scal d c f : cospoly d f -> cospoly d (fun t => c * f t).
Proof.
  intros [l [Hl E]]. exists (map (fun jc => (fst jc, c * snd jc)) l). split.
  - rewrite Forall_map. auto.
  - intros t. rewrite E. unfold cosval. rewrite map_map, <- Rsum_map_scal. apply Rsum_map_ext. intros. cbn [fst snd]. ring.
Qed.
Lemma cospoly_sum {A} d (l : list A) (f : A -> R -> R) : (forall a, In a l -> cospoly d (f a)) -> cospoly d (fun t => Rsum (map (fun a => f a t) l)).
Proof.
  induction l as [|a l IH]; intros H; cbn [map Rsum]; [apply cospoly_const|].
  apply (cospoly_add d (f a) (fun t => Rsum (map (fun a => f a t) l))); [apply H; left; auto|apply IH; intros; apply H; right; auto].
Qed.
Lemma cos_step j t : cos t * cos (INR (S j) * t) = / 2 * cos (INR (S (S j)) * t) + / 2 * cos (INR j * t).
Proof.
  replace (INR (S (S j)) * t) with (INR (S j) * t + t) by (rewrite !S_INR; ring). replace (INR j * t) with (INR (S j) * t - t) by (rewrite !S_INR; ring).
  rewrite cos_plus, cos_minus. field.
Qed.
Lemma cospoly_mul_cos d f : cospoly d f -> cospoly (S d) (fun t => cos t * f t).
Proof.
  intros [l [Hl E]]. apply (cospoly_ext _ (fun t => Rsum (map (fun jc => snd jc * (cos t * cos (INR (fst jc) * t))) l))).
  - intros t. rewrite E. unfold cosval. rewrite <- Rsum_map_scal. apply Rsum_map_ext. intros. ring.
  - apply cospoly_sum. intros [j c] Hj. rewrite List.Forall_forall in Hl. specialize (Hl _ Hj). cbn [fst snd] in *. apply cospoly_scal.
    destruct j as [|j].
    + apply (cospoly_ext _ (fun t => cos (INR 1 * t))); [|apply cospoly_cos; lia]. intros t. cbn [INR]. rewrite (Rmult_0_l t), cos_0. rewrite Rmult_1_l. ring.
    + apply (cospoly_ext _ (fun t => / 2 * cos (INR (S (S j)) * t) + / 2 * cos (INR j * t))); [intros t; symmetry; apply cos_step|].
      apply cospoly_add; apply cospoly_scal; apply cospoly_cos; lia.
Qed.
Lemma cospoly_pow k : cospoly k (fun t => cos t ^ k).
Proof. induction k as [|k IH]; cbn [pow]; [apply cospoly_const|]. apply cospoly_mul_cos. auto. Qed.
Lemma cospoly_pow_neg k : cospoly k (fun t => (- cos t) ^ k).
Proof.
  apply (cospoly_ext _ (fun t => (-1) ^ k * cos t ^ k)); [|apply cospoly_scal, cospoly_pow].
  intros t. rewrite <- Rpow_mult_distr. f_equal. ring.
Qed.

(* ------------------------------------------------------------------ full trigonometric polynomials *)
(** entries (j, (a, b)) stand for a cos(j t) + b sin(j t) *)
Definition trigval (l : list (nat * (R * R))) (t : R) : R :=
  Rsum (map (fun e => fst (snd e) * cos (INR (fst e) * t) + snd (snd e) * sin (INR (fst e) * t)) l).
Definition trigpoly (d : nat) (f : R -> R) : Prop := exists l, List.Forall (fun e => (fst e <= d)%nat) l /\ forall t, f t = trigval l t.
Lemma trigval_app l l' t : trigval (l ++ l') t = trigval l t + trigval l' t.
Proof. unfold trigval. rewrite map_app, Rsum_app. auto. Qed.
Lemma trigpoly_ext d f g : (forall t, f t = g t) -> trigpoly d f -> trigpoly d g.
Proof. intros H [l [Hl E]]. exists l. split; auto. intros t. rewrite <- H. auto. Qed.
Lemma trigpoly_basis d j a b : (j <= d)%nat -> trigpoly d (fun t => a * cos (INR j * t) + b * sin (INR j * t)).
Proof. intros H. exists [(j, (a, b))]. split; [constructor; auto|]. intros t. unfold trigval. cbn [map Rsum fst snd]. ring. Qed.
Lemma trigpoly_const d c : trigpoly d (fun _ => c).
Proof. apply (trigpoly_ext d (fun t => c * cos (INR 0 * t) + 0 * sin (INR 0 * t))); [|apply trigpoly_basis; lia]. intros t. cbn [INR]. rewrite (Rmult_0_l t), cos_0. ring. Qed.
Lemma trigpoly_add d f g : trigpoly d f -> trigpoly d g -> trigpoly d (fun t => f t + g t).
Proof. intros [l [Hl E]] [l' [Hl' E']]. exists (l ++ l'). split; [apply Forall_app; auto|]. intros t. rewrite trigval_app, E, E'. auto. Qed.
Lemma trigpoly_sum {A} d (l : list A) (f : A -> R -> R) : (forall a, In a l -> trigpoly d (f a)) -> trigpoly d (fun t => Rsum (map (fun a => f a t) l)).
Proof.
  induction l as [|a l IH]; intros H; cbn [map Rsum]; [apply trigpoly_const|].
  apply (trigpoly_add d (f a) (fun t => Rsum (map (fun a => f a t) l))); [apply H; left; auto|apply IH; intros; apply H; right; auto].
Qed.
Lemma trigpoly_mul_gen d f (g : R -> R) : (forall j a b, (j <= d)%nat -> trigpoly (S d) (fun t => g t * (a * cos (INR j * t) + b * sin (INR j * t)))) ->
  trigpoly d f -> trigpoly (S d) (fun t => g t * f t).
Proof.
  intros H [l [Hl E]]. apply (trigpoly_ext _ (fun t => Rsum (map (fun e => g t * (fst (snd e) * cos (INR (fst e) * t) + snd (snd e) * sin (INR (fst e) * t))) l))).
  - intros t. rewrite E. unfold trigval. rewrite <- Rsum_map_scal. auto.
  - apply (trigpoly_sum (S d) l (fun e t => g t * (fst (snd e) * cos (INR (fst e) * t) + snd (snd e) * sin (INR (fst e) * t)))).
    intros e He. rewrite List.Forall_forall in Hl. apply H. apply Hl. auto.
Qed.
Lemma trigpoly_mul_cos d f : trigpoly d f -> trigpoly (S d) (fun t => cos t * f t).
Proof.
  apply trigpoly_mul_gen. intros [|j] a b Hj.
  - apply (trigpoly_ext _ (fun t => a * cos (INR 1 * t) + 0 * sin (INR 1 * t))); [|apply trigpoly_basis; lia].
    intros t. cbn [INR]. rewrite (Rmult_0_l t), cos_0, sin_0, (Rmult_1_l t). ring.
  - apply (trigpoly_ext _ (fun t => (a / 2 * cos (INR (S (S j)) * t) + b / 2 * sin (INR (S (S j)) * t)) + (a / 2 * cos (INR j * t) + b / 2 * sin (INR j * t)))).
    + intros t. replace (INR (S (S j)) * t) with (INR (S j) * t + t) by (rewrite !S_INR; ring). replace (INR j * t) with (INR (S j) * t - t) by (rewrite !S_INR; ring).
      rewrite cos_plus, cos_minus, sin_plus, sin_minus. field.
    + apply (trigpoly_add (S d) (fun t => a / 2 * cos (INR (S (S j)) * t) + b / 2 * sin (INR (S (S j)) * t))); apply trigpoly_basis; lia.
Qed.
Lemma trigpoly_mul_sin d f : trigpoly d f -> trigpoly (S d) (fun t => sin t * f t).
Proof.
  apply trigpoly_mul_gen. intros [|j] a b Hj.
  - apply (trigpoly_ext _ (fun t => 0 * cos (INR 1 * t) + a * sin (INR 1 * t))); [|apply trigpoly_basis; lia].
    intros t. cbn [INR]. rewrite (Rmult_0_l t), cos_0, sin_0, (Rmult_1_l t). ring.
  - apply (trigpoly_ext _ (fun t => (- b / 2 * cos (INR (S (S j)) * t) + a / 2 * sin (INR (S (S j)) * t)) + (b / 2 * cos (INR j * t) + - a / 2 * sin (INR j * t)))).
    + intros t. replace (INR (S (S j)) * t) with (INR (S j) * t + t) by (rewrite !S_INR; ring). replace (INR j * t) with (INR (S j) * t - t) by (rewrite !S_INR; ring).
      rewrite cos_plus, cos_minus, sin_plus, sin_minus. field.
    + apply (trigpoly_add (S d) (fun t => - b / 2 * cos (INR (S (S j)) * t) + a / 2 * sin (INR (S (S j)) * t))); apply trigpoly_basis; lia.
Qed.
Lemma trigpoly_mono a b : trigpoly (a + b) (fun t => cos t ^ a * sin t ^ b).
Proof.
  induction a as [|a IH].
  - cbn [plus]. apply (trigpoly_ext _ (fun t => sin t ^ b)); [intros; cbn; ring|]. induction b as [|b IH]; cbn [pow]; [apply trigpoly_const|apply trigpoly_mul_sin; auto].
  - cbn [plus]. apply (trigpoly_ext _ (fun t => cos t * (cos t ^ a * sin t ^ b))); [intros; cbn; ring|]. apply trigpoly_mul_cos. auto.
Qed.

(* ------------------------------------------------------------------ values at multiples of pi *)
Lemma sin_INR_PI j : sin (INR j * PI) = 0.
Proof. induction j as [|j IH]; [cbn; rewrite Rmult_0_l; apply sin_0|]. rewrite S_INR, Rmult_plus_distr_r, Rmult_1_l, neg_sin, IH. ring. Qed.
Lemma cos_INR_PI j : cos (INR j * PI) = (-1) ^ j.
Proof. induction j as [|j IH]; [cbn; rewrite Rmult_0_l; apply cos_0|]. rewrite S_INR, Rmult_plus_distr_r, Rmult_1_l, neg_cos, IH. cbn. ring. Qed.
Lemma pow_m1_even m : (-1) ^ (2 * m) = 1.
Proof. rewrite pow_mult. replace ((-1) ^ 2) with 1 by ring. apply pow1. Qed.
Lemma pow_m1_odd m : (-1) ^ (2 * m + 1) = -1.
Proof. rewrite pow_add, pow_m1_even. ring. Qed.

(* ------------------------------------------------------------------ integrals *)
Lemma is_RInt_cosj j T : (0 < j)%nat -> is_RInt (fun t => cos (INR j * t)) 0 T (sin (INR j * T) / INR j).
Proof.
  intros H. assert (P : INR j <> 0) by (apply not_0_INR; lia).
  replace (sin (INR j * T) / INR j) with (minus (sin (INR j * T) / INR j) (sin (INR j * 0) / INR j)).
  - apply (is_RInt_derive (fun t => sin (INR j * t) / INR j)).
    + intros x _. auto_derive; auto. field. auto.
    + intros x _. apply (ex_derive_continuous (fun t : R => cos (INR j * t))). auto_derive. auto.
  - unfold minus, plus, opp. cbn -[INR]. rewrite Rmult_0_r, sin_0. change (sin (INR j * T) / INR j + - (0 / INR j) = sin (INR j * T) / INR j). field. auto.
Qed.
Lemma is_RInt_cos_pi j : (0 < j)%nat -> is_RInt (fun t => cos (INR j * t)) 0 PI 0.
Proof. intros H. replace 0 with (sin (INR j * PI) / INR j) at 2; [apply is_RInt_cosj; auto|]. rewrite sin_INR_PI. unfold Rdiv. ring. Qed.
Lemma is_RInt_const_pi c : is_RInt (fun _ => c) 0 PI (PI * c).
Proof. replace (PI * c) with (scal (PI - 0) c) by (unfold scal; cbn; unfold mult; cbn; change ((PI - 0) * c = PI * c); ring). apply (@is_RInt_const R_NormedModule). Qed.
(** integral over [0, pi] of a cosine polynomial: only the constant term survives *)
Definition cos_mean (l : list (nat * R)) : R := Rsum (map (fun jc => if (fst jc =? 0)%nat then snd jc else 0) l).
Lemma is_RInt_cosval l : is_RInt (cosval l) 0 PI (PI * cos_mean l).
Proof.
  unfold cosval, cos_mean. rewrite <- Rsum_map_scal. apply (is_RInt_Rsum (fun jc t => snd jc * cos (INR (fst jc) * t)) (fun jc => PI * (if (fst jc =? 0)%nat then snd jc else 0))).
  intros [j c] _. cbn [fst snd]. destruct (Nat.eqb_spec j 0) as [-> | H].
  - apply (is_RInt_ext (fun _ => c)); [|apply is_RInt_const_pi]. intros t _. cbn [INR]. rewrite (Rmult_0_l t), cos_0. change (c = c * 1). ring.
  - replace (PI * 0) with (c * 0) by ring. apply is_RInt_scalR. apply is_RInt_cos_pi. lia.
Qed.
(** integral of cos(j t) sin t over [0, pi] *)
Definition cosint (j : nat) : R := if Nat.odd j then 0 else 2 / (1 - INR j * INR j).
Lemma is_RInt_cos_sin j : is_RInt (fun t => cos (INR j * t) * sin t) 0 PI (cosint j).
Proof.
  unfold cosint. destruct (Nat.eq_dec j 1) as [-> | Hj].
  - cbn [Nat.odd Nat.even negb INR]. replace 0 with (minus (sin PI ^ 2 / 2) (sin 0 ^ 2 / 2)) at 2.
    + apply (is_RInt_derive (fun t => sin t ^ 2 / 2)).
      * intros x _. auto_derive; auto. rewrite (Rmult_1_l x). field.
      * intros x _. apply (ex_derive_continuous (fun t : R => cos (1 * t) * sin t)). auto_derive. auto.
    + unfold minus, plus, opp. cbn. rewrite sin_PI, sin_0. field.
  - assert (P : 1 - INR j * INR j <> 0).
    { intros E. apply Hj. assert (INR j = 1). { assert (0 <= INR j) by apply pos_INR. nra. } apply (INR_eq j 1). auto. }
    assert (V : (if Nat.odd j then 0 else 2 / (1 - INR j * INR j)) = (1 + (-1) ^ j) / (1 - INR j * INR j)).
    { destruct (Nat.odd j) eqn:O.
      - apply Nat.odd_spec in O. destruct O as [m ->]. rewrite pow_m1_odd. unfold Rdiv. ring.
      - rewrite <- Nat.negb_even in O. apply Bool.negb_false_iff in O. apply Nat.even_spec in O. destruct O as [m ->]. rewrite pow_m1_even. f_equal; ring. }
    rewrite V. clear V.
    set (F := fun t => - (cos (INR j * t) * cos t + INR j * sin (INR j * t) * sin t) / (1 - INR j * INR j)).
    replace ((1 + (-1) ^ j) / (1 - INR j * INR j)) with (minus (F PI) (F 0)).
    + apply (is_RInt_derive F).
      * intros x _. unfold F. auto_derive; auto. field. auto.
      * intros x _. apply (ex_derive_continuous (fun t : R => cos (INR j * t) * sin t)). auto_derive. auto.
    + unfold minus, plus, opp, F. cbn. rewrite Rmult_0_r, cos_0, sin_0, cos_PI, sin_PI, cos_INR_PI. field. auto.
Qed.
(** the substitution x = - cos t for powers *)
Lemma is_RInt_pow_cos k : is_RInt (fun t => (- cos t) ^ k * sin t) 0 PI (pow_int k).
Proof.
  assert (P : INR (S k) <> 0) by (apply not_0_INR; lia).
  replace (pow_int k) with (minus ((- cos PI) ^ S k / INR (S k)) ((- cos 0) ^ S k / INR (S k))).
  - apply (is_RInt_derive (fun t => (- cos t) ^ S k / INR (S k))).
    + intros x _. auto_derive; auto. unfold Nat.pred. field. auto.
    + intros x _. apply (ex_derive_continuous (fun t : R => (- cos t) ^ k * sin t)). auto_derive. auto.
  - unfold minus, plus, opp. cbn -[pow INR pow_int]. rewrite cos_PI, cos_0. replace (- -1) with 1 by ring. rewrite pow1. change (-(1)) with (-1). unfold pow_int. destruct (Nat.even k) eqn:O.
    + apply Nat.even_spec in O. destruct O as [m ->]. replace (S (2 * m)) with (2 * m + 1)%nat in * by lia. rewrite pow_m1_odd. field. auto.
    + assert (O' : Nat.odd k = true) by (rewrite <- Nat.negb_even, O; auto). apply Nat.odd_spec in O'. destruct O' as [m ->].
      replace (S (2 * m + 1)) with (2 * (m + 1))%nat in * by lia. rewrite pow_m1_even. field. auto.
Qed.
