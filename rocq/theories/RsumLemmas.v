(** Elementary facts about finite sums of reals and about [apply]/[mono]. *)
From Coq Require Import Reals List Arith Lia Lra Permutation.
From Verif Require Import Spec.
Import ListNotations.
Open Scope R_scope.

Lemma Rsum_app l1 l2 : Rsum (l1 ++ l2) = Rsum l1 + Rsum l2.
Proof. induction l1; simpl; [ring|rewrite IHl1; ring]. Qed.

Lemma Rsum_map_ext {A} (f g : A -> R) l :
  (forall x, In x l -> f x = g x) -> Rsum (map f l) = Rsum (map g l).
Proof. intros H. f_equal. apply map_ext_in. auto. Qed.

Lemma Rsum_map_scal {A} (c : R) (f : A -> R) l :
  Rsum (map (fun x => c * f x) l) = c * Rsum (map f l).
Proof. induction l; simpl; [ring|rewrite IHl; ring]. Qed.

Lemma Rsum_map_scal_r {A} (c : R) (f : A -> R) l :
  Rsum (map (fun x => f x * c) l) = Rsum (map f l) * c.
Proof. induction l; simpl; [ring|rewrite IHl; ring]. Qed.

Lemma Rsum_map_plus {A} (f g : A -> R) l :
  Rsum (map (fun x => f x + g x) l) = Rsum (map f l) + Rsum (map g l).
Proof. induction l; simpl; [ring|rewrite IHl; ring]. Qed.

Lemma Rsum_map_minus {A} (f g : A -> R) l :
  Rsum (map (fun x => f x - g x) l) = Rsum (map f l) - Rsum (map g l).
Proof. induction l; simpl; [ring|rewrite IHl; ring]. Qed.

Lemma Rsum_map_zero {A} (f : A -> R) l :
  (forall x, In x l -> f x = 0) -> Rsum (map f l) = 0.
Proof.
  induction l; simpl; intros H; auto. rewrite (H a) by auto. rewrite IHl by auto. ring.
Qed.

Lemma Rsum_map_const {A} (c : R) (l : list A) :
  Rsum (map (fun _ => c) l) = INR (length l) * c.
Proof.
  induction l as [|a l IH]; [simpl; ring|].
  change (length (a :: l)) with (S (length l)). rewrite S_INR. simpl. rewrite IH. ring.
Qed.

Lemma Rsum_repeat c n : Rsum (repeat c n) = INR n * c.
Proof.
  induction n; [simpl; ring|]. rewrite S_INR. simpl. rewrite IHn. ring.
Qed.

Lemma Rsum_flat_map {A} (f : A -> list R) l :
  Rsum (flat_map f l) = Rsum (map (fun a => Rsum (f a)) l).
Proof. induction l; simpl; auto. rewrite Rsum_app, IHl. auto. Qed.

Lemma Rsum_map_flat_map {A B} (g : B -> R) (f : A -> list B) l :
  Rsum (map g (flat_map f l)) = Rsum (map (fun a => Rsum (map g (f a))) l).
Proof. induction l; simpl; auto. rewrite map_app, Rsum_app, IHl. auto. Qed.

Lemma Rsum_swap {A B} (f : A -> B -> R) l m :
  Rsum (map (fun a => Rsum (map (f a) m)) l) = Rsum (map (fun b => Rsum (map (fun a => f a b) l)) m).
Proof.
  induction l; simpl.
  - rewrite Rsum_map_zero; auto.
  - rewrite IHl, Rsum_map_plus. auto.
Qed.

Lemma Rsum_perm l1 l2 : Permutation l1 l2 -> Rsum l1 = Rsum l2.
Proof. induction 1; simpl; lra. Qed.

Lemma Rsum_map_perm {A} (f : A -> R) l1 l2 : Permutation l1 l2 -> Rsum (map f l1) = Rsum (map f l2).
Proof. intros. apply Rsum_perm. apply Permutation_map. auto. Qed.

Lemma Rsum_nonneg l : (forall x, In x l -> 0 <= x) -> 0 <= Rsum l.
Proof.
  induction l; simpl; intros H; [lra|]. assert (0 <= a) by auto.
  assert (0 <= Rsum l) by auto. lra.
Qed.

(** [apply] is linear in the rule and in the function. *)
Lemma apply_nil f : apply [] f = 0.
Proof. reflexivity. Qed.

Lemma apply_app q1 q2 f : apply (q1 ++ q2) f = apply q1 f + apply q2 f.
Proof. unfold apply. rewrite map_app, Rsum_app. auto. Qed.

Lemma apply_ext q f g : (forall w p, In (w, p) q -> f p = g p) -> apply q f = apply q g.
Proof.
  intros H. unfold apply. apply Rsum_map_ext. intros [w p] Hin. simpl. rewrite (H w p); auto.
Qed.

Lemma apply_scal q c f : apply q (fun x => c * f x) = c * apply q f.
Proof. unfold apply. rewrite <- Rsum_map_scal. apply Rsum_map_ext. intros; ring. Qed.

Lemma apply_plus q f g : apply q (fun x => f x + g x) = apply q f + apply q g.
Proof. unfold apply. rewrite <- Rsum_map_plus. apply Rsum_map_ext. intros; ring. Qed.

Lemma apply_minus q f g : apply q (fun x => f x - g x) = apply q f - apply q g.
Proof. unfold apply. rewrite <- Rsum_map_minus. apply Rsum_map_ext. intros; ring. Qed.

Lemma apply_sum {A} q (f : A -> point -> R) l :
  apply q (fun x => Rsum (map (fun a => f a x) l)) = Rsum (map (fun a => apply q (f a)) l).
Proof.
  unfold apply. rewrite Rsum_swap. apply Rsum_map_ext. intros wp _. rewrite Rsum_map_scal. auto.
Qed.

Lemma apply_perm q1 q2 f : Permutation q1 q2 -> apply q1 f = apply q2 f.
Proof. intros. unfold apply. apply Rsum_map_perm. auto. Qed.

(** Exactness on monomials is exactness on all polynomials. *)
Lemma exact_poly n d I q p :
  exact n d I q -> mp_ok n d p ->
  apply q (mpeval p) = Rsum (map (fun ck => fst ck * I (snd ck)) p).
Proof.
  intros [_ H] Hp. unfold mpeval. rewrite (apply_sum q (fun ck x => fst ck * mono (snd ck) x)).
  apply Rsum_map_ext. intros [c k] Hin. simpl. rewrite apply_scal. f_equal.
  unfold mp_ok in Hp. rewrite Forall_forall in Hp. specialize (Hp _ Hin). simpl in Hp.
  apply H; tauto.
Qed.

(** Monomials. *)
Lemma mono_app k1 k2 x1 x2 : length k1 = length x1 -> mono (k1 ++ k2) (x1 ++ x2) = mono k1 x1 * mono k2 x2.
Proof.
  revert x1; induction k1; intros [|t x1] H; simpl in *; try discriminate; [ring|].
  rewrite IHk1 by lia. ring.
Qed.

Lemma mono_zeros m x : mono (repeat 0%nat m) x = 1.
Proof. revert x; induction m; intros [|t x]; simpl; auto. rewrite IHm. ring. Qed.

Lemma mono_repeat k s n : length k = n -> mono k (repeat s n) = s ^ tdeg k.
Proof.
  revert n; induction k; intros [|n] H; simpl in *; try discriminate; auto.
  rewrite IHk by lia. unfold tdeg. simpl. rewrite pow_add. auto.
Qed.

Lemma tdeg_app k1 k2 : tdeg (k1 ++ k2) = (tdeg k1 + tdeg k2)%nat.
Proof. unfold tdeg. rewrite list_sum_app. auto. Qed.

Lemma tdeg_zeros m : tdeg (repeat 0%nat m) = 0%nat.
Proof. induction m; auto. Qed.

Lemma tdeg_perm k k' : Permutation k k' -> tdeg k = tdeg k'.
Proof. unfold tdeg. induction 1; simpl in *; lia. Qed.
