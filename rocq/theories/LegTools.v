(** Gauss-Legendre nodes lie inside (-1, 1); moments on [0, 1]. *)
From Coq Require Import Reals List Arith Lia Lra.
From Coquelicot Require Import Coquelicot.
From Verif Require Import Spec Spec1 RsumLemmas C1Tools GwProofs GwExist GwJacobi GwInt GwBound LegSpec.
Import ListNotations.
Set Bullet Behavior "Strict Subproofs".
Open Scope R_scope.

Lemma ex_RInt_peval c a b : ex_RInt (peval c) a b.
Proof. apply (ex_RInt_continuous (V := R_CompleteNormedModule)). intros z _. apply peval_continuous. Qed.
Lemma RInt_pos_poly c l : (forall x, -1 < x < 1 -> 0 <= peval c x) -> (forall x, -1 < x < 1 -> ~ In x l -> 0 < peval c x) -> 0 < RInt (peval c) (-1) 1.
Proof.
  intros H1 H2. destruct (avoid l (-1 / 2) (1 / 2) ltac:(lra)) as [u [v [Hu [Huv [Hv Ha]]]]].
  assert (E1 := RInt_Chasles (peval c) (-1) u 1 (ex_RInt_peval c _ _) (ex_RInt_peval c _ _)).
  assert (E2 := RInt_Chasles (peval c) u v 1 (ex_RInt_peval c _ _) (ex_RInt_peval c _ _)).
  change (RInt (peval c) (-1) u + RInt (peval c) u 1 = RInt (peval c) (-1) 1) in E1.
  change (RInt (peval c) u v + RInt (peval c) v 1 = RInt (peval c) u 1) in E2.
  assert (A1 : 0 <= RInt (peval c) (-1) u) by (apply RInt_ge_0; [lra|apply ex_RInt_peval|intros; apply H1; lra]).
  assert (A3 : 0 <= RInt (peval c) v 1) by (apply RInt_ge_0; [lra|apply ex_RInt_peval|intros; apply H1; lra]).
  assert (A2 : 0 < RInt (peval c) u v).
  { apply RInt_gt_0; auto. - intros x Hx. apply H2; [lra|]. intros Q. apply (Ha x Q). auto. - intros x _. apply peval_continuous. }
  lra.
Qed.
Lemma apply1_scal q c f : apply1 q (fun t => c * f t) = c * apply1 q f.
Proof. unfold apply1. rewrite <- Rsum_map_scal. apply Rsum_map_ext. intros. ring. Qed.
Lemma apply1_ext_in q f g : (forall x, In x (map snd q) -> f x = g x) -> apply1 q f = apply1 q g.
Proof. intros H. unfold apply1. apply Rsum_map_ext. intros e He. rewrite H; [auto|]. apply in_map. auto. Qed.
Theorem gauss_inside n q : (1 <= n)%nat -> length q = n -> exact1 (2 * n - 1) q -> List.Forall (fun x => -1 < x < 1) (map snd q).
Proof.
  intros Hn L X. apply List.Forall_forall. intros x Hx. destruct (in_split _ _ Hx) as [l1 [l2 E]].
  assert (Ln : length (map snd q) = length (l1 ++ x :: l2)) by (rewrite E; auto). rewrite map_length, app_length in Ln. cbn [length] in Ln.
  set (l := l1 ++ l2) in *. assert (Ll : (length l = n - 1)%nat) by (unfold l; rewrite app_length; lia).
  assert (S : forall t, In t (map snd q) -> t = x \/ In t l).
  { intros t Ht. rewrite E in Ht. apply in_app_or in Ht. unfold l. destruct Ht as [Ht|[Ht|Ht]]; [right|left|right]; auto; apply in_or_app; auto. }
  assert (P0 : 0 < apply1 q (peval (psq l))).
  { rewrite X by (pose proof (psq_length l); lia). apply (RInt_pos_poly _ l); [intros; apply psq_ge|intros; apply psq_pos; auto]. }
  assert (Lin : forall a b, apply1 q (peval (pmul_lin a b (psq l))) = (a + b * x) * apply1 q (peval (psq l))).
  { intros a b. rewrite <- apply1_scal. apply apply1_ext_in. intros t Ht. rewrite peval_pmul_lin. destruct (S t Ht) as [-> | Hl]; [auto|]. rewrite (psq_0 l t Hl). ring. }
  assert (Pos : forall a b, (forall t, -1 < t < 1 -> 0 < a + b * t) -> 0 < apply1 q (peval (pmul_lin a b (psq l)))).
  { intros a b Hab. rewrite X by (pose proof (psq_length l); pose proof (pmul_lin_length a b (psq l)); lia). apply (RInt_pos_poly _ l).
    - intros t Ht. rewrite peval_pmul_lin. apply Rmult_le_pos; [apply Rlt_le, Hab; auto|apply psq_ge].
    - intros t Ht Hl. rewrite peval_pmul_lin. apply Rmult_lt_0_compat; [apply Hab; auto|apply psq_pos; auto]. }
  assert (A := Pos 1 1 ltac:(intros; lra)). assert (B := Pos 1 (-1) ltac:(intros; lra)). rewrite Lin in A, B.
  split; [|]; apply Rnot_le_lt; intros Q; nra.
Qed.
(** Powers of x and of (x + 1) / 2. *)
Lemma leg_pow d q k : exact1 d q -> (k <= d)%nat -> apply1 q (fun x => x ^ k) = RInt (fun x => x ^ k) (-1) 1.
Proof.
  intros X Hk. assert (E : forall x, peval (repeat 0 k ++ [1]) x = x ^ k).
  { clear. intros x. induction k as [|k IH]; cbn [repeat app peval pow]; [ring|]. rewrite IH. ring. }
  rewrite <- (RInt_ext (peval (repeat 0 k ++ [1]))) by (intros; apply E). rewrite <- X by (rewrite app_length, repeat_length; cbn; lia).
  apply apply1_ext_in. intros. auto.
Qed.
Lemma RInt_monomial k : RInt (fun x => x ^ k) (-1) 1 = (1 + (-1) ^ k) / INR (S k).
Proof.
  assert (P : INR (S k) <> 0) by (apply not_0_INR; lia).
  apply is_RInt_unique. replace ((1 + (-1) ^ k) / INR (S k)) with (minus (1 ^ S k / INR (S k)) ((-1) ^ S k / INR (S k))).
  - apply (is_RInt_derive (fun r => r ^ S k / INR (S k)) (fun r => r ^ k)).
    + intros x _. auto_derive; auto. change (match k with O => 1 | S _ => INR k + 1 end) with (INR (S k)). replace (Init.Nat.pred (S k)) with k by auto. field. auto.
    + intros x _. apply (ex_derive_continuous (fun r => r ^ k)). auto_derive. auto.
  - rewrite pow1. unfold minus, plus, opp. cbn -[INR]. field. auto.
Qed.
Definition phalf (t : nat) : list R := Nat.iter t (pmul_lin (1/2) (1/2)) [1].
Lemma phalf_eval t x : peval (phalf t) x = ((x + 1) / 2) ^ t.
Proof. induction t as [|t IH]; [cbn; ring|]. unfold phalf in *. cbn [Nat.iter nat_rect pow]. rewrite peval_pmul_lin. unfold Nat.iter in IH. rewrite IH. field. Qed.
Lemma phalf_length t : (length (phalf t) <= S t)%nat.
Proof. induction t as [|t IH]; [cbn; lia|]. unfold phalf in *. cbn [Nat.iter nat_rect]. pose proof (pmul_lin_length (1/2) (1/2) (Nat.iter t (pmul_lin (1/2) (1/2)) [1])). unfold Nat.iter in *. lia. Qed.
Lemma leg_half d q t : exact1 d q -> (t <= d)%nat -> apply1 q (fun x => ((x + 1) / 2) ^ t) = 2 / INR (S t).
Proof.
  intros X Ht. transitivity (apply1 q (peval (phalf t))); [apply apply1_ext_in; intros; symmetry; apply phalf_eval|].
  rewrite X by (pose proof (phalf_length t); lia). assert (P : INR (S t) <> 0) by (apply not_0_INR; lia).
  rewrite (RInt_ext _ (fun x => ((x + 1) / 2) ^ t)) by (intros; apply phalf_eval).
  apply is_RInt_unique. replace (2 / INR (S t)) with (minus (2 * ((1 + 1) / 2) ^ S t / INR (S t)) (2 * ((-1 + 1) / 2) ^ S t / INR (S t))).
  - apply (is_RInt_derive (fun x => 2 * ((x + 1) / 2) ^ S t / INR (S t)) (fun x => ((x + 1) / 2) ^ t)).
    + intros x _. auto_derive; auto. change (match t with O => 1 | S _ => INR t + 1 end) with (INR (S t)). replace (Init.Nat.pred (S t)) with t by auto. change ((x + 1) * / 2) with ((x + 1) / 2). set (y := ((x + 1) / 2) ^ t). field. auto.
    + intros x _. apply (ex_derive_continuous (fun x => ((x + 1) / 2) ^ t)). auto_derive. auto.
  - replace ((1 + 1) / 2) with 1 by lra. replace ((-1 + 1) / 2) with 0 by lra. rewrite pow1, pow_i by lia. unfold minus, plus, opp. cbn -[INR]. field. auto.
Qed.
