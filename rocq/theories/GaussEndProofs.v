(** Rules with prescribed end points, and the largest possible degree on unbounded domains. *)
From Coq Require Import Reals List Arith ZArith Lia Lra Permutation.
From Coquelicot Require Import Coquelicot.
From Verif Require Import Spec Spec1 RsumLemmas C1Tools WeightSpec GwInt GwInt2 GwBound LineProofs GaussShapeSpec GaussShapeProofs.
Import ListNotations.
Set Bullet Behavior "Strict Subproofs".
Open Scope R_scope.

Lemma nodup_perm (q : rule1) : (forall w x r, Permutation q ((w, x) :: r) -> ~ In x (map snd r)) -> NoDup (map snd q).
Proof.
  intros H. assert (H' : forall q1 q2, q = q1 ++ q2 -> NoDup (map snd q2)).
  { intros q1 q2. revert q1. induction q2 as [|[w x] q2 IH]; intros q1 E; [constructor|]. cbn [map snd]. constructor.
    - assert (P : Permutation q ((w, x) :: (q1 ++ q2))) by (rewrite E; apply Permutation_sym, Permutation_middle).
      intros Hin. apply (H w x _ P). rewrite map_app. apply in_or_app. auto.
    - apply (IH (q1 ++ [(w, x)])). rewrite E, <- app_assoc. reflexivity. }
  apply (H' [] q). reflexivity.
Qed.
Lemma pos3 w u p : 0 <= w -> 0 <= p -> 0 < w * (u * p) -> 0 < w /\ 0 < u /\ 0 < p.
Proof.
  intros Hw Hp H. destruct (Req_dec w 0) as [-> | Nw]; [lra|]. destruct (Req_dec p 0) as [-> | Np]; [lra|]. repeat split; try lra.
  destruct (Rlt_dec 0 u); auto. exfalso. assert (0 <= w * (- u * p)) by (apply Rmult_le_pos; [lra|apply Rmult_le_pos; lra]). lra.
Qed.
Section Ends.
Context (int : (R -> R) -> R -> Prop).
Context (Ip : forall c l I, (forall x, -1 < x < 1 -> 0 <= peval c x) -> (forall x, -1 < x < 1 -> ~ In x l -> 0 < peval c x) -> int (peval c) I -> 0 < I).

(** (u + v x) prod (x - y)^2 with a factor positive on (-1, 1) *)
Lemma ip_lin u v l I : (forall x, -1 < x < 1 -> 0 < u + v * x) -> int (peval (pmul_lin u v (psq l))) I -> 0 < I.
Proof.
  intros H. apply Ip with (l := l); intros x Hx; rewrite peval_pmul_lin; [apply Rmult_le_pos; [left; auto|apply psq_ge]|intros; apply Rmult_lt_0_compat; [auto|apply psq_pos; auto]].
Qed.
Lemma ip_quad l I : int (peval (pmul_lin 1 1 (pmul_lin 1 (-1) (psq l)))) I -> 0 < I.
Proof.
  apply Ip with (l := l); intros x Hx; rewrite !peval_pmul_lin.
  - apply Rmult_le_pos; [lra|]. apply Rmult_le_pos; [lra|apply psq_ge].
  - intros N. apply Rmult_lt_0_compat; [lra|]. apply Rmult_lt_0_compat; [lra|apply psq_pos; auto].
Qed.
Lemma quad_length l : (length (pmul_lin 1 1 (pmul_lin 1 (-1) (psq l))) <= 2 * length l + 3)%nat.
Proof. assert (A := pmul_lin_length 1 1 (pmul_lin 1 (-1) (psq l))). assert (B := pmul_lin_length 1 (-1) (psq l)). assert (C := psq_length l). lia. Qed.
Lemma lin_length u v l : (length (pmul_lin u v (psq l)) <= 2 * length l + 2)%nat.
Proof. assert (B := pmul_lin_length u v (psq l)). assert (C := psq_length l). lia. Qed.

Lemma radau_shape q n : length q = n -> (2 <= n)%nat -> In (-1) (map snd q) -> List.Forall (fun wx => 0 <= fst wx) q -> (forall c, (length c <= 2 * n - 1)%nat -> int (peval c) (apply1 q (peval c))) ->
  proper_rule (fun x => -1 <= x < 1) q.
Proof.
  intros L Hn Hin HW X. rewrite List.Forall_forall in HW. apply in_map_iff in Hin. destruct Hin as [[w0 x0] [E0 Hin]]. cbn [snd] in E0. subst x0.
  destruct (in_perm _ _ Hin) as [r P]. assert (Lr := Permutation_length P). cbn [length] in Lr.
  assert (W0 := HW _ Hin). cbn [fst] in W0.
  assert (A0 : 0 < w0 /\ ~ In (-1) (map snd r)).
  { assert (X0 := X (psq (map snd r))). assert (C := psq_length (map snd r)). rewrite map_length in C. specialize (X0 ltac:(lia)).
    apply (Ip _ (map snd r)) in X0; [|intros; apply psq_ge|intros; apply psq_pos; auto]. rewrite (apply1_perm _ _ _ P), apply1_one in X0 by (intros; apply psq_0; auto).
    assert (G := psq_ge (map snd r) (-1)). destruct (pos3 w0 1 _ W0 G) as (H1 & _ & H2); [lra|]. split; [lra|]. intros Q. rewrite psq_0 in H2 by auto. lra. }
  assert (A1 : forall w x r', Permutation r ((w, x) :: r') -> 0 < w /\ -1 < x < 1 /\ ~ In x (map snd r')).
  { intros w x r' P'. assert (Lr' := Permutation_length P'). cbn [length] in Lr'. assert (PP : Permutation q ((w, x) :: (w0, -1) :: r')) by (eapply Permutation_trans; [exact P|]; eapply Permutation_trans; [apply perm_skip, P'|apply perm_swap]).
    assert (Wx : 0 <= w) by (apply (HW (w, x)); apply (Permutation_in _ (Permutation_sym PP)); left; auto).
    set (l := map snd r'). assert (Ll : length l = length r') by apply map_length. assert (G := psq_ge l x).
    assert (X2 := X (pmul_lin 1 1 (pmul_lin 1 (-1) (psq l)))). assert (C := quad_length l). specialize (X2 ltac:(lia)). apply ip_quad in X2.
    rewrite (apply1_perm _ _ _ PP), apply1_one in X2 by (intros y [<- | Hy]; cbn [snd]; rewrite !peval_pmul_lin; [ring|rewrite psq_0 by auto; ring]).
    assert (X1 := X (pmul_lin 1 1 (psq l))). assert (C1 := lin_length 1 1 l). specialize (X1 ltac:(lia)). apply ip_lin in X1; [|intros; lra].
    rewrite (apply1_perm _ _ _ PP), apply1_one in X1 by (intros y [<- | Hy]; cbn [snd]; rewrite !peval_pmul_lin; [ring|rewrite psq_0 by auto; ring]).
    rewrite !peval_pmul_lin in X2. rewrite peval_pmul_lin in X1. destruct (pos3 w (1 + 1 * x) _ Wx G X1) as (H1 & H2 & H3).
    replace (w * ((1 + 1 * x) * ((1 + -1 * x) * peval (psq l) x))) with (w * (1 + 1 * x) * ((1 + -1 * x) * peval (psq l) x)) in X2 by ring.
    destruct (pos3 (w * (1 + 1 * x)) (1 + -1 * x) _ ltac:(apply Rmult_le_pos; lra) G X2) as (H4 & H5 & H6). repeat split; try lra. intros Q. rewrite psq_0 in H3 by auto. lra. }
  assert (ND : NoDup (map snd r)) by (apply nodup_perm; intros w x r' P'; apply (A1 w x r' P')).
  split.
  - apply (Permutation_NoDup (Permutation_sym (Permutation_map snd P))). cbn [map snd]. constructor; [apply A0|exact ND].
  - intros w x H. apply (Permutation_in _ P) in H. destruct H as [E|H]; [injection E as <- <-; split; [apply A0|lra]|].
    destruct (in_perm _ _ H) as [r' P']. destruct (A1 w x r' P') as (H1 & H2 & _). split; [auto|lra].
Qed.
Lemma lobatto_shape q n : length q = n -> (2 <= n)%nat -> In (-1) (map snd q) -> In 1 (map snd q) -> List.Forall (fun wx => 0 <= fst wx) q -> (forall c, (length c <= 2 * n - 2)%nat -> int (peval c) (apply1 q (peval c))) ->
  proper_rule (fun x => -1 <= x <= 1) q.
Proof.
  intros L Hn Hm Hp HW X. rewrite List.Forall_forall in HW. apply in_map_iff in Hm. destruct Hm as [[w0 x0] [E0 Hm]]. cbn [snd] in E0. subst x0. apply in_map_iff in Hp. destruct Hp as [[w1 x1] [E1 Hp]]. cbn [snd] in E1. subst x1.
  destruct (in_perm _ _ Hm) as [r0 P0]. assert (Hp' : In (w1, 1) r0) by (apply (Permutation_in _ P0) in Hp; destruct Hp as [E|]; auto; injection E; intros; lra).
  destruct (in_perm _ _ Hp') as [r P1]. assert (P : Permutation q ((w0, -1) :: (w1, 1) :: r)) by (eapply Permutation_trans; [exact P0|apply perm_skip, P1]).
  assert (Lr := Permutation_length P). cbn [length] in Lr. assert (W0 := HW _ Hm). assert (W1 := HW _ Hp). cbn [fst] in W0, W1.
  assert (Ps : Permutation q ((w1, 1) :: (w0, -1) :: r)) by (eapply Permutation_trans; [exact P|apply perm_swap]).
  assert (Ll : length (map snd r) = length r) by apply map_length.
  assert (A0 : 0 < w0 /\ ~ In (-1) (map snd r)).
  { assert (X0 := X (pmul_lin 1 (-1) (psq (map snd r)))). assert (C := lin_length 1 (-1) (map snd r)). specialize (X0 ltac:(lia)). apply ip_lin in X0; [|intros; lra].
    rewrite (apply1_perm _ _ _ P), apply1_one in X0 by (intros y [<- | Hy]; cbn [snd]; rewrite peval_pmul_lin; [ring|rewrite psq_0 by auto; ring]). rewrite peval_pmul_lin in X0.
    assert (G := psq_ge (map snd r) (-1)). destruct (pos3 w0 _ _ W0 G X0) as (H1 & _ & H2). split; [lra|]. intros Q. rewrite psq_0 in H2 by auto. lra. }
  assert (A1 : 0 < w1 /\ ~ In 1 (map snd r)).
  { assert (X0 := X (pmul_lin 1 1 (psq (map snd r)))). assert (C := lin_length 1 1 (map snd r)). specialize (X0 ltac:(lia)). apply ip_lin in X0; [|intros; lra].
    rewrite (apply1_perm _ _ _ Ps), apply1_one in X0 by (intros y [<- | Hy]; cbn [snd]; rewrite peval_pmul_lin; [ring|rewrite psq_0 by auto; ring]). rewrite peval_pmul_lin in X0.
    assert (G := psq_ge (map snd r) 1). destruct (pos3 w1 _ _ W1 G X0) as (H1 & _ & H2). split; [lra|]. intros Q. rewrite psq_0 in H2 by auto. lra. }
  assert (A2 : forall w x r', Permutation r ((w, x) :: r') -> 0 < w /\ -1 < x < 1 /\ ~ In x (map snd r')).
  { intros w x r' P'. assert (Lr' := Permutation_length P'). cbn [length] in Lr'.
    assert (PP : Permutation q ((w, x) :: (w0, -1) :: (w1, 1) :: r')).
    { eapply Permutation_trans; [exact P|]. eapply Permutation_trans; [apply perm_skip, perm_skip, P'|]. eapply Permutation_trans; [apply perm_skip, perm_swap|]. apply perm_swap. }
    assert (Wx : 0 <= w) by (apply (HW (w, x)); apply (Permutation_in _ (Permutation_sym PP)); left; auto).
    set (l := map snd r'). assert (Ll' : length l = length r') by apply map_length. assert (G := psq_ge l x).
    assert (X2 := X (pmul_lin 1 1 (pmul_lin 1 (-1) (psq l)))). assert (C := quad_length l). specialize (X2 ltac:(lia)). apply ip_quad in X2.
    rewrite (apply1_perm _ _ _ PP), apply1_one in X2 by (intros y [<- | [<- | Hy]]; cbn [snd]; rewrite !peval_pmul_lin; [ring|ring|rewrite psq_0 by auto; ring]).
    rewrite !peval_pmul_lin in X2. replace (w * ((1 + 1 * x) * ((1 + -1 * x) * peval (psq l) x))) with (w * ((1 - x * x) * peval (psq l) x)) in X2 by ring.
    destruct (pos3 w (1 - x * x) _ Wx G X2) as (H1 & H2 & H3). repeat split; [lra|nra|nra|]. intros Q. rewrite psq_0 in H3 by auto. lra. }
  assert (ND : NoDup (map snd r)) by (apply nodup_perm; intros w x r' P'; apply (A2 w x r' P')).
  split.
  - apply (Permutation_NoDup (Permutation_sym (Permutation_map snd P))). cbn [map snd]. constructor; [|constructor; [apply A1|exact ND]]. intros [E|Q]; [lra|]. apply (proj2 A0). exact Q.
  - intros w x H. apply (Permutation_in _ P) in H. destruct H as [E|[E|H]]; [injection E as <- <-; split; [apply A0|lra]|injection E as <- <-; split; [apply A1|lra]|].
    destruct (in_perm _ _ H) as [r' P']. destruct (A2 w x r' P') as (H1 & H2 & _). split; [auto|lra].
Qed.
End Ends.

Lemma too_many_for (int : (R -> R) -> R -> Prop) (D : R -> Prop) :
  (forall c l I, (forall x, D x -> 0 <= peval c x) -> (forall x, D x -> ~ In x l -> 0 < peval c x) -> int (peval c) I -> 0 < I) ->
  forall q : rule1, exists c, (length c <= 2 * length q + 1)%nat /\ ~ int (peval c) (apply1 q (peval c)).
Proof.
  intros Ip q. exists (psq (map snd q)). split; [assert (L := psq_length (map snd q)); rewrite map_length in L; exact L|]. intros H.
  apply (Ip _ (map snd q)) in H; [|intros; apply psq_ge|intros; apply psq_pos; auto]. rewrite apply1_0 in H by (intros; apply psq_0; auto). lra.
Qed.
