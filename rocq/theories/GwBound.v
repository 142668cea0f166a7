(** A rule with N nodes misses some polynomial of degree 2N, and one with a node at -1 some polynomial of degree 2N - 1. *)
From Coq Require Import Reals List Arith ZArith Lia Lra Sorted.
From Coquelicot Require Import Coquelicot.
From Verif Require Import Spec Spec1 RsumLemmas AdaptModel PyBase UnModel C1Tools Interp C1Model C1Proofs GwSpec GwProofs GwExist GwModel GwRc GwRadau GwJacobi WeightSpec GwInt.
Import ListNotations.
Set Bullet Behavior "Strict Subproofs".
Open Scope R_scope.

Lemma avoid (l : list R) : forall u v, u < v -> exists u' v', u <= u' /\ u' < v' /\ v' <= v /\ forall x, In x l -> ~ (u' < x < v').
Proof.
  induction l as [|y l IH]; intros u v H; [exists u, v; repeat split; try lra; intros x []|].
  destruct (IH u v H) as [p [q [H1 [H2 [H3 H4]]]]]. destruct (Rlt_dec p y) as [Hp|Hp].
  - exists p, (Rmin q y). assert (A := Rmin_l q y). assert (B := Rmin_r q y). assert (C : p < Rmin q y) by (apply Rmin_glb_lt; auto). repeat split; try lra.
    intros x [<-|Hx] [Q1 Q2]; [lra|]. apply (H4 x Hx). lra.
  - exists p, q. repeat split; try lra. intros x [<-|Hx]; [lra|]. auto.
Qed.
(** prod (x - y)^2 *)
Definition psq (l : list R) : list R := fold_right (fun y c => pmul_lin (- y) 1 (pmul_lin (- y) 1 c)) [1] l.
Lemma psq_length l : (length (psq l) <= 2 * length l + 1)%nat.
Proof. induction l as [|y l IH]; [cbn; lia|]. cbn [psq fold_right length]. fold (psq l). assert (A := pmul_lin_length (- y) 1 (pmul_lin (- y) 1 (psq l))). assert (B := pmul_lin_length (- y) 1 (psq l)). lia. Qed.
Lemma psq_cons y l x : peval (psq (y :: l)) x = (x - y) ^ 2 * peval (psq l) x.
Proof. cbn [psq fold_right]. fold (psq l). rewrite !peval_pmul_lin. ring. Qed.
Lemma psq_ge l x : 0 <= peval (psq l) x.
Proof. induction l as [|y l IH]; [cbn; lra|]. rewrite psq_cons. apply Rmult_le_pos; auto. apply pow2_ge_0. Qed.
Lemma psq_0 l x : In x l -> peval (psq l) x = 0.
Proof. induction l as [|y l IH]; [intros []|]. intros [-> | H]; rewrite psq_cons; [ring|rewrite IH by auto; ring]. Qed.
Lemma psq_pos l x : ~ In x l -> 0 < peval (psq l) x.
Proof. induction l as [|y l IH]; intros H; [cbn; lra|]. rewrite psq_cons. apply Rmult_lt_0_compat; [|apply IH; intros Q; apply H; right; auto]. apply pow2_gt_0. intros Q. apply H. left. lra. Qed.

Lemma apply1_0 q f : (forall x, In x (map snd q) -> f x = 0) -> apply1 q f = 0.
Proof.
  intros H. unfold apply1. induction q as [|[w x] q IH]; [reflexivity|]. cbn [map Rsum fst snd] in *. rewrite IH by (intros; apply H; right; auto). rewrite H by (left; auto). ring.
Qed.
Lemma jacobi_pos_poly a b c l I : (forall x, -1 < x < 1 -> 0 <= peval c x) -> (forall x, -1 < x < 1 -> ~ In x l -> 0 < peval c x) -> jacobi_int a b (peval c) I -> 0 < I.
Proof.
  intros H1 H2 H. destruct (avoid l (-1 / 2) (1 / 2) ltac:(lra)) as [u [v [Hu [Huv [Hv Ha]]]]].
  assert (P1 : 0 < u + 1) by lra. assert (P2 : 0 < 1 - v) by lra.
  apply (gen_pos _ _ _ _ jD jDa jDb jDc (fun x => jw a b x * peval c x) u v); unfold jD; try lra.
  - exists (mkposreal _ P1). intros y Hy _. change (Rabs (y - -1) < u + 1) in Hy. apply Rabs_def2 in Hy. lra.
  - exists (mkposreal _ P2). intros y Hy _. change (Rabs (y - 1) < 1 - v) in Hy. apply Rabs_def2 in Hy. lra.
  - intros x Hx. apply Rmult_le_pos; [left; apply jw_pos|apply H1; auto].
  - intros x Hx. apply Rmult_lt_0_compat; [apply jw_pos|apply H2; [lra|]]. intros Q. apply (Ha x Q). auto.
  - intros x Hx. apply (continuous_mult (K := R_AbsRing) (jw a b) (peval c)); [apply jw_cont; auto|apply peval_continuous].
  - exact H.
Qed.
Theorem too_many a b q : exists c, (length c <= 2 * length q + 1)%nat /\ ~ jacobi_int a b (peval c) (apply1 q (peval c)).
Proof.
  exists (psq (map snd q)). split; [assert (L := psq_length (map snd q)); rewrite map_length in L; auto|]. intros H.
  apply (jacobi_pos_poly a b _ (map snd q)) in H.
  - rewrite apply1_0 in H; [lra|]. intros x Hx. apply psq_0; auto.
  - intros x _. apply psq_ge.
  - intros x _. apply psq_pos.
Qed.
Theorem too_many_end a b q : In (-1) (map snd q) -> exists c, (length c <= 2 * length q)%nat /\ ~ jacobi_int a b (peval c) (apply1 q (peval c)).
Proof.
  intros Hin. apply in_split in Hin. destruct Hin as [l1 [l2 E]].
  assert (L : length (map snd q) = length (l1 ++ -1 :: l2)) by (rewrite E; auto). rewrite map_length, app_length in L. cbn [length] in L.
  exists (pmul_lin 1 1 (psq (l1 ++ l2))). split.
  - assert (A := psq_length (l1 ++ l2)). assert (B := pmul_lin_length 1 1 (psq (l1 ++ l2))). rewrite app_length in A. lia.
  - intros H. apply (jacobi_pos_poly a b _ (l1 ++ l2)) in H.
    + rewrite apply1_0 in H; [lra|]. intros x Hx. rewrite peval_pmul_lin. rewrite E in Hx. apply in_app_or in Hx. destruct Hx as [Hx|[<-|Hx]]; [|ring|]; rewrite psq_0; [ring| |ring|]; apply in_or_app; auto.
    + intros x Hx. rewrite peval_pmul_lin. apply Rmult_le_pos; [lra|apply psq_ge].
    + intros x Hx Hn. rewrite peval_pmul_lin. apply Rmult_lt_0_compat; [lra|apply psq_pos; auto].
Qed.
