(** The integral of the squared nodal polynomial of a Gauss rule: mu_0 beta_1 ... beta_n. *)
From Coq Require Import Reals List Arith ZArith Lia Lra.
From Coquelicot Require Import Coquelicot.
From Verif Require Import Spec Spec1 RsumLemmas C1Tools GwSpec GwProofs GwBound GaussShapeProofs LineProofs GaussErrSpec.
Import ListNotations.
Set Bullet Behavior "Strict Subproofs".
Open Scope R_scope.

(** A monic polynomial is x^k plus one of lower degree. *)
Lemma monic_low a b k : exists r, (length r <= k)%nat /\ forall x, monic a b k x = x ^ k + peval r x.
Proof.
  assert (G : forall k, (exists r, (length r <= k)%nat /\ forall x, monic a b k x = x ^ k + peval r x) /\ (exists r, (length r <= S k)%nat /\ forall x, monic a b (S k) x = x ^ S k + peval r x)); [|apply (G k)].
  clear k. induction k as [|k [(r0 & L0 & H0) (r1 & L1 & H1)]].
  - split; [exists []; split; [cbn; lia|intros; cbn; ring]|]. exists [- a 0%nat]. split; [cbn; lia|intros; cbn; ring].
  - split; [exists r1; auto|]. exists (padd (padd (map (Rmult (- a (S k))) (repeat 0 (S k) ++ [1])) (pmul_lin (- a (S k)) 1 r1)) (map (Rmult (- b (S k))) (padd (repeat 0 k ++ [1]) r0))). split.
    + assert (A := pmul_lin_length (- a (S k)) 1 r1). apply padd_length; [apply padd_length; [rewrite map_length, app_length, repeat_length; cbn; lia|lia]|].
      rewrite map_length. apply padd_length; [rewrite app_length, repeat_length; cbn; lia|lia].
    + intros x. rewrite monic_SS, H1, H0. rewrite !peval_padd, peval_pmul_lin, !peval_scale, peval_padd, !mono_eval. cbn [pow]. ring.
Qed.
Lemma pprod_low Y : exists r, (length r <= length Y)%nat /\ forall x, peval (pprod Y) x = x ^ length Y + peval r x.
Proof.
  induction Y as [|y Y (r & L & H)]; [exists []; split; [cbn; lia|intros; cbn; ring]|].
  exists (padd (map (Rmult (- y)) (repeat 0 (length Y) ++ [1])) (pmul_lin (- y) 1 r)). split.
  - assert (A := pmul_lin_length (- y) 1 r). apply padd_length; [rewrite map_length, app_length, repeat_length; cbn; lia|cbn [length]; lia].
  - intros x. rewrite pprod_cons, H, peval_padd, peval_pmul_lin, peval_scale, mono_eval. cbn [length pow]. ring.
Qed.
(** prod (x - y) r(x) *)
Definition prodr (Y r : list R) : list R := fold_right (fun y c => pmul_lin (- y) 1 c) r Y.
Lemma prodr_eval Y r x : peval (prodr Y r) x = peval (pprod Y) x * peval r x.
Proof. induction Y as [|y Y IH]; [cbn; ring|]. cbn [prodr fold_right]. fold (prodr Y r). rewrite peval_pmul_lin, IH, pprod_cons. ring. Qed.
Lemma prodr_length Y r : (length (prodr Y r) <= length Y + length r)%nat.
Proof. induction Y as [|y Y IH]; [cbn; lia|]. cbn [prodr fold_right length]. fold (prodr Y r). assert (A := pmul_lin_length (- y) 1 (prodr Y r)). destruct (prodr Y r); cbn in *; lia. Qed.
(** Two rules with the same moments agree on polynomials. *)
Lemma mu_poly mu q q' d d' c : exact1_mu d mu q -> exact1_mu d' mu q' -> (length c <= S d)%nat -> (length c <= S d')%nat -> apply1 q (peval c) = apply1 q' (peval c).
Proof.
  intros X X' L L'.
  assert (G : forall c k, (k + length c <= S d)%nat -> (k + length c <= S d')%nat -> apply1 q (fun x => x ^ k * peval c x) = apply1 q' (fun x => x ^ k * peval c x)).
  { clear c L L'. induction c as [|u c IH]; intros k Lk Lk'; cbn [length] in *.
    - rewrite !(apply1_fext _ (fun x => x ^ k * peval [] x) (fun x => 0 * 0 + 0 * 0 + 0 * 0)) by (intros; cbn; ring). rewrite !(apply1_lin _ 0 0 0 (fun _ => 0) (fun _ => 0) (fun _ => 0)). ring.
    - rewrite !(apply1_fext _ (fun x => x ^ k * peval (u :: c) x) (fun x => u * x ^ k + 1 * (x ^ S k * peval c x) + 0 * 0)) by (intros; cbn; ring).
      rewrite !(apply1_lin _ u 1 0 (fun x => x ^ k) (fun x => x ^ S k * peval c x) (fun _ => 0)). rewrite (IH (S k)) by lia. rewrite (X k), (X' k) by lia. ring. }
  assert (G0 := G c 0%nat L L'). rewrite !(apply1_fext _ (fun x => x ^ 0 * peval c x) (peval c)) in G0 by (intros; cbn; ring). exact G0.
Qed.
Lemma psq_pprod Y x : peval (psq Y) x = peval (pprod Y) x * peval (pprod Y) x.
Proof. induction Y as [|y Y IH]; [cbn; ring|]. rewrite psq_cons, pprod_cons, IH. ring. Qed.
Theorem nodal_norm a b mu q q' n : (forall k, orthogonal a b mu k) -> length q = n -> exact1_mu (2 * n - 1) mu q -> exact1_mu (2 * n + 1) mu q' -> (1 <= n)%nat ->
  apply1 q' (peval (psq (map snd q))) = mu 0%nat * bprod b n.
Proof.
  intros HO L X X' Hn. set (Y := map snd q). assert (LY : length Y = n) by (unfold Y; rewrite map_length; auto).
  destruct (pprod_low Y) as (r & Lr & Hr). rewrite LY in Lr, Hr. destruct (monic_low a b n) as (s & Ls & Hs).
  assert (M : forall m, (m <= n)%nat -> apply1 q' (fun x => x ^ m * monic a b n x) = lmonic a b mu n m).
  { intros m Hm. rewrite <- lmonic_apply1. assert (E := lmonic_diff a b (fun j => apply1 q' (fun x => x ^ j)) mu n m ltac:(intros j Hj; apply X'; lia)). cbn beta in E. assert (E' := X' (m + n)%nat ltac:(lia)). cbn beta in E'. lra. }
  assert (P1 : forall c k, (k + length c <= n)%nat -> apply1 q' (fun x => x ^ k * (peval c x * monic a b n x)) = 0).
  { induction c as [|u c IH]; intros k Lk; cbn [length] in Lk.
    - rewrite (apply1_fext _ (fun x => x ^ k * (peval [] x * monic a b n x)) (fun x => 0 * 0 + 0 * 0 + 0 * 0)) by (intros; cbn [peval]; ring). rewrite (apply1_lin _ 0 0 0 (fun _ => 0) (fun _ => 0) (fun _ => 0)). ring.
    - rewrite (apply1_fext _ (fun x => x ^ k * (peval (u :: c) x * monic a b n x)) (fun x => u * (x ^ k * monic a b n x) + 1 * (x ^ S k * (peval c x * monic a b n x)) + 0 * 0)) by (intros; cbn [peval pow]; ring).
      rewrite (apply1_lin _ u 1 0 (fun x => x ^ k * monic a b n x) (fun x => x ^ S k * (peval c x * monic a b n x)) (fun _ => 0)).
      rewrite (IH (S k)) by lia. rewrite M by lia. rewrite (HO n n k) by lia. ring. }
  assert (P2 : forall c, (length c <= n)%nat -> apply1 q' (fun x => peval (pprod Y) x * peval c x) = 0).
  { intros c Lc. rewrite <- (apply1_fext q' (peval (prodr Y c))) by (intros; apply prodr_eval). assert (A := prodr_length Y c).
    rewrite <- (mu_poly mu q q' (2 * n - 1) (2 * n + 1)); auto; try lia. unfold apply1. rewrite (Rsum_map_ext _ (fun _ => 0)).
    - clear. induction q; cbn; lra.
    - intros [w x] H. cbn [fst snd]. rewrite prodr_eval, pprod_0 by (unfold Y; apply in_map_iff; exists (w, x); auto). ring. }
  set (t := padd r (map (Rmult (-1)) s)). assert (Lt : (length t <= n)%nat) by (apply padd_length; rewrite ?map_length; lia).
  rewrite (apply1_fext q' (peval (psq Y)) (fun x => 1 * (peval (pprod Y) x * peval t x) + 1 * (x ^ 0 * (peval r x * monic a b n x)) + 1 * (x ^ n * monic a b n x))).
  - rewrite (apply1_lin q' 1 1 1 (fun x => peval (pprod Y) x * peval t x) (fun x => x ^ 0 * (peval r x * monic a b n x)) (fun x => x ^ n * monic a b n x)).
    rewrite P2, P1, M by lia. rewrite (lmonic_norm a b mu (S n)) by (auto; lia). ring.
  - intros x. rewrite psq_pprod. unfold t. rewrite peval_padd, peval_scale. rewrite Hs, !Hr. cbn [pow]. ring.
Qed.
(** The closed forms. *)
Lemma bprod_hermite n : bprod (fun k => INR k / 2) n = INR (fact n) / 2 ^ n.
Proof. induction n as [|n IH]; [cbn; field|]. cbn [bprod pow]. rewrite IH, fact_simpl, mult_INR. field. apply pow_nonzero. lra. Qed.
Lemma bprod_laguerre a n : bprod (fun k => INR k * (INR k + a)) n = INR (fact n) * rising a n.
Proof. induction n as [|n IH]; [cbn; ring|]. cbn [bprod rising]. rewrite IH, fact_simpl, mult_INR. ring. Qed.
Lemma bprod_legendre n : 2 * bprod (fun k => INR k ^ 2 / (4 * INR k ^ 2 - 1)) n = 2 ^ (2 * n + 1) * INR (fact n) ^ 4 / ((2 * INR n + 1) * INR (fact (2 * n)) ^ 2).
Proof.
  induction n as [|n IH]; [cbn; field|]. cbn [bprod]. rewrite <- Rmult_assoc, IH. replace (2 * S n)%nat with (S (S (2 * n))) by lia. replace (2 ^ (S (S (2 * n)) + 1)) with (4 * 2 ^ (2 * n + 1)) by (cbn [Nat.add pow]; ring).
  rewrite (fact_simpl (S (2 * n))), (fact_simpl (2 * n)), (fact_simpl n), !mult_INR, !S_INR, mult_INR. cbn [INR]. assert (F := INR_fact_lt_0 (2 * n)). assert (P := pos_INR n). set (m := INR n) in *.
  field. repeat split; try lra. nra.
Qed.
