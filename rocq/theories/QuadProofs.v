(** Gauss-Kronrod estimates, the adaptive integrator on polynomials, and quad(). *)
From Coq Require Import Reals List Arith Bool Lia Lra Permutation.
From Coquelicot Require Import Coquelicot.
From Verif Require Import Spec RsumLemmas IntegralProofs Spec1 CombModel PyBase AdaptModel AdaptProofs C1Tools.
Import ListNotations.
Open Scope R_scope.
Set Bullet Behavior "Strict Subproofs".

(** The nodes of the Gauss rule are every second node of the Kronrod rule. *)
Definition nested (gk gl : rule1) : Prop := odd_positions (map snd gk) = map snd gl.

Lemma odd_positions_map {A B} (g : A -> B) l : odd_positions (map g l) = map g (odd_positions l).
Proof.
  assert (H : forall n l, (length l <= n)%nat -> odd_positions (map g l) = map g (odd_positions l)).
  { induction n as [|n IH]; intros [|a [|b l']] Hl; cbn in *; auto; try lia. f_equal. apply IH. lia. }
  apply (H (length l)). auto.
Qed.
Lemma gl_val_integrate gk gl f iv j : nested gk gl ->
  gl_val gk gl f iv j = c1_integrate gl (fun x => f x j) iv.
Proof.
  intros H. unfold gl_val, c1_integrate. f_equal. unfold gk_fx, dot.
  transitivity (Rsum (map (fun e => fst e * snd e)
    (List.combine (map (fun x => f (to_interval iv x) j) (odd_positions (map snd gk))) (map fst gl)))).
  - rewrite <- (odd_positions_map (fun x => f (to_interval iv x) j)), map_map. auto.
  - rewrite H, map_map. clear H. induction gl as [|[w x] gl IH]; cbn; auto. rewrite <- IH. ring.
Qed.

Lemma dot_nonneg fx w : (forall x, In x fx -> 0 <= x) -> (forall x, In x w -> 0 <= x) -> 0 <= dot fx w.
Proof.
  intros H1 H2. apply Rsum_nonneg. intros x Hx. apply in_map_iff in Hx. destruct Hx as [[a b] [<- Hin]].
  apply Rmult_le_pos; [apply H1; apply in_combine_l in Hin|apply H2; apply in_combine_r in Hin]; auto.
Qed.
Lemma I_tilde_nonneg gk f iv j : (forall w, In w (map fst gk) -> 0 <= w) -> 0 <= I_tilde gk f iv j.
Proof.
  intros H. unfold I_tilde. apply Rmult_le_pos.
  - apply Rmult_le_pos; [lra|apply length_nonneg].
  - apply dot_nonneg; auto. intros x Hx. apply in_map_iff in Hx. destruct Hx as [y [<- _]]. apply Rabs_pos.
Qed.
Theorem error_estimate_bounds gk gl f iv j : (forall w, In w (map fst gk) -> 0 <= w) ->
  0 <= error_estimate gk gl f iv j <= I_tilde gk f iv j.
Proof.
  intros H. pose proof (I_tilde_nonneg gk f iv j H) as HI. unfold error_estimate.
  set (I := I_tilde gk f iv j) in *. destruct (Rltb _ _) eqn:E; [|lra].
  apply Rltb_true in E. rewrite Rabs_right in E by lra. assert (1 / 10 ^ 15 > 0) by lra.
  set (v := _ / I). assert (Hv : 0 <= v).
  { unfold v. apply Rmult_le_pos; [|left; apply Rinv_0_lt_compat; lra]. pose proof (Rabs_pos (gk_val gk f iv j - gl_val gk gl f iv j)). lra. }
  assert (0 <= v * sqrt v) by (apply Rmult_le_pos; auto; apply sqrt_pos).
  assert (0 <= Rmin 1 (v * sqrt v)) by (apply Rmin_glb; lra).
  pose proof (Rmin_l 1 (v * sqrt v)). split.
  - apply Rmult_le_pos; lra.
  - rewrite <- (Rmult_1_l I) at 2. apply Rmult_le_compat_r; lra.
Qed.
Theorem error_estimate_zero gk gl f iv j : (forall w, In w (map fst gk) -> 0 <= w) ->
  gk_val gk f iv j = gl_val gk gl f iv j -> 1 / 10 ^ 15 < I_tilde gk f iv j -> error_estimate gk gl f iv j = 0.
Proof.
  intros H E HI. unfold error_estimate. rewrite E. replace (_ - _) with 0 by ring. rewrite Rabs_R0.
  rewrite (proj2 (Rltb_true _ _)); [|rewrite Rabs_right; lra]. 
  replace (200 * 0 / I_tilde gk f iv j) with 0 by (field; lra). rewrite Rmult_0_l, Rmin_right by lra. ring.
Qed.
Theorem error_estimate_zero_inv gk gl f iv j : (forall w, In w (map fst gk) -> 0 <= w) ->
  error_estimate gk gl f iv j = 0 -> I_tilde gk f iv j = 0 \/ gk_val gk f iv j = gl_val gk gl f iv j.
Proof.
  intros H E. pose proof (I_tilde_nonneg gk f iv j H) as HI. unfold error_estimate in E.
  set (I := I_tilde gk f iv j) in *. destruct (Rltb _ _) eqn:El; [|left; lra].
  apply Rltb_true in El. rewrite Rabs_right in El by lra. right.
  apply Rmult_integral in E. destruct E as [E|E]; [|lra].
  set (d := gk_val gk f iv j - gl_val gk gl f iv j) in *.
  destruct (Req_dec d 0) as [Hd|Hd]; [unfold d in Hd; lra|exfalso].
  assert (0 < Rabs d) by (apply Rabs_pos_lt; auto).
  assert (Hv : 0 < 200 * Rabs d / I) by (apply Rmult_lt_0_compat; [lra|apply Rinv_0_lt_compat; lra]).
  assert (0 < 200 * Rabs d / I * sqrt (200 * Rabs d / I)) by (apply Rmult_lt_0_compat; auto; apply sqrt_lt_R0; auto).
  assert (0 < Rmin 1 (200 * Rabs d / I * sqrt (200 * Rabs d / I))) by (apply Rmin_glb_lt; lra). lra.
Qed.
Theorem error_estimate_tiny gk gl f iv j : Rabs (I_tilde gk f iv j) <= 1 / 10 ^ 15 ->
  error_estimate gk gl f iv j = I_tilde gk f iv j.
Proof. intros H. unfold error_estimate. rewrite (proj2 (Rltb_false _ _)); lra. Qed.

(* ------------------------------------------------------------------ adaptive on polynomials *)
Theorem adaptive_polynomial d gk gl m (c : nat -> list R) a b ea er conn ml mx fuel v e j :
  nested gk gl -> exact1 d gl -> (length (c j) <= S d)%nat ->
  integrate_adaptive gk gl m (fun x j => peval (c j) x) [(a, b)] ea er conn ml mx fuel = Returned v e ->
  v j = RInt (peval (c j)) a b.
Proof.
  intros Hn Hx Hc H. apply main_returned in H. destruct H as [a' [b' [l [E [Hab [Ht [Hv _]]]]]]].
  injection E as <- <-. rewrite Hv. rewrite (tiling_RInt _ a b l (fun u v _ _ => peval_ex_RInt (c j) u v) Ht).
  apply Rsum_map_ext. intros [u w] Hin. rewrite gl_val_integrate by auto.
  rewrite (c1_integrate_exact d gl (c j)) by auto.
  destruct (tiling_le _ _ _ _ Ht Hin) as [_ [Hle _]]. cbn [fst snd] in *. rewrite Rmin_left, Rmax_right; auto.
Qed.
(** If the error estimate of every subinterval is an upper bound then so is the returned error. *)
Theorem adaptive_error_bound gk gl m f a b ea er conn ml mx fuel v e j :
  (forall u w, a <= u -> w <= b -> ex_RInt (fun x => f x j) u w) ->
  (forall u w, a <= u <= w /\ w <= b -> 
     Rabs (gl_val gk gl f (u, w) j - RInt (fun x => f x j) u w) <= error_estimate gk gl f (u, w) j) ->
  integrate_adaptive gk gl m f [(a, b)] ea er conn ml mx fuel = Returned v e ->
  Rabs (v j - RInt (fun x => f x j) a b) <= e j.
Proof.
  intros Hex Hb H. apply main_returned in H. destruct H as [a' [b' [l [E [Hab [Ht [Hv He]]]]]]].
  injection E as <- <-. rewrite Hv, He. rewrite (tiling_RInt _ a b l Hex Ht). unfold sum_over.
  assert (G : forall iv, In iv l -> Rabs (gl_val gk gl f iv j - RInt (fun x => f x j) (fst iv) (snd iv)) <= error_estimate gk gl f iv j).
  { intros [u w] Hin. destruct (tiling_le _ _ _ _ Ht Hin) as [? [? ?]]. cbn [fst snd] in *. apply Hb. lra. }
  clear -G. induction l as [|iv l IH]; cbn [map Rsum].
  - rewrite Rminus_0_r, Rabs_R0. lra.
  - match goal with |- Rabs (?x + ?y - (?z + ?t)) <= _ => replace (x + y - (z + t)) with ((x - z) + (y - t)) by ring end.
    eapply Rle_trans; [apply Rabs_triang|]. apply Rplus_le_compat; [apply G; left; auto|].
    apply IH. intros; apply G; right; auto.
Qed.

(* ------------------------------------------------------------------ changes of variables in quad *)
Lemma opp_inj_R (u v : R) : - u = opp v -> u = v.
Proof. intros H. change (opp v) with (- v) in H. lra. Qed.
Lemma RInt_recip_up (f : R -> R) a s : 0 < s <= 1 -> (forall x, continuous f x) ->
  RInt (fun t => f (a + (1 - t) / t) / t ^ 2) s 1 = RInt f a (a + (1 - s) / s).
Proof.
  intros Hs Hc.
  assert (E := RInt_comp (V := R_CompleteNormedModule) f (fun t => a + (1 - t) / t) (fun t => - / t ^ 2) s 1).
  rewrite Rmin_left, Rmax_right in E by lra.
  specialize (E (fun x _ => Hc _)).
  assert (Hd : forall x, s <= x <= 1 -> is_derive (fun t => a + (1 - t) / t) x (- / x ^ 2) /\ continuous (fun t => - / t ^ 2) x).
  { intros x Hx. split.
    - auto_derive; [lra|]. field. lra.
    - apply (ex_derive_continuous (fun t => - / t ^ 2)). auto_derive. assert (0 < x ^ 2) by (apply pow_lt; lra). cbn in *. lra. }
  specialize (E Hd). replace (a + (1 - 1) / 1) with a in E by field.
  assert (Hex : ex_RInt (fun t => f (a + (1 - t) / t) / t ^ 2) s 1).
  { apply (ex_RInt_continuous (V := R_CompleteNormedModule)). intros x Hx. rewrite Rmin_left, Rmax_right in Hx by lra.
    apply (continuous_mult (fun t => f (a + (1 - t) / t)) (fun t => / t ^ 2)).
    - apply (continuous_comp (fun t => a + (1 - t) / t) f); [|apply Hc].
      apply (ex_derive_continuous (fun t => a + (1 - t) / t)). auto_derive. lra.
    - apply (ex_derive_continuous (fun t => / t ^ 2)). auto_derive. assert (0 < x ^ 2) by (apply pow_lt; lra). cbn in *. lra. }
  rewrite <- (opp_RInt_swap (V := R_CompleteNormedModule) f a (a + (1 - s) / s)) in E.
  2:{ apply (ex_RInt_continuous (V := R_CompleteNormedModule)). intros; apply Hc. }
  assert (E2 : RInt (fun y => scal (- / y ^ 2) (f (a + (1 - y) / y))) s 1 = - RInt (fun t => f (a + (1 - t) / t) / t ^ 2) s 1).
  { etransitivity; [|exact (RInt_opp (V := R_CompleteNormedModule) (fun t => f (a + (1 - t) / t) / t ^ 2) s 1 Hex)].
    apply RInt_ext. intros x _. unfold scal, opp. cbn. unfold mult. cbn. unfold Rdiv. ring. }
  exact (opp_inj_R _ _ (eq_trans (eq_sym E2) E)).
Qed.
Lemma RInt_recip_down (f : R -> R) b s : 0 < s <= 1 -> (forall x, continuous f x) ->
  RInt (fun t => f (b - (1 - t) / t) / t ^ 2) s 1 = RInt f (b - (1 - s) / s) b.
Proof.
  intros Hs Hc.
  rewrite (RInt_ext _ (fun t => (fun y => f (- y)) (- b + (1 - t) / t) / t ^ 2)).
  2:{ intros t _. do 2 f_equal. ring. }
  rewrite (RInt_recip_up (fun y => f (- y)) (- b) s Hs).
  2:{ intros x. apply (continuous_comp Ropp f); [apply (continuous_opp (fun y : R => y)); apply continuous_id|apply Hc]. }
  assert (Hex : forall u v, ex_RInt f u v) by (intros; apply (ex_RInt_continuous (V := R_CompleteNormedModule)); intros; apply Hc).
  assert (E := RInt_comp_lin (V := R_CompleteNormedModule) f (-1) 0 (- b) (- b + (1 - s) / s) (Hex _ _)).
  replace (-1 * - b + 0) with b in E by ring. replace (-1 * (- b + (1 - s) / s) + 0) with (b - (1 - s) / s) in E by ring.
  rewrite <- (opp_RInt_swap (V := R_CompleteNormedModule) f (b - (1 - s) / s) b) in E by apply Hex.
  assert (Hg : ex_RInt (fun y => f (- y)) (- b) (- b + (1 - s) / s)).
  { apply (ex_RInt_continuous (V := R_CompleteNormedModule)). intros x _. 
    apply (continuous_comp Ropp f); [apply (continuous_opp (fun y : R => y)); apply continuous_id|apply Hc]. }
  assert (E2 : RInt (fun y => scal (-1) (f (-1 * y + 0))) (- b) (- b + (1 - s) / s) = - RInt (fun y => f (- y)) (- b) (- b + (1 - s) / s)).
  { etransitivity; [|exact (RInt_opp (V := R_CompleteNormedModule) (fun y => f (- y)) _ _ Hg)].
    apply RInt_ext. intros x _. unfold scal, opp. cbn. unfold mult. cbn. replace (-1 * x + 0) with (- x) by ring. ring. }
  exact (opp_inj_R _ _ (eq_trans (eq_sym E2) E)).
Qed.
Lemma RInt_recip_both (f : R -> R) s : 0 < s <= 1 -> (forall x, continuous f x) ->
  RInt (fun t => (f ((1 - t) / t) + f (- (1 - t) / t)) / t ^ 2) s 1 = RInt f (- ((1 - s) / s)) ((1 - s) / s).
Proof.
  intros Hs Hc.
  assert (Hex : forall u v, ex_RInt f u v) by (intros; apply (ex_RInt_continuous (V := R_CompleteNormedModule)); intros; apply Hc).
  rewrite <- (RInt_Chasles (V := R_CompleteNormedModule) f (- ((1 - s) / s)) 0 ((1 - s) / s)) by apply Hex.
  pose proof (RInt_recip_up f 0 s Hs Hc) as E1. rewrite Rplus_0_l in E1.
  pose proof (RInt_recip_down f 0 s Hs Hc) as E2. rewrite Rminus_0_l in E2. rewrite <- E1, <- E2.
  assert (Hc2 : forall (g : R -> R), (forall t, s <= t <= 1 -> continuous g t) -> ex_RInt (fun t => f (g t) / t ^ 2) s 1).
  { intros g Hg. apply (ex_RInt_continuous (V := R_CompleteNormedModule)). intros x Hx. rewrite Rmin_left, Rmax_right in Hx by lra.
    apply (continuous_mult (fun t => f (g t)) (fun t => / t ^ 2)).
    - apply (continuous_comp g f); [apply Hg; auto|apply Hc].
    - apply (ex_derive_continuous (fun t => / t ^ 2)). auto_derive. assert (0 < x ^ 2) by (apply pow_lt; lra). cbn in *. lra. }
  rewrite <- (RInt_plus (V := R_CompleteNormedModule) (fun t => f (0 - (1 - t) / t) / t ^ 2) (fun t => f (0 + (1 - t) / t) / t ^ 2) s 1).
  - apply RInt_ext. intros t [Ht _]. rewrite Rmin_left in Ht by lra. unfold plus. cbn. 
    replace (0 - (1 - t) / t) with (- (1 - t) / t) by (field; lra). replace (0 + (1 - t) / t) with ((1 - t) / t) by ring.
    unfold Rdiv. ring.
  - apply (Hc2 (fun t => 0 - (1 - t) / t)). intros t Ht. apply (ex_derive_continuous (fun t => 0 - (1 - t) / t)). auto_derive. lra.
  - apply (Hc2 (fun t => 0 + (1 - t) / t)). intros t Ht. apply (ex_derive_continuous (fun t => 0 + (1 - t) / t)). auto_derive. lra.
Qed.
