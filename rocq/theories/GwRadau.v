(** Gauss-Radau and Gauss-Lobatto rules, for every recurrence whose polynomials do not vanish at the prescribed nodes. *)
From Coq Require Import Reals List Arith ZArith Lia Lra Sorted.
From Coquelicot Require Import Coquelicot.
From Verif Require Import Spec Spec1 RsumLemmas AdaptModel PyBase UnModel C1Tools Interp C1Model C1Proofs GwSpec GwProofs GwExist GwModel GwRc.
Import ListNotations.
Set Bullet Behavior "Strict Subproofs".
Open Scope R_scope.

Lemma set_last_spec l v n : length l = S n -> length (set_last l v) = S n /\ (forall i, (i < n)%nat -> nth i (set_last l v) 0 = nth i l 0) /\ nth n (set_last l v) 0 = v.
Proof.
  intros L. destruct (exists_last (l := l) ltac:(destruct l; [discriminate|congruence])) as [l' [x ->]]. rewrite app_length in L. cbn in L. unfold set_last. rewrite removelast_last.
  split; [rewrite app_length; cbn; lia|]. split; [intros i Hi; rewrite !app_nth1 by lia; auto|]. rewrite app_nth2 by lia. replace (n - length l')%nat with 0%nat by lia. auto.
Qed.
Lemma set_first_spec l v n : length l = S n -> length (set_first l v) = S n /\ (forall i, (0 < i)%nat -> nth i (set_first l v) 0 = nth i l 0) /\ nth 0 (set_first l v) 0 = v.
Proof. intros L. destruct l as [|x l]; [discriminate|]. unfold set_first. cbn in *. repeat split; auto. intros [|i] Hi; [lia|auto]. Qed.
Lemma last_nth l n : length l = S n -> last_of l = nth n l 0.
Proof.
  intros L. destruct (exists_last (l := l) ltac:(destruct l; [discriminate|congruence])) as [l' [x ->]]. rewrite app_length in L. cbn in L. unfold last_of. rewrite last_last. rewrite app_nth2 by lia. replace (n - length l')%nat with 0%nat by lia. auto.
Qed.
Lemma Forall_nth_pos (l : list R) n : length l = n -> (forall i, (i < n)%nat -> 0 < nth i l 0) -> List.Forall (fun b => 0 < b) l.
Proof. intros L H. apply List.Forall_forall. intros b Hb. destruct (In_nth l b 0 Hb) as [i [Hi <-]]. apply H. lia. Qed.
Lemma nth_tl_R (l : list R) i : nth i (tl l) 0 = nth (S i) l 0.
Proof. destruct l; [destruct i; auto|auto]. Qed.
Lemma length_tl_R (l : list R) n : length l = S n -> length (tl l) = n.
Proof. destruct l; cbn; lia. Qed.

(** Polynomials positive at 1 and of alternating sign at -1. *)
Definition good_ends (rc : recurrence) : Prop :=
  forall k, 0 < monic (rc_alpha rc) (rc_beta rc) k 1 /\ 0 < (-1) ^ k * monic (rc_alpha rc) (rc_beta rc) k (-1).
Definition gauss_like (mu : nat -> R) (n d : nat) (s : c1_scheme) : Prop :=
  length (c1_rule s) = n /\ exact1_mu d mu (c1_rule s) /\ List.Forall (fun wx => 0 <= fst wx) (c1_rule s) /\ Sorted Rle (map snd (c1_rule s)).
Lemma gauss_like_of mu n d deg x w : length x = n -> length w = n -> Sorted Rle x -> exact1_mu d mu (List.combine w x) -> List.Forall (fun v => 0 <= v) w ->
  gauss_like mu n d (c1_of deg (x, w)) /\ map snd (c1_rule (c1_of deg (x, w))) = x.
Proof.
  intros Lx Lw HS HX HW. unfold gauss_like, c1_of, c1_scheme_of. cbn [c1_rule fst snd]. rewrite combine_rule_points by lia. split; auto. split; [rewrite combine_length; lia|]. split; auto. split; auto.
  apply List.Forall_forall. intros [w0 x0] Hin. cbn [fst]. apply in_combine_l in Hin. rewrite List.Forall_forall in HW. auto.
Qed.
Theorem radau_exact eigh solve rc mu n : eigen_solver eigh -> banded_solver solve -> good_rc rc mu -> (forall k, monic (rc_alpha rc) (rc_beta rc) k (-1) <> 0) -> (2 <= n)%nat ->
  exists s, gauss_radau eigh solve rc n = Some s /\ c1_degree s = (2 * Z.of_nat n - 1)%Z /\ gauss_like mu n (2 * n - 2) s /\ In (-1) (map snd (c1_rule s)).
Proof.
  intros HE HB [Hb [Hm [Hi HO]]] Hg Hn. destruct n as [|[|m]]; [lia|lia|]. unfold gauss_radau. cbn [Nat.ltb Nat.leb].
  set (alpha := map (rc_alpha rc) (seq 0 (S (S m)))). set (beta0 := map (rc_beta rc) (seq 0 (S (S m)))).
  assert (La : length alpha = S (S m)) by (unfold alpha; rewrite map_length, seq_length; auto). assert (Lb0 : length beta0 = S (S m)) by (unfold beta0; rewrite map_length, seq_length; auto).
  unfold radau. set (beta := set_first beta0 (rc_int rc)). destruct (set_first_spec beta0 (rc_int rc) _ Lb0) as [Lb [Eb Eb0]]. fold beta in Lb, Eb, Eb0.
  assert (Ea : forall i, (i < S (S m))%nat -> nth i alpha 0 = rc_alpha rc i) by (intros i Hi'; apply nth_seq; auto).
  assert (Ebb : forall i, (0 < i < S (S m))%nat -> nth i beta 0 = rc_beta rc i) by (intros i Hi'; rewrite Eb by lia; apply nth_seq; lia).
  assert (Hbp : forall i, (i < S (S m))%nat -> 0 < nth i beta 0) by (intros i Hi'; destruct i; [rewrite Eb0; auto|rewrite Ebb by lia; apply Hb; lia]).
  assert (HF : List.Forall (fun b => 0 < b) beta) by (apply (Forall_nth_pos _ _ Lb); auto).
  rewrite opt_list_sqrt by auto. cbn [bind]. rewrite La. replace (S (S m) - 1 - 1)%nat with m by lia.
  assert (Mo : forall k, (k <= S m)%nat -> monic (fun i => nth i alpha 0) (fun i => nth i beta 0) k (-1) = monic (rc_alpha rc) (rc_beta rc) k (-1)) by (intros k Hk; apply monic_ext; intros; [apply Ea|apply Ebb]; lia).
  destruct (shifted_solve solve (map sqrt beta) alpha beta m (-1) (last_of beta) HB La Lb eq_refl HF ltac:(rewrite Mo by lia; apply Hg)) as [d [Ed El]]. rewrite Ed. cbn [bind].
  destruct (set_last_spec alpha (-1 + last_of d) _ La) as [LA [EA EAl]]. set (alphar := set_last alpha (-1 + last_of d)) in *.
  destruct (scheme_from_rc_exact eigh alphar beta (rc_int rc) (S m) (rc_alpha rc) (rc_beta rc) mu (S (S m)) (2 * S (S m) - 2) (S m) (S (S m)) HE LA Lb ltac:(destruct beta; [apply List.Forall_nil|inversion HF; auto]) (HO _) Hm) as [x [w [ER [Lx [Lw [HS [HX [HW HC]]]]]]]].
  - intros i L. rewrite EA by auto. apply Ea. lia.
  - intros i L. apply Ebb. auto.
  - lia.
  - intros k Hk. lia.
  - intros k Hk. lia.
  - rewrite ER. cbn [bind]. eexists. split; [reflexivity|]. split; [unfold c1_of; cbn [c1_scheme_of c1_degree]; lia|].
    destruct (gauss_like_of mu (S (S m)) (2 * S (S m) - 2) (2 * Z.of_nat (S (S m)) - 1) x w Lx Lw HS HX (HW ltac:(lra))) as [G1 G2]. split; auto. rewrite G2.
    apply HC. rewrite monic_SS. rewrite EAl.
    assert (Mr : forall k, (k <= S m)%nat -> monic (fun i => nth i alphar 0) (fun i => nth i beta 0) k (-1) = monic (rc_alpha rc) (rc_beta rc) k (-1)) by (intros k Hk; apply monic_ext; intros; [rewrite EA by lia; apply Ea|apply Ebb]; lia).
    rewrite !Mr by lia. rewrite El. rewrite !Mo by lia. rewrite (last_nth beta (S m) Lb). field. apply Hg.
Qed.
Theorem lobatto_exact eigh solve rc mu n : eigen_solver eigh -> banded_solver solve -> good_rc rc mu -> good_ends rc -> (2 <= n)%nat ->
  exists s, gauss_lobatto eigh solve rc n = Some s /\ c1_degree s = (2 * Z.of_nat n - 3)%Z /\ gauss_like mu n (2 * n - 3) s /\ In (-1) (map snd (c1_rule s)) /\ In 1 (map snd (c1_rule s)).
Proof.
  intros HE HB [Hb [Hm [Hi HO]]] Hg Hn. destruct n as [|[|m]]; [lia|lia|]. unfold gauss_lobatto. cbn [Nat.ltb Nat.leb].
  set (alpha := map (rc_alpha rc) (seq 0 (S (S m)))). set (beta0 := map (rc_beta rc) (seq 0 (S (S m)))).
  assert (La : length alpha = S (S m)) by (unfold alpha; rewrite map_length, seq_length; auto). assert (Lb0 : length beta0 = S (S m)) by (unfold beta0; rewrite map_length, seq_length; auto).
  unfold lobatto. set (beta := set_first beta0 (rc_int rc)). destruct (set_first_spec beta0 (rc_int rc) _ Lb0) as [Lb [Eb Eb0]]. fold beta in Lb, Eb, Eb0.
  assert (Ea : forall i, (i < S (S m))%nat -> nth i alpha 0 = rc_alpha rc i) by (intros i Hi'; apply nth_seq; auto).
  assert (Ebb : forall i, (0 < i < S (S m))%nat -> nth i beta 0 = rc_beta rc i) by (intros i Hi'; rewrite Eb by lia; apply nth_seq; lia).
  assert (Hbp : forall i, (i < S (S m))%nat -> 0 < nth i beta 0) by (intros i Hi'; destruct i; [rewrite Eb0; auto|rewrite Ebb by lia; apply Hb; lia]).
  assert (HF : List.Forall (fun b => 0 < b) beta) by (apply (Forall_nth_pos _ _ Lb); auto).
  rewrite opt_list_sqrt by auto. cbn [bind]. rewrite La. replace (S (S m) - 1 - 1)%nat with m by lia.
  assert (Mo : forall r k, (k <= S m)%nat -> monic (fun i => nth i alpha 0) (fun i => nth i beta 0) k r = monic (rc_alpha rc) (rc_beta rc) k r) by (intros r k Hk; apply monic_ext; intros; [apply Ea|apply Ebb]; lia).
  set (p := monic (rc_alpha rc) (rc_beta rc)) in *.
  destruct (Hg m) as [Gp Gm]. destruct (Hg (S m)) as [Gp1 Gm1]. fold p in Gp, Gm, Gp1, Gm1. assert (Nz1 : p (S m) (-1) <> 0) by (intros Z; rewrite Z in Gm1; lra).
  destruct (shifted_solve solve (map sqrt beta) alpha beta m (-1) 1 HB La Lb eq_refl HF ltac:(rewrite Mo by lia; auto)) as [g1 [E1 El1]].
  destruct (shifted_solve solve (map sqrt beta) alpha beta m 1 1 HB La Lb eq_refl HF ltac:(rewrite Mo by lia; lra)) as [g2 [E2 El2]].
  rewrite E1, E2. cbn [bind]. rewrite !Mo in El1, El2 by lia. fold p in El1, El2.
  assert (Q1 : 0 < last_of g1).
  { rewrite El1. assert (T : 0 < ((-1) ^ m * p m (-1)) * / ((-1) ^ S m * p (S m) (-1))) by (apply Rmult_lt_0_compat; auto; apply Rinv_0_lt_compat; auto).
    replace (- (1) * p m (-1) / p (S m) (-1)) with ((-1) ^ m * p m (-1) * / ((-1) ^ S m * p (S m) (-1))); auto. cbn [pow]. field. split; auto. apply pow_nonzero. lra. }
  assert (Q2 : last_of g2 < 0).
  { rewrite El2. assert (T : 0 < p m 1 * / p (S m) 1) by (apply Rmult_lt_0_compat; auto; apply Rinv_0_lt_compat; auto). unfold Rdiv. lra. }
  unfold solve2. rewrite !rdiv_ok by lra. cbn [bind fst snd]. set (A := (-1 * - last_of g2 - - last_of g1 * 1) / (1 * - last_of g2 - - last_of g1 * 1)). set (B := (1 * 1 - -1 * 1) / (1 * - last_of g2 - - last_of g1 * 1)).
  assert (HBp : 0 < B) by (unfold B; apply Rdiv_lt_0_compat; lra).
  assert (HA1 : -1 - A = - last_of g1 * B) by (unfold A, B; field; lra). assert (HA2 : 1 - A = - last_of g2 * B) by (unfold A, B; field; lra).
  destruct (set_last_spec alpha A _ La) as [LA [EA EAl]]. set (alphal := set_last alpha A) in *. destruct (set_last_spec beta B _ Lb) as [LB [EB EBl]]. set (betal := set_last beta B) in *.
  destruct (scheme_from_rc_exact eigh alphal betal (rc_int rc) (S m) (rc_alpha rc) (rc_beta rc) mu (S (S m)) (2 * S (S m) - 3) (S m) (S m) HE LA LB) as [x [w [ER [Lx [Lw [HS [HX [HW HC]]]]]]]]; auto.
  - apply (Forall_nth_pos _ _ (length_tl_R _ _ LB)). intros i Hi'. rewrite nth_tl_R. destruct (Nat.eq_dec i m) as [->|N]; [rewrite EBl; auto|rewrite EB by lia; apply Hbp; lia].
  - intros i L. rewrite EA by auto. apply Ea. lia.
  - intros i L. rewrite EB by lia. apply Ebb. lia.
  - intros k Hk. lia.
  - intros k Hk. lia.
  - rewrite ER. cbn [bind]. eexists. split; [reflexivity|]. split; [unfold c1_of; cbn [c1_scheme_of c1_degree]; lia|].
    destruct (gauss_like_of mu (S (S m)) (2 * S (S m) - 3) (2 * Z.of_nat (S (S m)) - 3) x w Lx Lw HS HX (HW ltac:(lra))) as [G1 G2]. split; auto. rewrite G2.
    assert (Mr : forall r k, (k <= S m)%nat -> monic (fun i => nth i alphal 0) (fun i => nth i betal 0) k r = p k r) by (intros r k Hk; apply monic_ext; intros; [rewrite EA by lia; apply Ea|rewrite EB by lia; apply Ebb]; lia).
    split; apply HC; rewrite monic_SS, EAl, EBl, !Mr by lia; [rewrite HA1, El1|rewrite HA2, El2]; field; auto. lra.
Qed.
