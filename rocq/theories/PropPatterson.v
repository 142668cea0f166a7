(** C70 (Gauss-Patterson rules) and the part of C35 about them. *)
From Coq Require Import Reals List Arith ZArith Bool Lia Lra Permutation Sorted QArith Qreals.
From Coquelicot Require Import Coquelicot.
From Verif Require Import Spec Spec1 RsumLemmas CombModel AdaptModel PyBase C1Tools Interp Tower IntegralProofs IntegralPoly C1Model C1Proofs LegSpec PropS2S3 NearSpec PattersonModel PattersonProofs NearProofs PattersonRun.
Import ListNotations.
Set Bullet Behavior "Strict Subproofs".
Open Scope R_scope.

Lemma index_0 lg : leggauss_ok lg -> exists w, gp_get_weights lg (np_sort (gp_get_points 0)) = Some [w] /\ w = 2.
Proof.
  intros Hl. change (np_sort (gp_get_points 0)) with [0]. destruct (get_weights_odd lg [0] Hl ltac:(repeat constructor; intros []) eq_refl) as [w [E [L X]]].
  destruct w as [|a [|b w]]; cbn in L; try lia. exists a. split; auto. assert (A := exact1_powers 0 _ 0 X (le_n _)). unfold apply1, pow_int in A. cbn in A. lra.
Qed.

(** For every numpy leggauss that keeps its promise and every index the call accepts (0..8): 2^(index+1) - 1 points in
    ascending order inside (-1, 1), positive weights, the declared degree 3 2^index - 1 (1 for index 0), which is reached up
    to 10^-16 times the sum of the absolute coefficients; for index < 6 exact for degree 2^(index+1) - 1.  The points of
    each rule are points of the next. *)
Theorem C70_patterson lg index : leggauss_ok lg -> (index <= 8)%nat ->
  exists s, gauss_patterson lg index = Some s /\
    c1_degree s = (if (index =? 0)%nat then 1 else 3 * 2 ^ Z.of_nat index - 1)%Z /\
    length (c1_rule s) = (2 ^ (index + 1) - 1)%nat /\
    StronglySorted Rlt (map snd (c1_rule s)) /\
    (forall w x, In (w, x) (c1_rule s) -> 0 < w /\ -1 < x < 1) /\
    near1 (Z.to_nat (c1_degree s)) (/ 10 ^ 16) (c1_rule s) /\
    ((index < 6)%nat -> exact1 (2 ^ (index + 1) - 1) (c1_rule s)).
Proof.
  intros Hl Hi. destruct (points_facts index Hi) as [EP [LP [SP [IP _]]]]. set (P := np_sort (gp_get_points index)) in *.
  assert (PW : (1 <= 2 ^ index)%nat) by (change 1%nat with (2 ^ 0)%nat at 1; apply Nat.pow_le_mono_r; lia).
  assert (ZD : Z.of_nat (3 * 2 ^ index - 1) = (3 * 2 ^ Z.of_nat index - 1)%Z) by (rewrite Nat2Z.inj_sub, Nat2Z.inj_mul, Nat2Z.inj_pow by lia; auto).
  unfold gauss_patterson. rewrite (proj2 (Nat.leb_le index 8) Hi). cbn [guard]. cbv zeta. fold P.
  assert (R : exists w, (if (index <? 6)%nat then gp_get_weights lg P else let! sm := gp_table_weights index in Some (map Q2R (fst sm) ++ [Q2R (snd sm)] ++ rev (map Q2R (fst sm)))) = Some w /\
    length w = length P /\ (forall x, In x w -> 0 < x) /\ near1 (if (index =? 0)%nat then 1 else 3 * 2 ^ index - 1) (/ 10 ^ 16) (List.combine w P) /\ ((index < 6)%nat -> exact1 (2 ^ (index + 1) - 1) (List.combine w P))).
  { destruct (Nat.ltb_spec index 6) as [H6|H6].
    - destruct (Nat.eqb_spec index 0) as [E0|N0].
      + subst index. destruct (index_0 lg Hl) as [w [E W]]. exists [w]. change (np_sort (gp_get_points 0)) with [0] in *. split; auto. split; [reflexivity|]. split; [intros x [<-|[]]; lra|].
        assert (X : exact1 1 (List.combine [w] P)).
        { unfold P. cbn [List.combine]. apply exact1_of_powers. intros k Hk. assert (K : k = 0%nat \/ k = 1%nat) by lia. destruct K as [-> | ->]; unfold apply1, pow_int; cbn; lra. }
        split; [|auto]. apply (near1_le 1 1 0); auto. { apply Rlt_le, Rinv_0_lt_compat, pow_lt; lra. } apply exact1_near1. auto.
      + destruct (small_rule lg index Hl ltac:(lia)) as [w [E [L [X [N Q]]]]]. exists w. fold P in E, L, X, N. repeat split; auto.
    - destruct (Nat.eqb_spec index 0) as [E0|N0]; [lia|]. destruct (gp_table_weights index) as [sm|] eqn:Es.
      + destruct (large_rule index sm ltac:(lia) Es) as [L [N Q]]. fold P in L, N. exists (map Q2R (mirror_weights sm)). split; [|split; [|split; [|split]]]; auto; [|lia].
        cbn [bind]. unfold mirror_weights. rewrite !map_app, map_rev. auto.
      + exfalso. assert (D : index = 6%nat \/ index = 7%nat \/ index = 8%nat) by lia. destruct D as [-> | [-> | ->]]; discriminate Es. }
  destruct R as [w [E [L [Q [N X]]]]]. rewrite E. cbn [bind]. eexists. split; [reflexivity|]. unfold c1_scheme_of. cbn [c1_degree c1_rule].
  assert (DG : (if (0 <? index)%nat then Z.of_nat (3 * 2 ^ index - 1) else 1%Z) = (if (index =? 0)%nat then 1 else 3 * 2 ^ Z.of_nat index - 1)%Z) by (rewrite ZD; destruct index; auto).
  split; [exact DG|]. split; [rewrite combine_length, L, Nat.min_id; auto|]. split; [rewrite combine_snd; auto|]. split.
  - intros a x Hin. split; [apply Q; eapply in_combine_l; eauto|apply IP; eapply in_combine_r; eauto].
  - split; auto. replace (Z.to_nat _) with (if (index =? 0)%nat then 1%nat else (3 * 2 ^ index - 1)%nat); auto. rewrite DG, <- ZD. destruct (index =? 0)%nat; auto. rewrite Nat2Z.id. auto.
Qed.
Print Assumptions C70_patterson.

Theorem C70_nested lg index s s' : leggauss_ok lg -> gauss_patterson lg index = Some s -> gauss_patterson lg (S index) = Some s' ->
  forall x, In x (map snd (c1_rule s)) -> In x (map snd (c1_rule s')).
Proof.
  intros Hl H H' x Hx.
  assert (G : forall i t, gauss_patterson lg i = Some t -> (i <= 8)%nat /\ map snd (c1_rule t) = np_sort (gp_get_points i)).
  { intros i t Ht. assert (Hi : (i <= 8)%nat). { unfold gauss_patterson in Ht. destruct (Nat.leb_spec i 8); auto; discriminate. } split; auto.
    destruct (C70_patterson lg i Hl Hi) as [t' [E [_ [L _]]]]. rewrite Ht in E. injection E as <-. destruct (points_facts i Hi) as [_ [LP _]].
    unfold gauss_patterson in Ht. rewrite (proj2 (Nat.leb_le i 8) Hi) in Ht. cbn [guard] in Ht. cbv zeta in Ht. match type of Ht with bind ?o _ = _ => destruct o as [w|] end; [|discriminate].
    cbn [bind] in Ht. injection Ht as <-. unfold c1_scheme_of in *. cbn [c1_rule] in *. rewrite combine_length in L.
    assert (K : forall (l : list R) (m : list R), (length m <= length l)%nat -> map snd (List.combine l m) = m). { induction l as [|a l IH]; intros [|b m] Hm; cbn in *; try lia; auto. f_equal. apply IH. lia. }
    apply K. lia. }
  destruct (G _ _ H) as [_ E]. destruct (G _ _ H') as [_ E']. rewrite E in Hx. rewrite E'. apply (Permutation_in _ (np_sort_perm _)) in Hx. apply (Permutation_in _ (Permutation_sym (np_sort_perm _))).
  cbn [gp_get_points]. apply in_or_app. auto.
Qed.
Print Assumptions C70_nested.
(** Other indices raise. *)
Theorem C70_rejected lg index : (8 < index)%nat -> gauss_patterson lg index = None.
Proof. intros H. unfold gauss_patterson. destruct (Nat.leb_spec index 8); [lia|]. auto. Qed.
Print Assumptions C70_rejected.

(** The weights of the private function _get_weights for arbitrary points: an odd number n of distinct points gets the
    interpolatory weights, exact for degree n - 1, and for degree n when the points are symmetric. *)
Theorem C70_weights lg pts : leggauss_ok lg -> NoDup pts -> Nat.odd (length pts) = true ->
  exists w, gp_get_weights lg pts = Some w /\ length w = length pts /\ exact1 (length pts - 1) (List.combine w pts) /\
    ((forall x, In x pts -> In (- x) pts) -> exact1 (length pts) (List.combine w pts)).
Proof.
  intros Hl Hd Ho. destruct (get_weights_odd lg pts Hl Hd Ho) as [w [E [L X]]]. exists w. repeat split; auto. intros Hs.
  destruct (get_weights_odd_symmetric lg pts Hl Hd Ho Hs) as [w' [E' [_ X']]]. rewrite E in E'. injection E' as <-. auto.
Qed.
Print Assumptions C70_weights.
(** For an even number n of points the documented property fails, whatever the points: the Gauss rule used there has one
    point too few.  The weights reach degree n - 3 and never n - 2. *)
Theorem C70_weights_even_refuted lg pts w : leggauss_ok lg -> Nat.even (length pts) = true -> (4 <= length pts)%nat -> NoDup pts -> gp_get_weights lg pts = Some w ->
  exact1 (length pts - 3) (List.combine w pts) /\ ~ exact1 (length pts - 2) (List.combine w pts).
Proof. apply get_weights_even. Qed.
Print Assumptions C70_weights_even_refuted.
Example C70_even_case lg : leggauss_ok lg -> exists w, gp_get_weights lg [-1; -(1/3); 1/3; 1] = Some w.
Proof. intros Hl. eexists. apply get_weights_run; [repeat constructor; cbn; lra|cbn; lia]. Qed.
Example C70_oracle : exists lg, leggauss_ok lg.
Proof. exact C57_leggauss_exists. Qed.

(** C35: the declared degree is not reached exactly, because the points are rounded to 16 digits. *)
Theorem C35_patterson_refuted lg : leggauss_ok lg -> exists s, gauss_patterson lg 1 = Some s /\ c1_degree s = 5%Z /\ ~ exact1 5 (c1_rule s).
Proof.
  intros Hl. destruct (C70_patterson lg 1 Hl ltac:(lia)) as [s [E [D [L [_ [_ [_ X]]]]]]]. exists s. split; auto. split; [rewrite D; reflexivity|]. intros X5.
  destruct (points_facts 1 ltac:(lia)) as [EP _]. assert (EG : gp_sorted 1 = [(-0.7745966692414834)%Q; 0%Q; 0.7745966692414834%Q]) by (vm_compute; reflexivity).
  assert (EW : exists a b c, c1_rule s = [(a, Q2R (-0.7745966692414834)); (b, 0); (c, Q2R 0.7745966692414834)]).
  { assert (E' := E). unfold gauss_patterson in E'. change (1 <=? 8)%nat with true in E'. change (1 <? 6)%nat with true in E'. cbn [guard] in E'. cbv zeta in E', EP. rewrite EP, EG in E'. cbn [map] in E'. rewrite Q2R_0 in E'.
    destruct (gp_get_weights lg _) as [w|]; [|discriminate]. cbn [bind] in E'. unfold c1_scheme_of in E'. match type of E' with Some ?t = _ => assert (Es : s = t) by congruence end. rewrite Es in *. cbn [c1_rule] in *.
    destruct w as [|a [|b [|c w]]]; cbn in L; try lia. exists a, b, c. cbn [List.combine]. destruct w; reflexivity. }
  destruct EW as [a [b [c EW]]]. assert (X2 := exact1_powers _ _ 2 X5 ltac:(lia)). assert (X4 := exact1_powers _ _ 4 X5 ltac:(lia)). rewrite EW in X2, X4. unfold apply1, pow_int in X2, X4. cbn [map Rsum fst snd Nat.even] in X2, X4.
  assert (V : Q2R (-0.7745966692414834) = - (7745966692414834 / 10000000000000000)) by (unfold Q2R; cbn; lra). assert (V' : Q2R 0.7745966692414834 = 7745966692414834 / 10000000000000000) by (unfold Q2R; cbn; lra).
  rewrite V, V' in X2, X4. cbn [INR] in X2, X4. set (x := 7745966692414834 / 10000000000000000) in *. assert (Ex : x = 7745966692414834 / 10000000000000000) by reflexivity. clearbody x.
  assert (F : (a + c) * x ^ 2 = 2 / 3) by lra. assert (F4 : (a + c) * x ^ 2 * x ^ 2 = 2 / 5) by lra. rewrite F in F4. assert (x ^ 2 = 3 / 5) by lra. rewrite Ex in *. lra.
Qed.
Print Assumptions C35_patterson_refuted.
