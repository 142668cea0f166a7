(** C74: the Genz-Keister rules for the weight exp(-x^2).  The integral is that of WeightSpec.v. *)
From Coq Require Import Reals List Arith Lia Lra ZArith QArith Qreals Sorted.
From Verif Require Import Spec Spec1 RsumLemmas CombModel PyBase C1Model C1Proofs PattersonModel PattersonRun GwSpec WeightSpec GwModel GwInt GwInt2 GkModel GkProofs.
Import ListNotations.
Local Notation length := List.length.
Set Bullet Behavior "Strict Subproofs".
Open Scope R_scope.

(** The declared degrees and the numbers of points. *)
Definition gk_degrees : list nat := [1; 5; 15; 29; 51; 55; 63; 67]%nat.
Definition gk_counts : list nat := [1; 3; 9; 19; 35; 37; 41; 43]%nat.
(** For every polynomial p of degree at most d, given by its coefficients, the value of the rule differs from the integral of
    exp(-x^2) p(x) by at most eps times the integral of exp(-x^2) p'(x), where p' has the absolute values of the coefficients of p. *)
Definition hermite_near (eps : R) (d : nat) (q : rule1) : Prop :=
  forall c, (length c <= S d)%nat -> exists I J, hermite_int (peval c) I /\ hermite_int (peval (map Rabs c)) J /\ Rabs (apply1 q (peval c) - I) <= eps * J.

Lemma gk_table_run n : (2 <= n <= 7)%nat ->
  genz_keister (Z.of_nat n) = Some (mk_c1 (Z.of_nat (nth n gk_degrees 0%nat)) (mirror1 (map Q2R (gk_table n)) (np_sort (gk_points n)))).
Proof. intros Hn. destruct n as [|[|[|[|[|[|[|[|n]]]]]]]]; try lia; reflexivity. Qed.
Definition gk_steps (n : nat) : nat := ((nth n gk_degrees 0 - 1) / 2)%nat.
Lemma gk_checks : forallb (fun n => gk_check n (gk_steps n)) [2; 3; 4; 5; 6; 7]%nat = true.
Proof. vm_compute. reflexivity. Qed.
Lemma gk_checks_n n : (2 <= n <= 7)%nat -> gk_check n (gk_steps n) = true.
Proof. intros H. pose proof gk_checks as C. rewrite forallb_forall in C. apply C. cbn. lia. Qed.
Lemma gk_steps_deg n : (n <= 7)%nat -> (2 * gk_steps n + 1)%nat = nth n gk_degrees 0%nat.
Proof. intros H. destruct n as [|[|[|[|[|[|[|[|n]]]]]]]]; try lia; reflexivity. Qed.
(** The rules 0 and 1 *)
Lemma sqrt32 : np_sort [0; sqrt (3 / 2)] = [0; sqrt (3 / 2)].
Proof.
  cbn [np_sort fold_right np_insert]. assert (P := sqrt_pos (3 / 2)). unfold AdaptModel.Rleb. destruct (Rle_dec 0 (sqrt (3 / 2))) as [|N]; [auto|lra].
Qed.
Lemma gk_0 : genz_keister 0 = Some (mk_c1 1 (mirror1 [sqrt PI] [0])).
Proof. reflexivity. Qed.
Lemma gk_1 : genz_keister 1 = Some (mk_c1 5 (mirror1 [2 / 3 * sqrt PI; 1 / 6 * sqrt PI] [0; sqrt (3 / 2)])).
Proof. rewrite <- sqrt32. reflexivity. Qed.
Lemma hval_exact q d : (forall k, (k <= d)%nat -> apply1 q (fun x => x ^ k) = hnu k) -> forall k, (k <= d)%nat -> Rabs (apply1 q (fun x => x ^ k) - hnu k) <= 0 * hnu k.
Proof. intros H k Hk. rewrite H by auto. rewrite Rminus_eq_0, Rabs_R0. lra. Qed.
Lemma hermite_near_intro eps d q : 0 <= eps -> (forall k, (k <= d)%nat -> Rabs (apply1 q (fun x => x ^ k) - hnu k) <= eps * hnu k) -> hermite_near eps d q.
Proof. intros He H c Hc. exists (hval c), (hval (map Rabs c)). repeat split; try apply hval_int. apply (peval_near q d); auto. Qed.
Lemma gk_0_exact k : (k <= 1)%nat -> apply1 (mirror1 [sqrt PI] [0]) (fun x => x ^ k) = hnu k.
Proof. intros H. destruct k as [|[|k]]; try lia; cbn; unfold hnu; cbn; ring. Qed.
Lemma gk_1_exact k : (k <= 5)%nat -> apply1 (mirror1 [2 / 3 * sqrt PI; 1 / 6 * sqrt PI] [0; sqrt (3 / 2)]) (fun x => x ^ k) = hnu k.
Proof.
  intros H. pose proof (sqrt_sqrt (3 / 2) ltac:(lra)) as E. set (s := sqrt (3 / 2)) in *. set (g := sqrt PI). destruct (Nat.even k) eqn:Ek.
  - apply Nat.even_spec in Ek. destruct Ek as [j ->]. rewrite mirror1_even by (auto; apply Nat.even_spec; exists j; auto). rewrite hnu_even. fold g.
    cbn [List.combine map Rsum fst snd]. rewrite !pow_mult. replace (s ^ 2) with (3 / 2) by (rewrite <- E; ring). destruct j as [|[|[|j]]]; try lia; cbn; field.
  - rewrite mirror1_odd by auto. assert (O : Nat.odd k = true) by (unfold Nat.odd; rewrite Ek; auto). apply Nat.odd_spec in O. destruct O as [j ->]. rewrite hnu_odd. auto.
Qed.

(** Every n from 0 to 7 gives a rule; polynomials of the declared degree are integrated up to the relative error 1e-14, the
    default tolerance of a scheme (helpers/_class.py). *)
Theorem C74_degree n : (n <= 7)%nat -> exists s, genz_keister (Z.of_nat n) = Some s /\ c1_degree s = Z.of_nat (nth n gk_degrees 0%nat) /\
  length (c1_rule s) = nth n gk_counts 0%nat /\ hermite_near (/ 10 ^ 14) (nth n gk_degrees 0%nat) (c1_rule s).
Proof.
  intros H. assert (E0 : 0 <= / 10 ^ 14) by (apply Rlt_le, Rinv_0_lt_compat, pow_lt; lra). destruct (Nat.lt_ge_cases n 2) as [L|L].
  - assert (X : forall q d, (forall k, (k <= d)%nat -> apply1 q (fun x => x ^ k) = hnu k) -> hermite_near (/ 10 ^ 14) d q).
    { intros q d HX. apply hermite_near_intro; auto. intros k Hk. eapply Rle_trans; [apply (hval_exact q d HX k Hk)|]. apply Rmult_le_compat_r; [apply hnu_nonneg|auto]. }
    destruct n as [|[|n]]; [| |lia].
    + eexists. split; [exact gk_0|]. split; [reflexivity|]. split; [reflexivity|]. apply X. exact gk_0_exact.
    + eexists. split; [exact gk_1|]. split; [reflexivity|]. split; [reflexivity|]. apply X. exact gk_1_exact.
  - pose proof (gk_checks_n n ltac:(lia)) as C. eexists. split; [apply gk_table_run; lia|]. cbn [c1_degree c1_rule]. destruct (gk_run n (gk_steps n) C) as [Q1 [_ [_ [_ [Q2 _]]]]]. cbv zeta in *.
    split; [reflexivity|]. split.
    + rewrite Q1. destruct n as [|[|[|[|[|[|[|[|n]]]]]]]]; try lia; reflexivity.
    + apply hermite_near_intro; auto. rewrite <- gk_steps_deg by auto. exact Q2.
Qed.
Print Assumptions C74_degree.
(** The rules with one and with three points are exact. *)
Theorem C74_exact n : (n <= 1)%nat -> exists s, genz_keister (Z.of_nat n) = Some s /\ hermite_near 0 (nth n gk_degrees 0%nat) (c1_rule s).
Proof.
  intros H. destruct n as [|[|n]]; [| |lia]; eexists; (split; [exact gk_0 || exact gk_1|]); apply hermite_near_intro; try lra; apply hval_exact; [exact gk_0_exact|exact gk_1_exact].
Qed.
Print Assumptions C74_exact.
(** The declared degree is the largest possible one: the next power is missed by more than 1e-10 of its integral. *)
Theorem C74_sharp n : (n <= 7)%nat -> exists s I, genz_keister (Z.of_nat n) = Some s /\
  hermite_int (fun x => x ^ S (nth n gk_degrees 0%nat)) I /\ / 10 ^ 10 * I < Rabs (apply1 (c1_rule s) (fun x => x ^ S (nth n gk_degrees 0%nat)) - I).
Proof.
  intros H. assert (E10 : / 10 ^ 10 < / 5) by (apply Rinv_lt_contravar; [apply Rmult_lt_0_compat; [lra|apply pow_lt; lra]|cbn; lra]). pose proof (sqrt_lt_R0 PI PI_RGT_0) as P. destruct (Nat.lt_ge_cases n 2) as [L|L].
  - pose proof (Rmult_lt_compat_r _ _ _ P E10) as PE. set (e := / 10 ^ 10) in *. clearbody e. destruct n as [|[|n]]; [| |lia]; cbn [nth gk_degrees].
    + exists (mk_c1 1 (mirror1 [sqrt PI] [0])), (hnu 2). split; [exact gk_0|]. split; [apply (proj1 (hnu_int 2))|]. cbn [c1_rule]. change 2%nat with (2 * 1)%nat. rewrite mirror1_even, hnu_even by auto.
      cbn [List.combine map Rsum]. replace (sqrt PI * 0 ^ (2 * 1) + 0 - rho 1 * sqrt PI) with (- (rho 1 * sqrt PI)) by (cbn; ring). replace (rho 1) with (1 / 2) by (cbn; field). rewrite Rabs_Ropp, Rabs_right by lra. lra.
    + exists (mk_c1 5 (mirror1 [2 / 3 * sqrt PI; 1 / 6 * sqrt PI] [0; sqrt (3 / 2)])), (hnu 6). split; [exact gk_1|]. split; [apply (proj1 (hnu_int 6))|]. cbn [c1_rule]. change 6%nat with (2 * 3)%nat. rewrite mirror1_even, hnu_even by auto.
      cbn [List.combine map Rsum fst snd]. pose proof (sqrt_sqrt (3 / 2) ltac:(lra)) as E. rewrite !(pow_mult _ 2 3). replace (sqrt (3 / 2) ^ 2) with (3 / 2) by (rewrite <- E at 1; ring).
      replace (_ - rho 3 * sqrt PI) with (- (3 / 4 * sqrt PI)) by (cbn; field). replace (rho 3) with (15 / 8) by (cbn; field). rewrite Rabs_Ropp, Rabs_right by lra. lra.
  - pose proof (gk_checks_n n ltac:(lia)) as C. do 2 eexists. split; [apply gk_table_run; lia|]. split; [apply (proj1 (hnu_int (S (nth n gk_degrees 0%nat))))|]. cbn [c1_rule].
    destruct (gk_run n (gk_steps n) C) as [_ [_ [_ [_ [_ Q]]]]]. cbv zeta in Q. rewrite <- gk_steps_deg by auto. replace (S (2 * gk_steps n + 1)) with (2 * gk_steps n + 2)%nat by lia. exact Q.
Qed.
Print Assumptions C74_sharp.
(** The points are strictly increasing and symmetric about 0. *)
Lemma mirror_points w p : length w = length p -> (1 <= length p)%nat -> map snd (mirror1 w p) = map Ropp (rev (tl p)) ++ [nth 0 p 0] ++ tl p.
Proof.
  intros L1 L2. unfold mirror1. destruct w as [|w0 w], p as [|p0 p]; cbn [length] in *; try lia. cbn [tl nth]. 
  assert (K : forall (l : list R) (m : list R), length m = length l -> map snd (List.combine l m) = m). { induction l as [|a l IH]; intros [|b m] Hm; cbn in *; try lia; auto. f_equal. apply IH. lia. }
  apply K. rewrite !app_length, map_length, !rev_length. cbn [length]. lia.
Qed.
Lemma mirror_sorted p : StronglySorted Rlt (0 :: p) -> StronglySorted Rlt (map Ropp (rev p) ++ [0] ++ p).
Proof.
  intros H. inversion H as [|? ? S F]; subst. clear H. assert (G : forall l m, StronglySorted Rlt l -> StronglySorted Rlt m -> (forall a b, In a l -> In b m -> a < b) -> StronglySorted Rlt (l ++ m)).
  { clear. induction l as [|a l IH]; intros m Hl Hm HH; cbn [app]; auto. inversion Hl; subst. constructor; [apply IH; auto; intros; apply HH; [right|]; auto|]. apply Forall_app. split; auto. apply Forall_forall. intros b Hb. apply HH; [left|]; auto. }
  rewrite Forall_forall in F. apply G.
  - clear F. induction S as [|a l H IH F]; [constructor|]. cbn [rev]. rewrite map_app. apply G; auto; [repeat constructor|]. intros x y Hx Hy. cbn in Hy. destruct Hy as [<-|[]]. apply in_map_iff in Hx. destruct Hx as [z [<- Hz]]. apply in_rev in Hz. rewrite Forall_forall in F. specialize (F z Hz). lra.
  - cbn [app]. constructor; auto. apply Forall_forall. auto.
  - intros a b Ha Hb. apply in_map_iff in Ha. destruct Ha as [z [<- Hz]]. apply in_rev in Hz. apply F in Hz. destruct Hb as [<-|Hb]; [lra|]. apply F in Hb. lra.
Qed.
Lemma gk_points_run n : (n <= 7)%nat -> exists s, genz_keister (Z.of_nat n) = Some s /\ np_sort (gk_points n) = 0 :: tl (np_sort (gk_points n)) /\ StronglySorted Rlt (np_sort (gk_points n)) /\
  map snd (c1_rule s) = map Ropp (rev (tl (np_sort (gk_points n)))) ++ [0] ++ tl (np_sort (gk_points n)).
Proof.
  intros H. assert (P32 : 0 < sqrt (3 / 2)) by (apply sqrt_lt_R0; lra). destruct (Nat.lt_ge_cases n 2) as [L|L].
  - destruct n as [|[|n]]; [| |lia].
    + eexists. split; [exact gk_0|]. split; [reflexivity|]. split; [repeat constructor|]. reflexivity.
    + eexists. split; [exact gk_1|]. change (gk_points 1) with [0; sqrt (3 / 2)]. rewrite sqrt32. split; [reflexivity|]. split; [repeat constructor; auto|]. reflexivity.
  - pose proof (gk_checks_n n ltac:(lia)) as C. eexists. split; [apply gk_table_run; lia|]. cbn [c1_rule]. destruct (gk_run n (gk_steps n) C) as [_ [Q1 [Q2 [Q3 _]]]].
    assert (E : length (np_sort (gk_points n)) = length (gk_points n)) by (apply Permutation.Permutation_length, np_sort_perm).
    assert (NZ : (1 <= length (gk_points n))%nat) by (unfold gk_points; destruct n as [|[|[|[|n]]]]; rewrite ?app_length; cbn; lia).
    split; [destruct (np_sort (gk_points n)); cbn in *; [lia|congruence]|]. split; auto. rewrite mirror_points; [rewrite Q3; reflexivity|rewrite map_length; lia|lia].
Qed.
Theorem C74_symmetric n : (n <= 7)%nat -> exists s, genz_keister (Z.of_nat n) = Some s /\ StronglySorted Rlt (map snd (c1_rule s)) /\ forall x, In x (map snd (c1_rule s)) -> In (- x) (map snd (c1_rule s)).
Proof.
  intros H. destruct (gk_points_run n H) as [s [E [E0 [S EQ]]]]. exists s. split; auto. rewrite EQ. split.
  - apply mirror_sorted. rewrite <- E0. auto.
  - intros x Hx. rewrite !in_app_iff in *. destruct Hx as [Hx|[Hx|Hx]].
    + right. right. apply in_map_iff in Hx. destruct Hx as [z [<- Hz]]. rewrite Ropp_involutive. apply in_rev. auto.
    + right. left. cbn in *. destruct Hx as [<-|[]]. left. ring.
    + left. apply in_map_iff. exists x. split; auto. apply -> in_rev. auto.
Qed.
Print Assumptions C74_symmetric.
(** The rules are nested: each of the first four rules uses only points of every later one. *)
Theorem C74_nested i j : (i <= 3)%nat -> (i <= j <= 7)%nat -> exists s t, genz_keister (Z.of_nat i) = Some s /\ genz_keister (Z.of_nat j) = Some t /\ forall x, In x (map snd (c1_rule s)) -> In x (map snd (c1_rule t)).
Proof.
  intros Hi Hj. destruct (gk_points_run i ltac:(lia)) as [s [E [E0 [_ EQ]]]]. destruct (gk_points_run j ltac:(lia)) as [t [F [F0 [_ FQ]]]]. exists s, t. split; auto. split; auto. rewrite EQ, FQ.
  assert (M : forall n x, np_sort (gk_points n) = 0 :: tl (np_sort (gk_points n)) -> In x (map Ropp (rev (tl (np_sort (gk_points n)))) ++ [0] ++ tl (np_sort (gk_points n))) <-> In x (gk_points n) \/ In (- x) (gk_points n)).
  { intros n x En. assert (PI : forall y, In y (gk_points n) <-> y = 0 \/ In y (tl (np_sort (gk_points n)))).
    { intros y. assert (K : In y (gk_points n) <-> In y (np_sort (gk_points n))) by (split; apply Permutation.Permutation_in; [apply Permutation.Permutation_sym|]; apply np_sort_perm).
      rewrite K. rewrite En at 1. cbn [In]. intuition. }
    rewrite !PI, !in_app_iff, in_map_iff. cbn [In]. split.
    - intros [[z [<- Hz]]|[[<-|[]]|Hx]]; auto. right. right. rewrite Ropp_involutive. apply in_rev. auto.
    - intros [[->|Hx]|[Hx|Hx]]; auto; [right; left; left; lra|]. left. exists (- x). split; [ring|]. apply -> in_rev. auto. }
  intros x. rewrite (M i x E0), (M j x F0). assert (G : forall y, In y (gk_points i) -> In y (gk_points j)).
  { intros y. unfold gk_points. cbv zeta. destruct i as [|[|[|[|i]]]]; try lia; destruct j as [|[|[|[|j]]]]; try lia; rewrite ?in_app_iff; tauto. }
  intros [Hx|Hx]; auto.
Qed.
Print Assumptions C74_nested.
(** Other arguments raise. *)
Theorem C74_rejected n : (n < 0 \/ 7 < n)%Z -> genz_keister n = None.
Proof.
  intros H. unfold genz_keister. destruct (Z.leb_spec 0 n) as [L|L]; [|reflexivity]. cbn [guard]. destruct H as [H|H]; [lia|]. destruct n as [|p|p]; try lia.
  do 3 (destruct p as [p|p|]; try lia; try reflexivity).
Qed.
Print Assumptions C74_rejected.
Lemma gk_tl n y : In y (tl (np_sort (gk_points n))) -> In y (gk_points n).
Proof. intros Hy. apply (Permutation.Permutation_in y (np_sort_perm (gk_points n))). destruct (np_sort (gk_points n)); [destruct Hy|right; exact Hy]. Qed.
(** The final extensions are not nested in one another. *)
Theorem C74_not_nested : exists s t x, genz_keister 4 = Some s /\ genz_keister 5 = Some t /\ In x (map snd (c1_rule s)) /\ ~ In x (map snd (c1_rule t)).
Proof.
  destruct (gk_points_run 4 ltac:(lia)) as [s [E [E0 [_ EQ]]]]. destruct (gk_points_run 5 ltac:(lia)) as [t [F [F0 [_ FQ]]]]. exists s, t, (Q2R 0.17606414208200893). split; auto. split; auto. rewrite EQ, FQ.
  split.
  - rewrite !in_app_iff. right. right. assert (I : In (Q2R 0.17606414208200893) (np_sort (gk_points 4))).
    { apply (Permutation.Permutation_in _ (Permutation.Permutation_sym (np_sort_perm (gk_points 4)))). cbn [gk_points]. rewrite !in_app_iff. right. left. unfold Q2R. cbn. lra. }
    rewrite E0 in I. destruct I as [I|I]; auto. exfalso. unfold Q2R in I. cbn in I. lra.
  - assert (B : forall y, In y (gk_points 5) -> 0 = y \/ 1 / 5 < y).
    { intros y. cbn [gk_points]. rewrite !in_app_iff. pose proof (sqrt_sqrt (3 / 2) ltac:(lra)). pose proof (sqrt_pos (3 / 2)). intros Hy. cbn [In map gk_new_points] in Hy.
      repeat (destruct Hy as [Hy|Hy]); try tauto; subst y; try (left; reflexivity); right; try nra; unfold Q2R; cbn; lra. }
    assert (V : Q2R 0.17606414208200893 = 17606414208200893 / 100000000000000000) by (unfold Q2R; cbn; lra). rewrite V. rewrite !in_app_iff, in_map_iff. cbn [In]. intros [[z [Hz Hi]]|[[I|[]]|I]]; [|lra|].
    + apply in_rev, gk_tl, B in Hi. lra.
    + apply gk_tl, B in I. lra.
Qed.
Print Assumptions C74_not_nested.
Example C74_case : exists s, genz_keister 1 = Some s /\ map snd (c1_rule s) = [- sqrt (3 / 2); 0; sqrt (3 / 2)] /\ map fst (c1_rule s) = [1 / 6 * sqrt PI; 2 / 3 * sqrt PI; 1 / 6 * sqrt PI].
Proof. eexists. split; [exact gk_1|]. split; reflexivity. Qed.
