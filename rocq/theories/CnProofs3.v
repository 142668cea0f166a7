(** Cube schemes, continued: stroud_1968. *)
From Coq Require Import Reals List Arith Lia Lra Permutation Bool.
From Verif Require Import Spec RsumLemmas CombModel CombProofs CombProofs2 Moments SymExact
  IntegralSpec IntegralProofs IntegralProofs2 PyBase SymmModel SymmProofs MiscModel CnModel SchemeTools CnTools
  CnProofs.
Import ListNotations.
Open Scope R_scope.

Lemma in_selects {A} (l : list A) x r : In (x, r) (selects l) -> Permutation l (x :: r).
Proof.
  revert x r. induction l as [|y l IH]; intros x r; cbn [selects In]; [tauto|]. intros [E|H].
  { injection E as <- <-. auto. }
  apply in_map_iff in H. destruct H as [[x' r'] [E H]]. injection E as <- <-. cbn [fst snd].
  etransitivity; [apply perm_skip, IH; exact H|]. apply perm_swap.
Qed.
Lemma selects_in {A} (l : list A) x : In x l -> exists r, In (x, r) (selects l) /\ Permutation l (x :: r).
Proof.
  induction l as [|y l IH]; cbn [In]; [tauto|]. intros [-> | H].
  { exists l. split; [left; auto|auto]. }
  destruct (IH H) as [r [H1 H2]]. exists (y :: r). split.
  { right. apply in_map_iff. exists (x, r). auto. }
  etransitivity; [apply perm_skip; exact H2|apply perm_swap].
Qed.
Lemma in_permutations {A} (r : nat) : forall (l p : list A), length l = r ->
  (In p (permutations r l) <-> Permutation p l).
Proof.
  induction r as [|r IH]; intros l p Hl; cbn [permutations].
  { destruct l; [|discriminate]. split.
    { intros [<- | []]. constructor. }
    intros H. apply Permutation_sym, Permutation_nil in H. left; auto. }
  rewrite in_flat_map. split.
  { intros [[x l'] [H1 H2]]. apply in_map_iff in H2. destruct H2 as [p' [<- H2]]. cbn [fst snd] in *.
    apply in_selects in H1. assert (length l' = r).
    { apply Permutation_length in H1. cbn in H1. lia. }
    apply IH in H2; auto. etransitivity; [apply perm_skip; exact H2|]. symmetry. auto. }
  intros H. destruct p as [|x p]. { apply Permutation_nil in H. subst. discriminate. }
  assert (Hin : In x l) by (eapply Permutation_in; [exact H|left; auto]).
  destruct (selects_in l x Hin) as [l' [H1 H2]]. exists (x, l'). split; auto.
  apply in_map_iff. exists p. split; auto. cbn [snd]. apply IH.
  { apply Permutation_length in H2. cbn in H2. lia. }
  apply (Permutation_cons_inv (a := x)). etransitivity; eauto.
Qed.

Lemma s11_rd n a b items rows : (2 <= n)%nat ->
  Rrd n items = Some rows -> NoDup (0 :: map fst items) ->
  base_vector 0 n items = [a; b] ++ repeat 0 (n - 2) -> Permutation (_s11 n a b) rows.
Proof.
  intros Hn H Hd Hb. apply NoDup_Permutation.
  { apply NoDup_nodup. }
  { eapply rd_NoDup; eauto. }
  intros p. unfold _s11. rewrite nodup_In. rewrite (rd_rows _ _ _ _ p H), Hb.
  apply in_permutations. rewrite app_length, repeat_length. cbn. lia.
Qed.

Lemma s2_combine n a : (2 <= n)%nat -> a <> 0 -> Permutation (_s2 n a) (combine [([a], 2%nat); ([0], (n - 2)%nat)]).
Proof.
  intros Hn Ha. apply (s11_rd n a a [(a, 2%nat)]); auto.
  { unfold Rrd, rd. cbn. destruct n as [|[|n]]; try lia. reflexivity. }
  { cbn. constructor; [intros [E|[]]; auto|]. constructor; auto. constructor. }
Qed.
Lemma s11_combine n a b : (2 <= n)%nat -> a <> 0 -> b <> 0 -> a <> b ->
  Permutation (_s11 n a b) (combine [([a], 1%nat); ([b], 1%nat); ([0], (n - 2)%nat)]).
Proof.
  intros Hn Ha Hb Hab. apply (s11_rd n a b [(a, 1%nat); (b, 1%nat)]); auto.
  { unfold Rrd, rd. cbn. destruct n as [|[|n]]; try lia. reflexivity. }
  { cbn. constructor; [intros [E|[E|[]]]; auto|]. constructor; [intros [E|[]]; auto|]. constructor; auto. constructor. }
Qed.

Lemma untangle_perm (d d' : list (R * list point)) :
  Forall2 (fun a b => fst a = fst b /\ Permutation (snd a) (snd b)) d d' ->
  Permutation (mk_rule (untangle d)) (mk_rule (untangle d')).
Proof.
  rewrite !mk_rule_untangle. induction 1 as [|[w p] [w' p'] d d' [E P] F IH]; auto.
  cbn [flat_map fst snd] in *. subst w'. apply Permutation_app; auto. apply Permutation_map. auto.
Qed.

Theorem stroud_1968_exact n : (2 <= n)%nat -> cube_scheme n 5 (stroud_1968 n).
Proof.
  intros H. unfold stroud_1968. cbv zeta. inr_pos n.
  apply bind_sqrt; [lra|]. intros r Pr Qr. apply bind_sqrt; [lra|]. intros z Pz Qz.
  assert (Bz : 4 < z < 5) by nra.
  apply bind_sqrt; [lra|]. intros s Ps Qs. apply bind_sqrt; [lra|]. intros t Pt Qt.
  assert (st : s * t = 1/3).
  { assert (X : (s * t) * (s * t) = (1/3) * (1/3)).
    { replace ((s * t) * (s * t)) with ((s * s) * (t * t)) by ring. rewrite Qs, Qt.
      replace ((7 + z) / 15 * ((7 - z) / 15)) with ((49 - z * z) / 225) by field. rewrite Qz. field. }
    assert (0 <= s * t) by (apply Rmult_le_pos; auto). nra. }
  assert (r0 : r <> 0) by nra. assert (s0 : s <> 0) by nra. assert (t0 : t <> 0) by nra.
  fsd_step. fsd_step. fsd_step. rewrite Rz_combine.
  eexists. split; [reflexivity|]. cbn [s_dim s_degree s_rule from_data]. split; auto. split; auto.
  set (gs := [((5 * INR n ^ 2 - 15 * INR n + 14) / 14, [([0], n)]);
     (25/168, [([r], 2%nat); ([0], (n - 2)%nat)]);
     (25/168, [([- r], 2%nat); ([0], (n - 2)%nat)]);
     (-25 * (INR n - 2) / 168, [([r; - r], 1%nat); ([0], (n - 1)%nat)]);
     (5/48, [([s], 1%nat); ([- t], 1%nat); ([0], (n - 2)%nat)]);
     (5/48, [([- s], 1%nat); ([t], 1%nat); ([0], (n - 2)%nat)]);
     (-5 * (INR n - 2) / 48, [([s; - s], 1%nat); ([0], (n - 1)%nat)]);
     (-5 * (INR n - 2) / 48, [([t; - t], 1%nat); ([0], (n - 1)%nat)])]).
  apply (exact_perm _ _ _ (mk_rule (untangle (gdata gs)))).
  { apply untangle_perm. unfold gdata, gs. cbn [map fst snd].
    repeat constructor; auto; cbn [fst snd]; symmetry.
    { apply s2_combine; auto. } { apply s2_combine; auto. lra. }
    { apply s11_combine; auto; nra. } { apply s11_combine; auto; nra. } }
  rewrite mk_rule_gdata. unfold gs. clear gs.
  apply cube_exact_gen; [ok_groups|].
  intros l Hl Hn. split_parts Hl.
  all: cbn [length] in Hn; cbn [map fst snd Rsum]; num_groups; exp_avg; red_means; rewrite ?mean_single; cbn [length];
     rewrite ?minus_INR by lia; cube_rhs.
  all: rewrite ?mean_pm_odd by reflexivity.
  all: inr_lits; rewrite ?pow1; replace (1 - 1) with 0 by ring; replace (2 - 1) with 1 by ring.
  all: unfold Rdiv; repeat (rewrite ?Rmult_0_l, ?Rmult_0_r, ?Rplus_0_r, ?Rplus_0_l, ?Rmult_1_r).
  all: nz_facts n; clear H N1; generalize dependent (INR n); intros N; intros.
  all: assert (R2 : r ^ 2 = 7/15) by (simpl; lra); assert (S2 : s ^ 2 = (7 + z)/15) by (simpl; lra);
       assert (T2 : t ^ 2 = (7 - z)/15) by (simpl; lra); assert (Z2 : z ^ 2 = 24) by (simpl; lra).
  all: assert (R4 : r ^ 4 = (7/15) ^ 2) by (rewrite <- R2; ring); assert (S4 : s ^ 4 = (73 + 14 * z)/225)
    by (replace (s ^ 4) with ((s ^ 2) ^ 2) by ring; rewrite S2; field_simplify_eq; rewrite Z2; ring);
    assert (T4 : t ^ 4 = (73 - 14 * z)/225)
    by (replace (t ^ 4) with ((t ^ 2) ^ 2) by ring; rewrite T2; field_simplify_eq; rewrite Z2; ring).
  all: assert (s * - t = - (1/3)) by lra; assert (st2 : s ^ 2 * t ^ 2 = 1/9) by
    (replace (s ^ 2 * t ^ 2) with ((s * t) ^ 2) by ring; rewrite st; field).
  all: assert (st31 : s ^ 3 * t = (7 + z) / 45) by (replace (s ^ 3 * t) with (s ^ 2 * (s * t)) by ring; rewrite S2, st; field).
  all: assert (st13 : s * t ^ 3 = (7 - z) / 45) by (replace (s * t ^ 3) with (t ^ 2 * (s * t)) by ring; rewrite T2, st; field).
  all: try (replace (1 - 1) with 0 by ring; repeat (rewrite ?Rmult_0_l, ?Rmult_0_r, ?Rplus_0_r, ?Rplus_0_l)).
  all: try (solve [field; side]).
  all: field_simplify_eq; [|side].
  all: rewrite ?R4, ?S4, ?T4, ?st2, ?st31, ?st13.
  all: lra.
Qed.

(** stroud_1968 accepts n = 1 but then is not a quadrature rule for [-1,1]. *)
Theorem stroud_1968_dim1 : exists s, stroud_1968 1 = Some s /\ s_degree s = 5%nat /\
  apply (s_rule s) (fun _ => 1) <> 1.
Proof.
  unfold stroud_1968. cbv zeta. 
  set (P := fun o => exists s, o = Some s /\ s_degree s = 5%nat /\ apply (s_rule s) (fun _ => 1) <> 1).
  change (exists s, ?c = Some s /\ s_degree s = 5%nat /\ apply (s_rule s) (fun _ => 1) <> 1) with (P c).
  apply bind_sqrt; [lra|]. intros r Pr Qr. apply bind_sqrt; [lra|]. intros z Pz Qz.
  assert (Bz : 4 < z < 5) by nra.
  apply bind_sqrt; [lra|]. intros s Ps Qs. apply bind_sqrt; [lra|]. intros t Pt Qt.
  assert (r0 : 0 < r) by nra. assert (s0 : 0 < s) by nra. assert (t0 : 0 < t) by nra.
  eexists. split; [reflexivity|]. split; [reflexivity|].
  unfold s_rule, from_data. rewrite mk_rule_untangle. unfold apply. 
  assert (D : forall a b, a <> b -> _s11 1 a b = [[a]; [b]]).
  { intros a b Hab. unfold _s11. change (permutations 1 ([a; b] ++ repeat 0 (1 - 2))) with [[a]; [b]].
    apply nodup_fixed_point. constructor; [intros [E|[]]; injection E as <-; tauto|]. constructor; auto. constructor. }
  assert (D2 : forall a, _s2 1 a = [[a]]).
  { intros a. unfold _s2, _s11. change (permutations 1 ([a; a] ++ repeat 0 (1 - 2))) with [[a]; [a]].
    cbn [nodup]. destruct (in_dec (list_eq_dec Req_EM_T) [a] [[a]]) as [E|E]; [|exfalso; apply E; left; auto].
    destruct (in_dec (list_eq_dec Req_EM_T) [a] []) as [[]|]. auto. }
  rewrite !D, !D2 by lra. cbn. lra.
Qed.
