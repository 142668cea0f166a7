(** C75: Stoyanova's rules of degree 7 for the ball of R^n.  "Exact" is against ball_mean of IntegralSpec.v. *)
From Coq Require Import Reals List Arith Lia Lra.
From Verif Require Import Spec RsumLemmas CombModel IntegralSpec PyBase MiscModel CnModel SchemeTools CnProofs4 UnModel RadialInt PropRadial NsimplexProofs LinForm StoyModel StoyProofs StoyRun.
Import ListNotations.
Local Notation length := List.length.
Set Bullet Behavior "Strict Subproofs".
Open Scope R_scope.

(** Whatever n, delta and the choice of the root: if a scheme is returned, it is a scheme for the n-ball that has the declared degree 7. *)
Theorem C75_degree : forall n delta plus s, stoyanova n delta plus = Some s -> builds_ball_scheme n 7 (stoyanova n delta plus).
Proof.
  intros n delta plus s E. destruct (stoy_exact n delta plus s E) as [Hn [Hd [Hg [P H]]]]. exists s. split; auto.
Qed.
Print Assumptions C75_degree.
(** The number of points. *)
Theorem C75_points : forall n delta plus s, stoyanova n delta plus = Some s ->
  length (s_rule s) = (if n =? 5 then 123 else 2 * (n + 1) + 3 * n * (n + 1) + (n + 1) * n * (n - 1) / 3 + 1)%nat.
Proof.
  intros n delta plus s E. destruct (stoy_exact n delta plus s E) as [Hn _]. unfold stoyanova in E. apply guard_inv in E. destruct E as [_ E]. cbv zeta in E.
  rewrite nsimplex_run in E. cbn [bind] in E. do 3 (apply bind_div_inv in E; destruct E as [_ E]; apply bind_sqrt_inv in E; destruct E as [_ E]).
  apply guard_inv in E. destruct E as [G1 E]. apply guard_inv in E. destruct E as [G2 E]. apply guard_inv in E. destruct E as [G3 E]. apply guard_inv in E. destruct E as [G4 E]. apply Nat.eqb_eq in G1, G2, G3, G4.
  apply bind_inv in E. destruct E as [[[[a1 b1] c1] e1] [_ E]]. apply bind_inv in E. destruct E as [[[u v] w] [_ E]].
  do 7 (apply bind_div_inv in E; destruct E as [_ E]). do 3 (apply bind_sqrt_inv in E; destruct E as [_ E]). apply some_inj in E. subst s. cbn [from_data s_rule].
  rewrite mk_rule_untangle. cbn [flat_map fst snd]. rewrite !app_length, !map_length, G1, G2, G3, G4. change (length (Rz n)) with 1%nat. change (length (@nil (R * point))) with 0%nat. clear. destruct (Nat.eqb_spec n 5) as [-> |]; [reflexivity|]. lia.
Qed.
(** Rejected: n < 5, and a delta that is 0. *)
Theorem C75_rejected : forall n delta plus, (n < 5)%nat -> stoyanova n delta plus = None.
Proof. intros n delta plus H. unfold stoyanova. destruct (Nat.leb_spec 5 n); [lia|auto]. Qed.
Theorem C75_zero_delta_rejected : forall n plus, stoyanova n (Some 0) plus = None.
Proof.
  intros n plus. destruct (stoyanova n (Some 0) plus) as [s|] eqn:E; auto. exfalso. unfold stoyanova in E. apply guard_inv in E. destruct E as [Hn E]. apply Nat.leb_le in Hn. cbv zeta in E. assert (N5 := le5 n Hn).
  rewrite nsimplex_run in E. cbn [bind] in E. do 3 (apply bind_div_inv in E; destruct E as [_ E]; apply bind_sqrt_inv in E; destruct E as [_ E]). do 4 (apply guard_inv in E; destruct E as [_ E]).
  apply bind_inv in E. destruct E as [[[[a1 b1] c1] e1] [_ E]]. apply bind_inv in E. destruct E as [[[u v] w] [Uvw _]]. destruct (uvw_eqs _ _ _ _ _ _ _ _ _ _ N5 Uvw) as [D _]. auto.
Qed.
(** The defaults.  "# pick a delta that works": the call with default arguments returns a scheme for n = 5, ..., 9 and for n >= 86, but it raises
    for every n from 10 to 85; with variant_v_plus=False it returns a scheme for n = 5, ..., 84 and raises for every n >= 85. *)
Theorem C75_default : forall n, (5 <= n <= 9)%nat \/ (86 <= n)%nat -> builds_ball_scheme n 7 (stoyanova n None true).
Proof. intros n [H|H]; [destruct (default_plus_small n H) as [s E] | destruct (default_plus_works n H) as [s E]]; eapply C75_degree; eauto. Qed.
Theorem C75_default_minus : forall n, (5 <= n <= 84)%nat -> builds_ball_scheme n 7 (stoyanova n None false).
Proof.
  intros n H. assert (exists s, stoyanova n None false = Some s) as [s E]; [|eapply C75_degree; eauto]. destruct (Nat.leb_spec n 9); [apply default_minus_small; lia|apply default_minus_works_10; lia].
Qed.
Print Assumptions C75_default_minus.
Theorem C75_default_refuted : forall n, (10 <= n <= 85)%nat -> stoyanova n None true = None.
Proof. exact default_plus_raises. Qed.
Theorem C75_default_minus_refuted : forall n, (85 <= n)%nat -> stoyanova n None false = None.
Proof. exact default_minus_raises. Qed.
Print Assumptions C75_default_minus_refuted.
(** So neither default covers n = 85. *)
Theorem C75_no_default_85 : forall plus, stoyanova 85 None plus = None.
Proof. intros [|]; [apply C75_default_refuted | apply C75_default_minus_refuted]; lia. Qed.
Example C75_ex : exists s, stoyanova 6 None true = Some s /\ apply (s_rule s) (mono [2; 0; 4; 0; 0; 0]%nat) = ball_mean 6 (mono [2; 0; 4; 0; 0; 0]%nat) /\ length (s_rule s) = 211%nat.
Proof.
  destruct (C75_default 6 ltac:(lia)) as [s [E [_ [_ [_ H]]]]]. exists s. split; [exact E|]. split; [apply H; cbn; lia|]. rewrite (C75_points _ _ _ _ E). reflexivity.
Qed.
