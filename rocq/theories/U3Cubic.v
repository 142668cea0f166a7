(** u3.mclaren_03 and u3.mclaren_04: the coordinates are square roots of the three roots of a cubic. *)
From Coq Require Import Reals List Arith ZArith Lia Lra String QArith Qreals.
From Verif Require Import Spec RsumLemmas IntegralSpec SphereSpec RootSpec TnModel TnProofs4 PyBase SymmModel OrbitModel SchemeTools Tower TowerSym TowerMoments FixSpec FixTools S2Model U3Model.
Import ListNotations.
Local Notation length := List.length.
Set Bullet Behavior "Strict Subproofs".
Open Scope R_scope.

Ltac sphere_val :=
  match goal with |- _ = sphere_mean 3 (mono ?k) => rewrite (sphereQ_ok 3 k) by (auto; reflexivity) end;
  match goal with |- context [Q2R ?q] => let v := eval vm_compute in q in change q with v end; unfold Q2R; cbn [Qnum Qden].
Lemma cubic_sq a b c e2 e3 : a + b + c = 1 -> a * b + a * c + b * c = e2 -> a * b * c = e3 ->
  c = 1 - a - b /\ b * b = b - a * b + a - a * a - e2 /\ a * a * a = a * a - e2 * a + e3.
Proof.
  intros H1 H2 H3. assert (Ec : c = 1 - a - b) by lra. subst c. split; [auto|].
  assert (E : b * b = b - a * b + a - a * a - e2) by lra. split; [exact E|].
  rewrite <- H3, <- H2. replace (a * b * (1 - a - b)) with (a * b - a * a * b - a * (b * b)) by ring. ring.
Qed.
Definition cube_list (n : nat) : list (list nat) :=
  flat_map (fun i => flat_map (fun j => map (fun l => [i; j; l]) (seq 0 (S n))) (seq 0 (S n))) (seq 0 (S n)).
Lemma cube_list_in n k : length k = 3%nat -> (tdeg k <= n)%nat -> In k (filter (fun k => (tdeg k <=? n)%nat) (cube_list n)).
Proof.
  intros L T. apply filter_In. split; [|apply Nat.leb_le; auto]. destruct k as [|i [|j [|l [|? ?]]]]; try discriminate L.
  unfold tdeg in T. cbn [list_sum fold_right] in T. apply in_flat_map. exists i. split; [apply in_seq; lia|]. apply in_flat_map. exists j. split; [apply in_seq; lia|].
  apply (in_map (fun l => [i; j; l])). apply in_seq. lia.
Qed.
Lemma exact3 d M rl : List.Forall (fun wp => length (snd wp) = 3%nat) rl ->
  List.Forall (fun k => apply rl (mono k) = M k) (filter (fun k => (tdeg k <=? d)%nat) (cube_list d)) -> exact 3 d M rl.
Proof.
  intros P H. split; [exact P|]. intros k L T. rewrite Forall_forall in H. apply H. apply cube_list_in; auto.
Qed.
Lemma pos_root r e1 e2 e3 : 0 < e2 -> 0 < e3 -> 0 < e1 -> r * r * r = e1 * (r * r) - e2 * r + e3 -> 0 <= r.
Proof. intros. destruct (Rle_lt_dec 0 r); auto. exfalso. assert (0 < r * r) by nra. nra. Qed.
Lemma cubic_pos roots c2 c3 x1 x2 : root_finder roots -> 0 < c2 -> 0 < c3 -> 0 < x1 < x2 -> x2 < 1 ->
  0 < x1 ^ 3 - x1 ^ 2 + c2 * x1 - c3 -> x2 ^ 3 - x2 ^ 2 + c2 * x2 - c3 < 0 -> 0 < c2 - c3 ->
  exists a b c, roots [1; -1; c2; - c3] = [a; b; c] /\ 0 <= a /\ 0 <= b /\ 0 <= c /\ a + b + c = 1 /\ a * b + a * c + b * c = c2 /\ a * b * c = c3.
Proof.
  intros Hf P2 P3 X1 X2 Y1 Y2 Y3. destruct (cubic_roots 1 (-1) c2 (- c3) 0 x1 x2 1) as [l Hl]; try rewrite !poly_val4; try lra.
  apply Hf in Hl. destruct (all_real_roots_3 _ _ _ _ _ Hl) as (a & b & c & E & _ & _ & E1 & E2 & E3).
  exists a, b, c. assert (S1 : a + b + c = 1) by lra. assert (S2 : a * b + a * c + b * c = c2) by lra. assert (S3 : a * b * c = c3) by lra.
  assert (K : forall r, (r - a) * (r - b) * (r - c) = 0 -> 0 <= r).
  { intros r Hr. apply (pos_root r 1 c2 c3); try lra. rewrite <- S2, <- S3. replace (1 * (r * r)) with ((a + b + c) * (r * r)) by (rewrite S1; ring). lra. }
  split; [exact E|]. repeat split; auto; apply K; ring.
Qed.
Ltac weird_goals :=
  match goal with
  | Hr : ?r * ?r = ?a, Hs : ?s * ?s = ?b, Ht : ?t * ?t = 1 - ?a - ?b, Hb : ?b * ?b = _, Ha : ?a * ?a * ?a = _, E2 : ?e2 = _, E3 : ?e3 = _ |- _ =>
      match goal with |- List.Forall ?P ?l => let l' := eval vm_compute in l in change (List.Forall P l') end;
      repeat (apply List.Forall_cons;
        [sphere_val; unfold apply; cbn [map fst snd mono Rsum]; ring_simplify [Hr Hs Ht Hb Ha]; rewrite ?E2, ?E3; lra|]);
      apply List.Forall_nil
  end.
Lemma u3_mclaren_03_ok roots : root_finder roots -> delivers (sphere_mean 3) 3 7 (u3_mclaren_03 roots).
Proof.
  intros Hf. destruct (cubic_pos roots (1/5) (1/105) (2/25) (1/2) Hf) as (a & b & c & E & Pa & Pb & Pc & S1 & S2 & S3); try lra.
  destruct (cubic_sq a b c _ _ S1 S2 S3) as (-> & Hb & Ha). unfold u3_mclaren_03. rewrite E. clear S1 S2 S3 E Hf. repeat fix_step.
  remember (1/5) as e2 eqn:E2 in Hb, Ha. remember (1/105) as e3 eqn:E3 in Ha.
  eapply delivers_run; [lazy -[Rplus Rmult Rminus Ropp Rdiv Rinv IZR pow sqrt PI cos sin]; reflexivity|].
  apply delivers_intro; [reflexivity|]; cbn [s_rule]. apply exact3; [repeat constructor|]. weird_goals.
Qed.
Lemma u3_mclaren_04_ok roots : root_finder roots -> delivers (sphere_mean 3) 3 8 (u3_mclaren_04 roots).
Proof.
  intros Hf. destruct (cubic_pos roots (5/21) (5/441) (9/100) (1/2) Hf) as (a & b & c & E & Pa & Pb & Pc & S1 & S2 & S3); try lra.
  destruct (cubic_sq a b c _ _ S1 S2 S3) as (-> & Hb & Ha). unfold u3_mclaren_04. rewrite E. clear S1 S2 S3 E Hf. repeat fix_step.
  remember (5/21) as e2 eqn:E2 in Hb, Ha. remember (5/441) as e3 eqn:E3 in Ha.
  eapply delivers_run; [lazy -[Rplus Rmult Rminus Ropp Rdiv Rinv IZR pow sqrt PI cos sin]; reflexivity|].
  apply delivers_intro; [reflexivity|]; cbn [s_rule]. apply exact3; [repeat constructor|]. weird_goals.
Qed.
