(** C66: the closed-form schemes for the pyramid and the wedge integrate every polynomial up to the declared degree exactly over
    every pyramid with a parallelogram as base and over every prism with a triangle as base. *)
From Coq Require Import Reals List Arith Lia Lra Bool ZArith QArith Qreals.
From Verif Require Import Spec RsumLemmas CombModel PyBase SchemeTools GeomModel PyraModel IntegralSpec PyraSpec Tower TowerSym TowerMoments FixSpec FixTools FelippaModel FelippaProofs.
Import ListNotations.
Set Bullet Behavior "Strict Subproofs".
Open Scope R_scope.

(** The call returns a scheme of declared degree d that is exact on all these domains. *)
Definition builds_pyramid_scheme (d : nat) (r : option scheme) : Prop :=
  exists s, r = Some s /\ s_degree s = d /\ forall o a b c p, length a = 3%nat -> length b = 3%nat -> length c = 3%nat -> mp_ok 3 d p ->
    p3_integrate (s_rule s) (mpeval p) (pyramid_vertices o a b c) = pyramid_integral o a b c (mpeval p).
Definition builds_wedge_scheme (d : nat) (r : option scheme) : Prop :=
  exists s, r = Some s /\ s_degree s = d /\ forall o a b c p, length a = 3%nat -> length b = 3%nat -> length c = 3%nat -> mp_ok 3 d p ->
    w3_integrate (s_rule s) (mpeval p) (wedge_vertices o a b c) = wedge_integral o a b c (mpeval p).

Lemma pyra_intro d r s : r = Some s -> s_degree s = d -> exact 3 d (fun k => Q2R (pyraQ k)) (p3_ref (s_rule s)) -> builds_pyramid_scheme d r.
Proof. intros E D H. exists s. split; auto. split; auto. intros. eapply p3_integrate_exact; eauto. Qed.
Lemma wedge_intro d r s : r = Some s -> s_degree s = d -> exact 3 d (fun k => Q2R (wedgeQ k)) (s_rule s) -> builds_wedge_scheme d r.
Proof. intros E D H. exists s. split; auto. split; auto. intros. eapply w3_integrate_exact; eauto. Qed.
Ltac fel_step :=
  lazymatch goal with
  | |- _ _ (bind (rsqrt ?x) _) =>
      let r := fresh "r" in let E := fresh "E" in let P := fresh "P" in let H := fresh "H" in let H' := fresh "H" in
      assert (H : 0 <= x);
      [fix_side | destruct (rsqrt_some x H) as (r & E & P & H'); clear H; rename H' into H; rewrite E; clear E; cbn [bind]]
  | |- _ _ (bind (rdiv ?a ?b) _) =>
      let H := fresh "N" in assert (H : b <> 0); [try (let env := tw_env in tower_nz env)|rewrite (rdiv_ok a b H); clear H; cbn [bind]]
  end.
Ltac fel_p3 := let env := tw_env in eapply pyra_intro; [reflexivity|reflexivity|]; lazy -[Rplus Rmult Rminus Ropp Rdiv Rinv IZR pow sqrt exact pyraQ Q2R];
  tower_best 0%nat env pyraQ; [intros; reflexivity].
Ltac fel_w3 := let env := tw_env in eapply wedge_intro; [reflexivity|reflexivity|]; lazy -[Rplus Rmult Rminus Ropp Rdiv Rinv IZR pow sqrt exact wedgeQ Q2R];
  tower_best 0%nat env wedgeQ; [intros; reflexivity].
Theorem C66_p3_felippa_1 : builds_pyramid_scheme 1 p3_felippa_1.
Proof. unfold p3_felippa_1. fel_p3. Qed.
Theorem C66_p3_felippa_2 : builds_pyramid_scheme 2 p3_felippa_2.
Proof. unfold p3_felippa_2. fel_step. fel_p3. Qed.
Theorem C66_p3_felippa_3 : builds_pyramid_scheme 2 p3_felippa_3.
Proof. unfold p3_felippa_3. fel_step. fel_p3. Qed.
Theorem C66_p3_felippa_4 : builds_pyramid_scheme 3 p3_felippa_4.
Proof. unfold p3_felippa_4. cbv zeta. fel_step. fel_step. fel_p3. Qed.
Theorem C66_p3_felippa_5 : builds_pyramid_scheme 2 p3_felippa_5.
Proof. unfold p3_felippa_5. cbv zeta. fel_step. bounds r 7 8. fel_step. fel_step. fel_p3. Qed.
Theorem C66_p3_felippa_6 : builds_pyramid_scheme 2 p3_felippa_6.
Proof.
  unfold p3_felippa_6. cbv zeta. fel_step. bounds r 53 54. fel_step. fel_step.
  { apply Rlt_le, Rdiv_lt_0_compat; lra. } fel_step. fel_p3.
Qed.
Theorem C66_p3_felippa_7 : builds_pyramid_scheme 2 p3_felippa_7.
Proof. unfold p3_felippa_7. cbv zeta. fel_step. fel_step. fel_step. fel_p3. Qed.
Theorem C66_p3_felippa_8 : builds_pyramid_scheme 3 p3_felippa_8.
Proof. unfold p3_felippa_8. cbv zeta. fel_step. fel_step. fel_p3. Qed.
Theorem C66_w3_felippa_1 : builds_wedge_scheme 1 w3_felippa_1.
Proof. unfold w3_felippa_1. fel_w3. Qed.
Theorem C66_w3_felippa_2 : builds_wedge_scheme 2 w3_felippa_2.
Proof. unfold w3_felippa_2. fel_step. fel_w3. Qed.
Theorem C66_w3_felippa_3 : builds_wedge_scheme 2 w3_felippa_3.
Proof. unfold w3_felippa_3. fel_step. fel_w3. Qed.

(** Every pyramid over a parallelogram and every prism over a triangle is of this form. *)
Lemma coords (p : point) : length p = 3%nat -> p = [nth 0 p 0; nth 1 p 0; nth 2 p 0].
Proof. destruct p as [|x [|y [|z [|]]]]; try discriminate. reflexivity. Qed.
Theorem C66_pyramids : forall p0 p1 p2 p3 p4 : point, List.Forall (fun p : point => length p = 3%nat) [p0; p1; p2; p3; p4] ->
  (forall m, (m < 3)%nat -> nth m p0 0 + nth m p2 0 = nth m p1 0 + nth m p3 0) ->
  exists o a b c, length a = 3%nat /\ length b = 3%nat /\ length c = 3%nat /\ [p0; p1; p2; p3; p4] = pyramid_vertices o a b c.
Proof.
  intros p0 p1 p2 p3 p4 L H. assert (H0 := H 0%nat ltac:(lia)). assert (H1 := H 1%nat ltac:(lia)). assert (H2 := H 2%nat ltac:(lia)).
  rewrite List.Forall_forall in L. rewrite (coords p0), (coords p1), (coords p2), (coords p3), (coords p4) by (apply L; cbn; tauto).
  set (g := fun m => (nth m p0 0 + nth m p2 0) / 2). set (u := fun m => (nth m p4 0 + g m) / 2).
  exists (map u (seq 0 3)), (map (fun m => (nth m p1 0 - nth m p0 0) / 2) (seq 0 3)), (map (fun m => (nth m p3 0 - nth m p0 0) / 2) (seq 0 3)), (map (fun m => (nth m p4 0 - g m) / 2) (seq 0 3)).
  split; [reflexivity|]. split; [reflexivity|]. split; [reflexivity|]. unfold pyramid_vertices, affine. cbn [map seq nth]. unfold u, g.
  repeat (apply (f_equal2 (@cons point)); [repeat (apply (f_equal2 (@cons R)); [lra|]); reflexivity|]). reflexivity.
Qed.
Theorem C66_prisms : forall p0 p1 p2 p3 p4 p5 : point, List.Forall (fun p : point => length p = 3%nat) [p0; p1; p2; p3; p4; p5] ->
  (forall m, (m < 3)%nat -> nth m p4 0 - nth m p1 0 = nth m p3 0 - nth m p0 0 /\ nth m p5 0 - nth m p2 0 = nth m p3 0 - nth m p0 0) ->
  exists o a b c, length a = 3%nat /\ length b = 3%nat /\ length c = 3%nat /\ [p0; p1; p2; p3; p4; p5] = wedge_vertices o a b c.
Proof.
  intros p0 p1 p2 p3 p4 p5 L H. assert (H0 := H 0%nat ltac:(lia)). assert (H1 := H 1%nat ltac:(lia)). assert (H2 := H 2%nat ltac:(lia)).
  rewrite List.Forall_forall in L. rewrite (coords p0), (coords p1), (coords p2), (coords p3), (coords p4), (coords p5) by (apply L; cbn; tauto).
  exists (map (fun m => (nth m p0 0 + nth m p3 0) / 2) (seq 0 3)), (map (fun m => nth m p1 0 - nth m p0 0) (seq 0 3)), (map (fun m => nth m p2 0 - nth m p0 0) (seq 0 3)),
    (map (fun m => (nth m p3 0 - nth m p0 0) / 2) (seq 0 3)).
  split; [reflexivity|]. split; [reflexivity|]. split; [reflexivity|]. unfold wedge_vertices, affine. cbn [map seq nth].
  repeat (apply (f_equal2 (@cons point)); [repeat (apply (f_equal2 (@cons R)); [lra|]); reflexivity|]). reflexivity.
Qed.
(** e.g. the moment x z over the pyramid with apex (1, 2, 3) over the parallelogram (0,0,0), (2,0,0), (3,1,0), (1,1,0) *)
Example C66_ex : exists s, p3_felippa_2 = Some s /\
  p3_integrate (s_rule s) (mpeval [(1, [1; 0; 1]%nat)]) [[0; 0; 0]; [2; 0; 0]; [3; 1; 0]; [1; 1; 0]; [1; 2; 3]] = 39/20.
Proof.
  unfold p3_felippa_2. destruct (rsqrt_some (2/15)) as (r & E & _ & H); [lra|]. rewrite E. cbn [bind]. eexists. split; [reflexivity|].
  set (o := [5/4; 5/4; 3/2]). set (a := [1; 0; 0]). set (b := [1/2; 1/2; 0]). set (c := [-(1/4); 3/4; 3/2]).
  replace [[0; 0; 0]; [2; 0; 0]; [3; 1; 0]; [1; 1; 0]; [1; 2; 3]] with (pyramid_vertices o a b c).
  2:{ unfold pyramid_vertices, affine, o, a, b, c. cbn [map seq nth]. repeat (apply (f_equal2 (@cons point)); [repeat (apply (f_equal2 (@cons R)); [lra|]); reflexivity|]). reflexivity. }
  assert (D : det 3 [a; b; c] = 3/4) by (unfold det, drop_nth, a, b, c; cbn; field).
  assert (F : forall xi, Rabs (p3_det xi (pyramid_vertices o a b c)) = 3/4 * ((1 - nth 2 xi 0) / 2) ^ 2).
  { intros xi. rewrite p3_factor, D by reflexivity. apply Rabs_right. assert (Q := pow2_ge_0 ((1 - nth 2 xi 0) / 2)). lra. }
  unfold p3_integrate. cbn [mk3 s_rule]. unfold mk_rule, untangle, s4. cbn [map fst snd concat np_repeat repeat flat_map app List.combine List.length Rsum].
  lazy -[Rplus Rmult Rminus Ropp Rdiv Rinv IZR pow Rabs p3_det p3_transform pyramid_vertices mpeval o a b c].
  rewrite !F, !p3_point. unfold affine, o, a, b, c, mpeval. cbn [map seq nth mono fst snd Rsum]. nra.
Qed.
Print Assumptions C66_p3_felippa_8.
Print Assumptions C66_w3_felippa_3.
Print Assumptions C66_pyramids.
Print Assumptions C66_prisms.
