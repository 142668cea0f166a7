(** C53: construction of scheme objects.  The vocabulary is explained in ConstructSpec.v. *)
From Coq Require Import Reals List Arith Bool String Lia Lra.
From Verif Require Import ConstructModel ConstructSpec.
Import ListNotations.
Set Bullet Behavior "Strict Subproofs".
Open Scope R_scope.
Open Scope string_scope.

Lemma float_and_symbolic_ok a : accepted a -> exists f s, float_and_symbolic a = Some (f, s) /\ stored a (Some f) s.
Proof.
  unfold accepted, float_and_symbolic, stored. destruct a as [[] sh e]; cbn; intros H; try congruence;
    do 2 eexists; (split; [reflexivity|]); (split; [eexists; repeat split; reflexivity|]); split; congruence.
Qed.
Lemma base_init_ok name weights points degree tol self : accepted weights -> accepted points ->
  (tol <= 1 / 10 ^ 12 \/ o_domain self <> None) ->
  exists o ws, base_init name weights points degree tol self = Done o ws /\
    o_name o = Some name /\ o_degree o = Some degree /\ o_test_tolerance o = Some tol /\
    stored weights (o_weights o) (o_weights_symbolic o) /\ stored points (o_points o) (o_points_symbolic o) /\
    o_domain o = o_domain self /\ o_dim o = o_dim self /\
    (tol <= 1 / 10 ^ 12 -> ws = []) /\ (1 / 10 ^ 12 < tol -> exists d, o_domain self = Some d /\ ws = [LowPrecision name d tol]).
Proof.
  intros Hw Hp Hd. destruct (float_and_symbolic_ok _ Hw) as [w [sw [Ew Sw]]]. destruct (float_and_symbolic_ok _ Hp) as [p [sp [Ep Sp]]].
  unfold base_init. rewrite Ew, Ep. destruct (Rlt_dec (1 / 10 ^ 12) tol) as [H|H].
  - destruct (o_domain self) as [d|] eqn:E; [|destruct Hd; [lra|congruence]].
    do 2 eexists. split; [reflexivity|]. repeat (split; [assumption || reflexivity|]). split; [lra|]. intros _. exists d. auto.
  - do 2 eexists. split; [reflexivity|]. repeat (split; [assumption || reflexivity|]). intros; exfalso; lra.
Qed.

(** Every class: the object carries what was passed, the arrays in floating point and, if they are exact, also as they are; a
    warning that names the scheme is given exactly if the tolerance exceeds 1e-12.  Not for the tolerances above 1e-12 in the
    classes that name the domain late. *)
Theorem C53_construct : forall c name dim weights points degree tol,
  accepted weights -> accepted points -> fits_class c dim weights points ->
  (tol <= 1 / 10 ^ 12 \/ ~ names_domain_late c) ->
  exists o ws, construct c name dim weights points degree tol = Done o ws /\ well_formed c name dim weights points degree tol o /\
    (tolerance c tol <= 1 / 10 ^ 12 -> ws = []) /\
    (1 / 10 ^ 12 < tolerance c tol -> exists d, ws = [LowPrecision name d tol] /\ warned c dim d).
Proof.
  intros c name dim weights points degree tol Hw Hp Hf Hd.
  assert (P : forall u self, tolerance c tol = u -> (u <= 1 / 10 ^ 12 \/ o_domain self <> None) -> forall g : object -> object,
    (forall o, o_name (g o) = o_name o /\ o_degree (g o) = o_degree o /\ o_test_tolerance (g o) = o_test_tolerance o /\
      o_weights (g o) = o_weights o /\ o_weights_symbolic (g o) = o_weights_symbolic o /\ o_points (g o) = o_points o /\ o_points_symbolic (g o) = o_points_symbolic o) ->
    (forall o, o_domain o = o_domain self -> exists d, o_domain (g o) = Some d /\ named c dim d) -> (u = tol \/ u <= 1 / 10 ^ 12) ->
    (forall o, o_dim o = o_dim self -> o_dim (g o) = dimension c dim) -> (forall d, o_domain self = Some d -> warned c dim d) ->
    exists o ws, then_ (base_init name weights points degree u self) g = Done o ws /\ well_formed c name dim weights points degree tol o /\
    (tolerance c tol <= 1 / 10 ^ 12 -> ws = []) /\ (1 / 10 ^ 12 < tolerance c tol -> exists d, ws = [LowPrecision name d tol] /\ warned c dim d)).
  { intros u self Hu Hs g Hg Hn Ht Hm Hwd. destruct (base_init_ok name weights points degree u self Hw Hp Hs) as [o [ws [E [A1 [A2 [A3 [A4 [A5 [A6 [A6' [A7 A8]]]]]]]]]]].
    rewrite E. exists (g o), ws. split; [reflexivity|]. destruct (Hg o) as [B1 [B2 [B3 [B4 [B5 [B6 B7]]]]]]. split.
    - unfold well_formed. rewrite B1, B2, B3, B4, B5, B6, B7, Hu. repeat (split; [assumption|]). split; [apply Hm, A6'|]. apply Hn, A6.
    - rewrite Hu. split; auto. intros H. destruct (A8 H) as [d [Ed ->]]. exists d. split; [destruct Ht as [-> |Ht]; [reflexivity|lra]|auto]. }
  assert (Q : forall u self, tolerance c tol = u -> (u <= 1 / 10 ^ 12 \/ o_domain self <> None) ->
    (exists d, o_domain self = Some d /\ named c dim d) -> (u = tol \/ u <= 1 / 10 ^ 12) -> o_dim self = dimension c dim -> (forall d, o_domain self = Some d -> warned c dim d) ->
    exists o ws, base_init name weights points degree u self = Done o ws /\ well_formed c name dim weights points degree tol o /\
    (tolerance c tol <= 1 / 10 ^ 12 -> ws = []) /\ (1 / 10 ^ 12 < tolerance c tol -> exists d, ws = [LowPrecision name d tol] /\ warned c dim d)).
  { intros u self Hu Hs [d [Ed Hn]] Ht Hm Hwd. destruct (P u self Hu Hs (fun o => o)) as [o [ws [E H]]]; auto.
    - intros o. repeat split; reflexivity.
    - intros o Eo. exists d. rewrite Eo. auto.
    - intros o Eo. rewrite Eo. auto.
    - exists o, ws. split; auto. destruct (base_init name weights points degree u self); exact E. }
  destruct c; cbn [fits_class] in Hf; unfold construct, cn_init, tn_init; rewrite ?Hf, ?Nat.eqb_refl; cbn [assert];
    try (destruct Hf as [Hf1 Hf2]; rewrite Hf1, Hf2, !Nat.eqb_refl; cbn [assert]);
    first [apply Q|apply P]; cbn [tolerance]; auto;
    try (right; cbn; discriminate); try (destruct Hd as [Hd|Hd]; [left; exact Hd|exfalso; apply Hd; cbn; tauto]);
    try (eexists; split; [reflexivity|cbn; eauto]); try (right; cbn; lra); try (intros o; repeat split; reflexivity); try (intros o Eo; eexists; split; [reflexivity|cbn; eauto]);
    try (cbn; lra); try (intros o Eo; cbn; exact Eo || reflexivity); try (intros d Ed; cbn in Ed; first [discriminate Ed | injection Ed as <-; cbn; eauto]).
Qed.
Print Assumptions C53_construct.
(** Data of another dtype (complex numbers, single precision) are rejected. *)
Theorem C53_rejects : forall c name dim weights points degree tol o ws,
  construct c name dim weights points degree tol = Done o ws -> accepted weights /\ accepted points /\ fits_class c dim weights points.
Proof.
  assert (B : forall name weights points degree tol self o ws, base_init name weights points degree tol self = Done o ws -> accepted weights /\ accepted points).
  { intros name [[] sw ew] [[] sp ep] degree tol self o ws; unfold base_init, accepted; cbn; intros H; split; try congruence;
      destruct (Rlt_dec _ _); try destruct (o_domain self); discriminate. }
  assert (A : forall b r o ws, assert b r = Done o ws -> b = true /\ r = Done o ws) by (intros [] r o ws; cbn; intros H; [auto|discriminate]).
  assert (T : forall r f o ws, then_ r f = Done o ws -> exists o', r = Done o' ws) by (intros [] f o' ws'; cbn; intros H; try discriminate; injection H as _ <-; eauto).
  intros c name dim weights points degree tol o ws H.
  destruct c; unfold construct, cn_init, tn_init in H; cbn [fits_class];
    repeat match goal with
    | H : assert _ _ = Done _ _ |- _ => apply A in H; let K := fresh "K" in destruct H as [K H]; apply Nat.eqb_eq in K
    | H : then_ _ _ = Done _ _ |- _ => apply T in H; destruct H as [? H]
    | H : base_init _ _ _ _ _ _ = Done _ _ |- _ => apply B in H; destruct H as [? ?]
    end; auto.
Qed.
Print Assumptions C53_rejects.
(** In the classes that name the domain late the warning itself fails: a tolerance above 1e-12 raises AttributeError. *)
Theorem C53_warning_refuted : forall c name dim weights points degree tol, names_domain_late c -> 1 / 10 ^ 12 < tol ->
  construct c name dim weights points degree tol = AttributeError.
Proof.
  intros c name dim weights points degree tol Hc Ht. unfold names_domain_late in Hc. cbn in Hc.
  destruct Hc as [<-|[<-|[<-|[<-|[<-|[]]]]]]; unfold construct, base_init; destruct (Rlt_dec (1 / 10 ^ 12) tol); try reflexivity; contradiction.
Qed.
Print Assumptions C53_warning_refuted.
Example C53_ex : exists w p o d, accepted w /\ accepted p /\ fits_class T2 0 w p /\
  construct T2 "Centroid rule" 0 w p 1 (1 / 10 ^ 3) = Done o [LowPrecision "Centroid rule" d (1 / 10 ^ 3)] /\
  o_domain o = Some (Plain "T2") /\ o_weights_symbolic o = None /\ o_points_symbolic o = Some p.
Proof.
  exists (mk_array Float64 [1%nat] [1]), (mk_array Object [3; 1]%nat [1/3; 1/3; 1/3]).
  do 2 eexists. split; [discriminate|]. split; [discriminate|]. split; [reflexivity|]. split.
  - unfold construct, tn_init, base_init. cbn [assert axis0 a_shape nth Nat.eqb]. destruct (Rlt_dec (1 / 10 ^ 12) (1 / 10 ^ 3)) as [H|H]; [reflexivity|exfalso; apply H; lra].
  - repeat split.
Qed.
