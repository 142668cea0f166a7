(** Properties of the adaptive triangle integrator (t2/_tools.py) and of simplex integration. *)
From Coq Require Import Reals List Arith Bool Lia Lra Permutation.
From Verif Require Import Spec RsumLemmas CombModel PyBase AdaptModel AdaptProofs GeomModel GeomProofs.
Import ListNotations.
Open Scope R_scope.

(* ------------------------------------------------------------------ C48 *)
(** Each of the four children of a triangle in d-dimensional space has a quarter of its area. *)
Theorem C48_quarter_area d i t : tri_ok d t -> tri_area (child i t) = tri_area t / 4.
Proof. apply child_area. Qed.
Print Assumptions C48_quarter_area.
(** The area is the usual one. *)
Theorem C48_area_in_the_plane x0 y0 x1 y1 x2 y2 :
  tri_area ([x0; y0], [x1; y1], [x2; y2]) = Rabs ((x1 - x0) * (y2 - y0) - (x2 - x0) * (y1 - y0)) / 2.
Proof. apply tri_area_plane. Qed.
Print Assumptions C48_area_in_the_plane.
(** The children cover the parent and nothing else ... *)
Theorem C48_children_cover d t p : tri_ok d t ->
  (in_triangle t p <-> exists i, (i < 4)%nat /\ in_triangle (child i t) p).
Proof. apply children_cover. Qed.
Print Assumptions C48_children_cover.
(** ... and have disjoint interiors, if the parent's corners are affinely independent. *)
Theorem C48_children_disjoint d t i j u v w u' v' w' : tri_ok d t ->
  (forall u v w u' v' w', u + v + w = 1 -> u' + v' + w' = 1 -> bary t u v w = bary t u' v' w' -> u = u' /\ v = v' /\ w = w') ->
  (i < j < 4)%nat -> 0 < u -> 0 < v -> 0 < w -> u + v + w = 1 -> 0 < u' -> 0 < v' -> 0 < w' -> u' + v' + w' = 1 ->
  bary (child i t) u v w <> bary (child j t) u' v' w'.
Proof. apply children_disjoint. Qed.
Print Assumptions C48_children_disjoint.

Lemma refines_cover d l l' : refines l l' -> Forall (tri_ok d) l ->
  forall p, (exists t, In t l /\ in_triangle t p) <-> (exists t, In t l' /\ in_triangle t p).
Proof.
  induction 1 as [l l' Hp|l t rest l' Hp H IH]; intros Hok p.
  - split; intros [t [Ht Hi]]; exists t; split; auto; [apply (Permutation_in _ Hp)|apply (Permutation_in _ (Permutation_sym Hp))]; auto.
  - assert (Ht : tri_ok d t) by (rewrite Forall_forall in Hok; apply Hok, (Permutation_in _ (Permutation_sym Hp)); left; auto).
    assert (Hok' : Forall (tri_ok d) (child 0 t :: child 1 t :: child 2 t :: child 3 t :: rest)).
    { repeat (constructor; [apply child_ok; auto|]). rewrite Forall_forall in *. intros x Hx. apply Hok.
      apply (Permutation_in _ (Permutation_sym Hp)). right. auto. }
    rewrite <- (IH Hok' p). split.
    + intros [s [Hs Hi]]. apply (Permutation_in _ Hp) in Hs. destruct Hs as [<-|Hs].
      * apply (children_cover d) in Hi; auto. destruct Hi as [i [Hi4 Hi]]. exists (child i t). split; auto.
        destruct i as [|[|[|[|i]]]]; cbn; auto 6; lia.
      * exists s. split; auto. do 4 right. auto.
    + assert (C : forall i, (i < 4)%nat -> in_triangle (child i t) p -> exists s, In s l /\ in_triangle s p).
      { intros i Hi4 Hi. exists t. split; [apply (Permutation_in _ (Permutation_sym Hp)); left; auto|].
        apply (children_cover d); auto. exists i. auto. }
      intros [s [[<-|[<-|[<-|[<-|Hs]]]] Hi]]; [apply (C 0%nat); auto; lia|apply (C 1%nat); auto; lia|apply (C 2%nat); auto; lia|apply (C 3%nat); auto; lia|].
      exists s. split; auto. apply (Permutation_in _ (Permutation_sym Hp)). right. auto.
Qed.
(** Whatever was refined, a returned value is the sum of the first scheme's values over triangles that cover
    exactly the given region and have the same total area; the returned error is the sum of the differences of
    the two schemes over the same triangles, each below its share of the tolerance. *)
Theorem C48_result m val1 val2 eps d fuel ts mn v e : Forall (tri_ok d) ts ->
  t2_integrate_adaptive m val1 val2 eps fuel ts mn = T2Returned v e ->
  exists l,
    (forall p, (exists t, In t ts /\ in_triangle t p) <-> (exists t, In t l /\ in_triangle t p)) /\
    Rsum (map tri_area l) = Rsum (map tri_area ts) /\
    (forall j, v j = Rsum (map (fun t => val1 t j) l)) /\
    (forall j, e j = Rsum (map (fun t => Rabs (val1 t j - val2 t j)) l)) /\
    (forall t j, In t l -> (j < m)%nat -> Rabs (val1 t j - val2 t j) < eps * tri_area t / Rsum (map tri_area ts)).
Proof.
  intros Hok H. destruct (t2_returned _ _ _ _ _ _ _ _ _ H) as [l [Hr [Hv [He Hg]]]]. exists l.
  repeat split; auto.
  - intros Hp. apply (refines_cover d ts l Hr Hok). auto.
  - intros Hp. apply (refines_cover d ts l Hr Hok). auto.
  - apply (refines_area d); auto.
  - intros t j Ht Hj. specialize (Hg t Ht). unfold t2_good in Hg. rewrite forallb_forall in Hg.
    specialize (Hg j ltac:(apply in_seq; lia)). destruct (Req_EM_T _ 0); [discriminate|]. apply Rltb_true. auto.
Qed.
Print Assumptions C48_result.
Theorem C48_tolerance m val1 val2 eps d fuel ts mn v e j : (j < m)%nat -> ts <> [] -> Forall (tri_ok d) ts ->
  t2_integrate_adaptive m val1 val2 eps fuel ts mn = T2Returned v e -> e j < eps.
Proof. apply t2_tolerance. Qed.
Print Assumptions C48_tolerance.
(** With the default minimum area twelve steps of the loop suffice, whatever the integrand and tolerance: the
    integrator returns or fails the assertion. *)
Theorem C48_terminates m val1 val2 eps d fuel ts : (11 < fuel)%nat -> Forall (tri_ok d) ts ->
  t2_integrate_adaptive m val1 val2 eps fuel ts None <> T2StillRunning.
Proof. apply t2_terminates. Qed.
Print Assumptions C48_terminates.
(** The same for every positive minimum area. *)
Theorem C48_terminates_minimum m val1 val2 eps d ts ma : 0 < ma -> Forall (tri_ok d) ts ->
  exists N, forall fuel, (N < fuel)%nat -> t2_integrate_adaptive m val1 val2 eps fuel ts (Some ma) <> T2StillRunning.
Proof.
  intros Hm Hok.
  destruct (Pow_x_infinity 4 ltac:(rewrite Rabs_right; lra) (Rsum (map tri_area ts) / ma)) as [N HN].
  exists (S N). intros fuel Hf. apply (t2_terminates_min _ _ _ _ d _ _ _ N); auto.
  specialize (HN (S N) ltac:(lia)). rewrite Rabs_right in HN by (left; apply pow_lt; lra).
  apply Rge_le in HN. apply (Rmult_le_compat_l ma) in HN; [|lra]. replace (ma * (Rsum (map tri_area ts) / ma)) with (Rsum (map tri_area ts)) in HN by (field; lra). auto.
Qed.
Print Assumptions C48_terminates_minimum.

(** Concrete runs: on the unit right triangle, two schemes that always agree return at once; two that never do
    fail the assertion. *)
Definition unit_triangle : triangle := ([0; 0], [1; 0], [0; 1]).
Lemma unit_area : tri_area unit_triangle = 1 / 2.
Proof. unfold unit_triangle. rewrite tri_area_plane, Rabs_right; lra. Qed.
Example agreeing_schemes : exists v e,
  t2_integrate_adaptive 1 (fun t _ => tri_area t) (fun t _ => tri_area t) 1 2 [unit_triangle] None = T2Returned v e /\ v 0%nat = 1 / 2.
Proof.
  unfold t2_integrate_adaptive, t2_good, t2_error. cbn [map Rsum filter seq forallb]. rewrite unit_area.
  destruct (Req_EM_T (1 / 2 + 0) 0) as [E|_]; [exfalso; clear -E; lra|].
  replace (Rltb (Rabs (1 / 2 - 1 / 2)) (1 * (1 / 2) / (1 / 2 + 0))) with true; [cbn; eexists; eexists; split; [reflexivity|unfold t2_sum; cbn; rewrite unit_area; lra]|].
  symmetry. replace (1 / 2 - 1 / 2) with 0 by lra. rewrite Rabs_R0. unfold Rltb. destruct (Rlt_dec _ _) as [|n]; auto. exfalso. apply n. lra.
Qed.
Example disagreeing_schemes fuel : (11 < fuel)%nat ->
  t2_integrate_adaptive 1 (fun t _ => 1) (fun t _ => 0) 1 fuel [unit_triangle] None = T2AreaAssertion.
Proof.
  intros Hf. destruct (t2_integrate_adaptive 1 (fun t _ => 1) (fun t _ => 0) 1 fuel [unit_triangle] None) as [v e| |] eqn:E; auto; exfalso.
  - assert (Hok : Forall (tri_ok 2) [unit_triangle]) by (repeat constructor).
    assert (Ht : e 0%nat < 1) by (refine (C48_tolerance 1 _ _ 1 2 fuel [unit_triangle] None v e 0%nat _ _ Hok E); [lia|discriminate]).
    destruct (C48_result _ _ _ _ _ _ _ _ _ _ Hok E) as [l' [_ [Ha' [_ [He _]]]]].
    rewrite He in Ht. destruct l' as [|t l']; cbn in *; [rewrite unit_area in Ha'; lra|].
    assert (E1 : Rabs (1 - 0) = 1) by (rewrite Rabs_right; lra).
    assert (0 <= Rsum (map (fun _ : triangle => Rabs (1 - 0)) l')) by (apply Rsum_nonneg; intros x Hx; apply in_map_iff in Hx; destruct Hx as [? [<- _]]; apply Rabs_pos).
    rewrite E1 in *. lra.
  - refine (C48_terminates 1 _ _ 1 2 fuel [unit_triangle] Hf _ E); repeat constructor.
Qed.
Example unit_triangle_unique u v w u' v' w' : bary unit_triangle u v w = bary unit_triangle u' v' w' ->
  u + v + w = 1 -> u' + v' + w' = 1 -> u = u' /\ v = v' /\ w = w'.
Proof. unfold bary, unit_triangle, vadd, vscale. cbn. intros E H H'. injection E as E1 E2. lra. Qed.
