(** C38: which axes C1Scheme.integrate takes for what, and the value it computes for arrays of any shape.
    [fits], [tails_differ], [evaluates], [on_segment] and [distance] are explained in ShapeSpec.v. *)
From Coq Require Import Reals List Arith Lia Lra.
From Coquelicot Require Import Coquelicot.
From Verif Require Import Spec RsumLemmas IntegralProofs Spec1 C1Tools PyBase ShapeModel ShapeSpec ShapeProofs.
Import ListNotations.
Set Bullet Behavior "Strict Subproofs".
Open Scope R_scope.

(** Whatever shapes are found explain the shapes of the arrays, and agree with the shapes the user gave. *)
Theorem C38_sound : forall fx iv x domain_shape range_shape ds rs ss,
  find_shapes fx iv x domain_shape range_shape = Some (ds, rs, ss) ->
  fits fx iv x ds rs ss /\ (forall d, domain_shape = Some d -> ds = d) /\ (forall r, range_shape = Some r -> rs = r).
Proof. intros. apply find_shapes_sound in H. tauto. Qed.
Print Assumptions C38_sound.
(** If the user gives the domain shape or the range shape (or both), the axes are recovered. *)
Theorem C38_given : forall fx iv n ds rs ss, fits fx iv [n] ds rs ss ->
  find_shapes fx iv [n] (Some ds) (Some rs) = Some (ds, rs, ss) /\ find_shapes fx iv [n] (Some ds) None = Some (ds, rs, ss) /\
  find_shapes fx iv [n] None (Some rs) = Some (ds, rs, ss).
Proof. intros fx iv n ds rs ss F. split; [|split]; apply find_shapes_given; auto. Qed.
Print Assumptions C38_given.
(** If the user gives neither, they are recovered exactly when the domain shape and the range shape do not end alike; in any case
    the longest possible shape of the set of intervals is found. *)
Theorem C38_inferred : forall fx iv n ds rs ss, fits fx iv [n] ds rs ss ->
  (find_shapes fx iv [n] None None = Some (ds, rs, ss) <-> tails_differ ds rs) /\
  exists ds' rs' ss', find_shapes fx iv [n] None None = Some (ds', rs', ss') /\ exists e, ss' = e ++ ss /\ ds = ds' ++ e /\ rs = rs' ++ e.
Proof.
  intros fx iv n ds rs ss F. destruct (find_shapes_inferred _ _ [n] _ _ _ eq_refl F) as [ds' [rs' [e [E [E1 [E2 T]]]]]]. split.
  - split.
    + intros H. assert (A : Some (ds', rs', e ++ ss) = Some (ds, rs, ss)) by (rewrite <- E, <- H; reflexivity). injection A as <- <- _. exact T.
    + intros H. destruct (find_shapes_sound _ _ _ _ _ _ _ _ E) as [_ [G _]].
      destruct (fits_shapes_unique _ _ _ _ _ _ _ _ _ F G H T) as [A [B C]]. rewrite E, <- C, A, B. reflexivity.
  - exists ds', rs', (e ++ ss). split; auto. exists e. auto.
Qed.
Print Assumptions C38_inferred.
(** The assertions fail exactly when there is nothing to be found. *)
Theorem C38_raises : forall fx iv n domain_shape range_shape, find_shapes fx iv [n] domain_shape range_shape = None <->
  ~ exists ds rs ss, fits fx iv [n] ds rs ss /\ (forall d, domain_shape = Some d -> ds = d) /\ (forall r, range_shape = Some r -> rs = r).
Proof. intros. apply find_shapes_none. reflexivity. Qed.
Print Assumptions C38_raises.
Example C38_ex : (find_shapes [4; 5; 6; 10] [2; 3; 5; 6] [10] None None = Some ([3], [4], [5; 6]) /\ tails_differ [3] [4] /\
  find_shapes [3; 10] [2; 3] [10] (Some [3]) None = Some ([3], [3], []) /\ find_shapes [4; 9] [2; 3] [10] None None = None)%nat.
Proof. repeat split; try reflexivity. right. right. cbn. discriminate. Qed.

(** The value for arrays of any shape: entry (r, s) of the result is half the length of interval s times the weighted sum of the
    entries r of the function at the points of interval s. *)
Theorem C38_integrate : forall points weights f iv ds rs ss F domain_shape range_shape,
  length points = length weights -> nd_shape iv = 2%nat :: ds ++ ss -> evaluates ds rs ss (length points) F f ->
  (domain_shape = Some ds /\ (range_shape = None \/ range_shape = Some rs) \/ domain_shape = None /\ range_shape = Some rs \/
   domain_shape = None /\ range_shape = None /\ tails_differ ds rs) ->
  exists out, c1_integrate_nd points weights f iv domain_shape range_shape = Some out /\ nd_shape out = rs ++ ss /\
  forall r s, within r rs -> within s ss ->
    let a := fun d => nd_at iv (0%nat :: d ++ s) in let b := fun d => nd_at iv (1%nat :: d ++ s) in
    nd_at out (r ++ s) = distance ds a b / 2 * apply1 (combine weights points) (fun t => F (on_segment a b t) r).
Proof. exact c1_integrate_nd_value. Qed.
Print Assumptions C38_integrate.
(** Hence a rule of degree [m] gives the curve integral along every segment on which the function is a polynomial of degree at
    most [m] (t runs from -1 to 1 along the segment, so that distance / 2 dt is the element of length). *)
Theorem C38_integrate_exact : forall m points weights f iv ds rs ss F domain_shape range_shape,
  exact1 m (combine weights points) ->
  length points = length weights -> nd_shape iv = 2%nat :: ds ++ ss -> evaluates ds rs ss (length points) F f ->
  (domain_shape = Some ds /\ (range_shape = None \/ range_shape = Some rs) \/ domain_shape = None /\ range_shape = Some rs \/
   domain_shape = None /\ range_shape = None /\ tails_differ ds rs) ->
  exists out, c1_integrate_nd points weights f iv domain_shape range_shape = Some out /\ nd_shape out = rs ++ ss /\
  forall r s c, within r rs -> within s ss ->
    let a := fun d => nd_at iv (0%nat :: d ++ s) in let b := fun d => nd_at iv (1%nat :: d ++ s) in
    (length c <= S m)%nat -> (forall t, F (on_segment a b t) r = peval c t) ->
    nd_at out (r ++ s) = RInt (fun t => F (on_segment a b t) r * (distance ds a b / 2)) (-1) 1.
Proof.
  intros m points weights f iv ds rs ss F dom rng X L Hiv Hf Hg.
  destruct (c1_integrate_nd_value points weights f iv ds rs ss F dom rng L Hiv Hf Hg) as [out [E [S V]]]. exists out. split; auto. split; auto.
  intros r s c Hr Hs a b Hc Hp. rewrite (V r s Hr Hs). cbv zeta. fold a b. specialize (X c Hc).
  set (k := distance ds a b / 2). symmetry. apply is_RInt_unique.
  apply (is_RInt_ext (fun t => scal k (peval c t))); [intros t _; rewrite Hp; unfold scal; cbn; unfold mult; cbn; ring|].
  replace (Rsum _) with (RInt (peval c) (-1) 1).
  - apply (is_RInt_scal (V := R_NormedModule)). rewrite (is_RInt_unique _ _ _ _ (is_RInt_peval c (-1) 1)). apply is_RInt_peval.
  - rewrite <- X. unfold apply1. apply Rsum_map_ext. intros wt. rewrite Hp. reflexivity.
Qed.
Print Assumptions C38_integrate_exact.
(** Two segments in the plane, a scalar function: the conditions are met. *)
Example C38_ex_integrate : exists f F, evaluates [2]%nat [] [2]%nat 1 F f /\ tails_differ [2]%nat [] /\ F (fun _ => 3) [] = 6.
Proof.
  exists (fun x => mk_nd [2; 1]%nat (fun i => nd_at x (0%nat :: i) + nd_at x (1%nat :: i))), (fun p _ => p [0%nat] + p [1%nat]).
  split; [|split; [right; left; reflexivity|lra]]. split.
  - intros p q r H. rewrite !H; auto; repeat constructor.
  - intros x Hx. split; [reflexivity|]. intros r s k Hr Hs Hk. apply within_length in Hr. destruct r; [|discriminate]. reflexivity.
Qed.
(** Without the shapes the axes of a vector field on one segment are taken for a set of intervals, and the result is wrong: the
    field (1, 1) over the segment from (0, 0) to (3, 4) of length 5 gives (3, 4) rather than (5, 5). *)
Theorem C38_ambiguous_refuted : exists points weights f iv F,
  exact1 1 (combine weights points) /\ nd_shape iv = [2; 2]%nat /\ evaluates [2]%nat [2]%nat [] (length points) F f /\
  (forall p r, F p r = 1) /\ distance [2]%nat (fun d => nd_at iv (0%nat :: d)) (fun d => nd_at iv (1%nat :: d)) = 5 /\
  exists out, c1_integrate_nd points weights f iv None None = Some out /\ nd_at out [0%nat] = 3 /\ nd_at out [1%nat] = 4.
Proof.
  exists [0], [2], (fun _ => mk_nd [2; 1]%nat (fun _ => 1)),
    (mk_nd [2; 2]%nat (fun i => match i with [1%nat; 0%nat] => 3 | [1%nat; 1%nat] => 4 | _ => 0 end)), (fun _ _ => 1).
  split; [|split; [reflexivity|split; [|split; [reflexivity|split]]]].
  - apply exact1_of_powers. intros [|[|k]] Hk; try lia; unfold apply1, pow_int; cbn; lra.
  - split; [reflexivity|]. intros x Hx. split; reflexivity.
  - unfold distance. cbn. replace (_ + _) with (5 * 5) by ring. apply sqrt_square. lra.
  - eexists. split; [reflexivity|]. cbn. split.
    + replace ((3 - 0) * ((3 - 0) * 1) + 0) with (3 * 3) by ring. rewrite sqrt_square by lra. lra.
    + replace ((4 - 0) * ((4 - 0) * 1) + 0) with (4 * 4) by ring. rewrite sqrt_square by lra. lra.
Qed.
Print Assumptions C38_ambiguous_refuted.
