(** C32, C37, C45-C47, C49, C50: one-dimensional integrate(), adaptive integration and quad(). *)
From Coq Require Import Reals List Arith Bool Lia Lra Permutation.
From Coquelicot Require Import Coquelicot.
From Verif Require Import Spec RsumLemmas IntegralProofs Spec1 CombModel PyBase AdaptModel AdaptProofs C1Tools QuadProofs.
Import ListNotations.
Open Scope R_scope.
Set Bullet Behavior "Strict Subproofs".

(** c1/_midpoint.py:6-9, weights and points *)
Definition midpoint : rule1 := [(2, 0)].
(** c1/_trapezoidal.py:6-9 *)
Definition trapezoidal : rule1 := [(1, -1); (1, 1)].

Lemma midpoint_exact1 : exact1 1 midpoint.
Proof.
  apply exact1_of_powers. intros [|[|k]] Hk; try lia; unfold apply1, midpoint, pow_int; cbn; lra.
Qed.
Lemma trapezoidal_exact1 : exact1 1 trapezoidal.
Proof.
  apply exact1_of_powers. intros [|[|k]] Hk; try lia; unfold apply1, trapezoidal, pow_int; cbn; lra.
Qed.

(** C32: the midpoint and the trapezoidal rule integrate every affine function over every interval. *)
Theorem C32_midpoint : forall p q a b, a <= b ->
  c1_integrate midpoint (fun x => p + q * x) (a, b) = RInt (fun x => p + q * x) a b.
Proof.
  intros p q a b H. assert (E := c1_integrate_exact 1 midpoint [p; q] a b midpoint_exact1 (le_n 2)).
  rewrite Rmin_left, Rmax_right in E by lra.
  rewrite (RInt_ext _ (peval [p; q])) by (intros; cbn; ring). rewrite <- E.
  unfold c1_integrate. f_equal. apply Rsum_map_ext. intros. cbn. ring.
Qed.
Theorem C32_trapezoidal : forall p q a b, a <= b ->
  c1_integrate trapezoidal (fun x => p + q * x) (a, b) = RInt (fun x => p + q * x) a b.
Proof.
  intros p q a b H. assert (E := c1_integrate_exact 1 trapezoidal [p; q] a b trapezoidal_exact1 (le_n 2)).
  rewrite Rmin_left, Rmax_right in E by lra.
  rewrite (RInt_ext _ (peval [p; q])) by (intros; cbn; ring). rewrite <- E.
  unfold c1_integrate. f_equal. apply Rsum_map_ext. intros. cbn. ring.
Qed.
(** and the declared degree 1 is the best possible one. *)
Theorem C32_degree_sharp : ~ exact1 2 midpoint /\ ~ exact1 2 trapezoidal.
Proof.
  split; intros H; apply (exact1_powers 2 _ 2) in H; auto; unfold apply1, midpoint, trapezoidal, pow_int in H; cbn in H; lra.
Qed.
Example C32_example : c1_integrate trapezoidal (fun x => 1 + 2 * x) (0, 3) = 12.
Proof. unfold c1_integrate, to_interval, trapezoidal. rewrite interval_length_abs, Rabs_right by lra. cbn. lra. Qed.

(** C37: a scheme exact to degree d on [-1,1] is exact to degree d on every interval; the result does not
    depend on the orientation of the interval, and is linear in the integrand. *)
Theorem C37_integrate_exact : forall d q c a b, exact1 d q -> (length c <= S d)%nat ->
  c1_integrate q (peval c) (a, b) = RInt (peval c) (Rmin a b) (Rmax a b).
Proof. exact c1_integrate_exact. Qed.
Theorem C37_linear : forall q f g s t iv,
  c1_integrate q (fun x => s * f x + t * g x) iv = s * c1_integrate q f iv + t * c1_integrate q g iv.
Proof.
  intros q f g s t iv. unfold c1_integrate.
  rewrite (Rsum_map_ext _ (fun wx => s * (fst wx * f (to_interval iv (snd wx))) + t * (fst wx * g (to_interval iv (snd wx))))) by (intros; ring).
  rewrite Rsum_map_plus, !Rsum_map_scal. ring.
Qed.
(** The sign convention of the Riemann integral is not followed: reversing the interval does not change the sign. *)
Theorem C37_orientation_refuted : ~ (forall d q c a b, exact1 d q -> (length c <= S d)%nat ->
  c1_integrate q (peval c) (a, b) = RInt (peval c) a b).
Proof.
  intros H. specialize (H 1%nat midpoint [1] 1 0 midpoint_exact1 ltac:(cbn; lia)).
  assert (E : RInt (peval [1]) 1 0 = -1).
  { rewrite (is_RInt_unique _ _ _ _ (is_RInt_peval [1] 1 0)). cbn. field. }
  rewrite E in H. unfold c1_integrate, to_interval, midpoint in H. rewrite interval_length_abs in H.
  rewrite Rabs_left in H by lra. cbn in H. lra.
Qed.
Example C37_example : exact1 1 midpoint /\ c1_integrate midpoint (peval [0; 2]) (5, 3) = 16.
Proof.
  split; [apply midpoint_exact1|]. unfold c1_integrate, to_interval, midpoint. rewrite interval_length_abs.
  rewrite Rabs_left by lra. cbn. lra.
Qed.

(** C45: whatever the tolerances, a result of integrate_adaptive is the sum of the Gauss rule's values over
    intervals that tile the given one, and the returned error is the sum of their error estimates. *)
Theorem C45_tiling : forall gk gl m f ivs ea er conn ml mx fuel v e,
  nested gk gl ->
  integrate_adaptive gk gl m f ivs ea er conn ml mx fuel = Returned v e ->
  exists a b l, ivs = [(a, b)] /\ tiling a b l /\
    (forall j, v j = Rsum (map (c1_integrate gl (fun x => f x j)) l)) /\
    (forall j, e j = Rsum (map (fun iv => error_estimate gk gl f iv j) l)).
Proof.
  intros gk gl m f ivs ea er conn ml mx fuel v e Hn H. apply main_returned in H.
  destruct H as [a [b [l [-> [_ [Ht [Hv He]]]]]]]. exists a, b, l. split; auto. split; auto. split; auto.
  intros j. rewrite Hv. apply Rsum_map_ext. intros iv _. apply gl_val_integrate. auto.
Qed.
(** For polynomials that the Gauss rule integrates exactly the result is exact. *)
Theorem C45_polynomials : forall d gk gl m (c : nat -> list R) a b ea er conn ml mx fuel v e j,
  nested gk gl -> exact1 d gl -> (length (c j) <= S d)%nat ->
  integrate_adaptive gk gl m (fun x j => peval (c j) x) [(a, b)] ea er conn ml mx fuel = Returned v e ->
  v j = RInt (peval (c j)) a b.
Proof. exact adaptive_polynomial. Qed.
(** Several input intervals never give a result: the final reshape raises. *)
Theorem C45_several_intervals_refuted : forall gk gl m f ivs ea er conn ml mx fuel v e,
  length ivs <> 1%nat -> integrate_adaptive gk gl m f ivs ea er conn ml mx fuel <> Returned v e.
Proof. intros. apply main_many. auto. Qed.

(** C46: the returned error is below the tolerance: below eps_abs or eps_rel * |value| (np.any) respectively
    below both (np.all), for every component. *)
Theorem C46_any : forall gk gl m f ivs ea er ml mx fuel v e j, (j < m)%nat ->
  integrate_adaptive gk gl m f ivs (Some ea) (Some er) Any ml mx fuel = Returned v e ->
  e j < ea \/ e j < er * Rabs (v j).
Proof.
  intros gk gl m f ivs ea er ml mx fuel v e j Hj H. apply main_tolerance with (j := j) in H; auto.
  destruct H as [bd [[<-|[<-|[]]] H]]; auto.
Qed.
Theorem C46_all : forall gk gl m f ivs ea er ml mx fuel v e j, (j < m)%nat ->
  integrate_adaptive gk gl m f ivs (Some ea) (Some er) All ml mx fuel = Returned v e ->
  e j < ea /\ e j < er * Rabs (v j).
Proof.
  intros gk gl m f ivs ea er ml mx fuel v e j Hj H. apply main_tolerance with (j := j) in H; auto.
  cbn in H. split; apply H; auto.
Qed.
Theorem C46_absolute : forall gk gl m f ivs ea conn ml mx fuel v e j, (j < m)%nat ->
  integrate_adaptive gk gl m f ivs (Some ea) None conn ml mx fuel = Returned v e -> e j < ea.
Proof.
  intros gk gl m f ivs ea conn ml mx fuel v e j Hj H. apply main_tolerance with (j := j) in H; auto.
  destruct conn; cbn in H; [destruct H as [bd [[<-|[]] H]]|]; auto.
Qed.
Theorem C46_relative : forall gk gl m f ivs er conn ml mx fuel v e j, (j < m)%nat ->
  integrate_adaptive gk gl m f ivs None (Some er) conn ml mx fuel = Returned v e -> e j < er * Rabs (v j).
Proof.
  intros gk gl m f ivs er conn ml mx fuel v e j Hj H. apply main_tolerance with (j := j) in H; auto.
  destruct conn; cbn in H; [destruct H as [bd [[<-|[]] H]]|]; auto.
Qed.
(** If the error estimates are upper bounds of the true errors then the true error of the result is within
    the returned error. *)
Theorem C46_true_error : forall gk gl m f a b ea er conn ml mx fuel v e j,
  (forall u w, a <= u -> w <= b -> ex_RInt (fun x => f x j) u w) ->
  (forall u w, a <= u <= w /\ w <= b ->
     Rabs (gl_val gk gl f (u, w) j - RInt (fun x => f x j) u w) <= error_estimate gk gl f (u, w) j) ->
  integrate_adaptive gk gl m f [(a, b)] ea er conn ml mx fuel = Returned v e ->
  Rabs (v j - RInt (fun x => f x j) a b) <= e j.
Proof. exact adaptive_error_bound. Qed.
(** Without a tolerance the call is rejected. *)
Theorem C46_no_tolerance : forall gk gl m f ivs conn ml mx fuel,
  integrate_adaptive gk gl m f ivs None None conn ml mx fuel = AssertionFailed.
Proof. intros. unfold integrate_adaptive, adapt_main. rewrite andb_false_r. auto. Qed.

(** C47: with a positive minimum interval length the integrator stops: it returns or raises after at most
    k + 1 rounds when 2^k minimal intervals are longer than the given one. *)
Theorem C47_minimum_length : forall gk gl m f a b ea er conn ml mx k fuel,
  0 < ml -> b - a < ml * 2 ^ k -> (k + 1 < fuel)%nat ->
  integrate_adaptive gk gl m f [(a, b)] ea er conn ml mx fuel <> StillRunning.
Proof. intros. apply (main_terminates _ _ _ _ _ _ _ _ a b k); auto. Qed.
(** The subinterval limit does not stop it: with zero tolerances and any limit it runs forever on every
    integrand, bisecting all subintervals in every round (num_subintervals counts accepted intervals only). *)
Theorem C47_limit_refuted : forall gk gl f a b mx, (forall w, In w (map fst gk) -> 0 <= w) -> a <= b -> (1 <= mx)%nat ->
  forall fuel, integrate_adaptive gk gl 1 f [(a, b)] (Some 0) (Some 0) Any 0 (Some mx) fuel = StillRunning.
Proof.
  intros gk gl f a b mx Hw Hab Hmx fuel. apply zero_tolerance_runs_forever; auto.
  intros iv j. apply error_estimate_bounds. auto.
Qed.
(** What the limit does bound: the number of intervals accepted before the last round. *)
Theorem C47_limit_partial : forall gk gl m f a b ea er conn ml mx fuel v e,
  integrate_adaptive gk gl m f [(a, b)] ea er conn ml (Some mx) fuel = Returned v e ->
  first_good m (gl_val gk gl f) (error_estimate gk gl f) ea er conn (a, b) = true \/
  exists l1 l0, tiling a b (l1 ++ split_all l0) /\
    (forall j, v j = sum_over (gl_val gk gl f) (l1 ++ split_all l0) j) /\ (1 + length l1 <= mx)%nat.
Proof.
  intros gk gl m f a b ea er conn ml mx fuel v e H. unfold integrate_adaptive, adapt_main in H.
  match type of H with context [forallb ?p _] => destruct (forallb p [(a, b)]) eqn:Ea end; [|discriminate]. cbn [andb] in H.
  destruct (match ea, er with None, None => false | _, _ => true end); [|discriminate].
  cbn [forallb fst snd] in Ea. rewrite andb_true_r in Ea. apply Rleb_true in Ea.
  cbn [filter] in H. destruct (first_good _ _ _ _ _ _ _) eqn:Ef; auto. right. cbn [negb length] in H.
  match type of H with match ?x with _ => _ end = _ => destruct x as [v' e'| | | | |] eqn:El end; try discriminate.
  cbn in H. injection H as <- <-.
  apply (loop_counter _ _ _ _ _ _ _ _ a b fuel mx eq_refl _ _ _ _ _ _ _ []) in El; auto.
  - destruct El as [l1 [l2 [H1 [H2 [H3 [l0 ->]]]]]]. exists l1, l0. auto.
  - exists [(a, b)]. split; auto. cbn. auto.
  - discriminate.
Qed.

(** C49: the error estimate of an interval lies between 0 and I_tilde (the rule's value of the deviation from
    the mean), vanishes when the two rules agree (and only then, unless I_tilde is 0), and is I_tilde when
    that is tiny. *)
Theorem C49_bounds : forall gk gl f iv j, (forall w, In w (map fst gk) -> 0 <= w) ->
  0 <= error_estimate gk gl f iv j <= I_tilde gk f iv j.
Proof. exact error_estimate_bounds. Qed.
Theorem C49_agree : forall gk gl f iv j, (forall w, In w (map fst gk) -> 0 <= w) ->
  gk_val gk f iv j = gl_val gk gl f iv j -> 1 / 10 ^ 15 < I_tilde gk f iv j -> error_estimate gk gl f iv j = 0.
Proof. exact error_estimate_zero. Qed.
Theorem C49_only_agree : forall gk gl f iv j, (forall w, In w (map fst gk) -> 0 <= w) ->
  error_estimate gk gl f iv j = 0 -> I_tilde gk f iv j = 0 \/ gk_val gk f iv j = gl_val gk gl f iv j.
Proof. exact error_estimate_zero_inv. Qed.
Theorem C49_tiny : forall gk gl f iv j, Rabs (I_tilde gk f iv j) <= 1 / 10 ^ 15 ->
  error_estimate gk gl f iv j = I_tilde gk f iv j.
Proof. exact error_estimate_tiny. Qed.

(** C50: reversing finite limits changes the sign of the value and keeps the error. *)
Theorem C50_reversed : forall gk gl f a b args ea er mx fuel, a <> b ->
  quad gk gl f (Fin b) (Fin a) args ea er mx fuel = negate (quad gk gl f (Fin a) (Fin b) args ea er mx fuel).
Proof.
  intros gk gl f a b args ea er mx fuel Hab. unfold quad. cbn [quad_problem].
  destruct (Rltb a b) eqn:E1, (Rltb b a) eqn:E2; auto; apply Rltb_true in E1 || apply Rltb_false in E1;
    apply Rltb_true in E2 || apply Rltb_false in E2; try lra.
  destruct (integrate_adaptive _ _ _ _ _ _ _ _ _ _ _) as [v e| | | | |]; auto. cbn. f_equal.
  apply FunctionalExtensionality.functional_extensionality. intros j. ring.
Qed.
(** The result meets scipy's tolerance. *)
Theorem C50_tolerance : forall gk gl f a b args ea er mx fuel v e,
  quad gk gl f a b args (Some ea) (Some er) mx fuel = Returned v e ->
  e 0%nat < ea \/ e 0%nat < er * Rabs (v 0%nat).
Proof.
  intros gk gl f a b args ea er mx fuel v e H. unfold quad in H.
  destruct (quad_problem f a b args) as [[[g a'] b']|]; [|discriminate].
  destruct (Rltb b' a').
  - destruct (integrate_adaptive _ _ _ _ _ _ _ _ _ _ _) as [v' e'| | | | |] eqn:E; try discriminate.
    cbn in H. injection H as <- <-. rewrite Rabs_Ropp. eapply C46_any; [|exact E]. lia.
  - eapply C46_any; [|exact H]. lia.
Qed.
(** On a half-infinite interval the problem handed to the finite integrator is the one obtained by the
    substitution x = a + (1-t)/t: its integral over [s,1] is that of f over [a, a+(1-s)/s], for every s. *)
Theorem C50_upper_infinite : forall gk gl f a args ea er mx fuel,
  exists g, quad gk gl f (Fin a) PInf args ea er mx fuel = quad gk gl (fun _ => g) (Fin 0) (Fin 1) [] ea er mx fuel /\
    ((forall x, continuous (f args) x) -> forall s, 0 < s <= 1 -> RInt g s 1 = RInt (f args) a (a + (1 - s) / s)).
Proof.
  intros. exists (fun t => f args (a + (1 - t) / t) / t ^ 2). split; auto.
  intros Hc s Hs. apply RInt_recip_up; auto.
Qed.
Theorem C50_lower_infinite : forall gk gl f b args ea er mx fuel,
  exists g, quad gk gl f MInf (Fin b) args ea er mx fuel = quad gk gl (fun _ => g) (Fin 0) (Fin 1) [] ea er mx fuel /\
    ((forall x, continuous (f args) x) -> forall s, 0 < s <= 1 -> RInt g s 1 = RInt (f args) (b - (1 - s) / s) b).
Proof.
  intros. exists (fun t => f args (b - (1 - t) / t) / t ^ 2). split; auto.
  intros Hc s Hs. apply RInt_recip_down; auto.
Qed.
(** On the whole line this is right when there are no extra arguments, *)
Theorem C50_whole_line_partial : forall gk gl f ea er mx fuel,
  exists g, quad gk gl f MInf PInf [] ea er mx fuel = quad gk gl (fun _ => g) (Fin 0) (Fin 1) [] ea er mx fuel /\
    ((forall x, continuous (f []) x) -> forall s, 0 < s <= 1 -> RInt g s 1 = RInt (f []) (- ((1 - s) / s)) ((1 - s) / s)).
Proof.
  intros. exists (fun t => (f [] ((1 - t) / t) + f [] (- (1 - t) / t)) / t ^ 2). split; auto.
  intros Hc s Hs. apply RInt_recip_both; auto.
Qed.
(** but with extra arguments the negative half line is integrated without them. *)
Theorem C50_whole_line_args_refuted : exists f args g,
  quad_problem f MInf PInf args = Some (g, 0, 1) /\ (forall x, continuous (f args) x) /\
  RInt g (1/2) 1 <> RInt (f args) (-1) 1.
Proof.
  set (f := fun (l : list R) (_ : R) => Rsum l). exists f, [1].
  eexists. split; [reflexivity|]. split; [intros; apply continuous_const|].
  assert (E1 : RInt (f [1]) (-1) 1 = 2).
  { unfold f. rewrite (RInt_const (V := R_CompleteNormedModule)). unfold scal. cbn. unfold mult. cbn. lra. }
  assert (E2 : RInt (fun t => (f [1] ((1 - t) / t) + f [] (- (1 - t) / t)) / t ^ 2) (1 / 2) 1 = 1).
  { rewrite (RInt_ext _ (fun t => (fun _ => 1) (0 + (1 - t) / t) / t ^ 2)).
    2:{ intros t _. unfold f. cbn. f_equal. ring. }
    rewrite (RInt_recip_up (fun _ => 1) 0 (1/2)); [|lra|intros; apply continuous_const].
    rewrite (RInt_const (V := R_CompleteNormedModule)). unfold scal. cbn. unfold mult. cbn. field. }
  rewrite E1, E2. lra.
Qed.
(** Reversed infinite limits are rejected instead of changing the sign. *)
Theorem C50_reversed_infinite_refuted : forall gk gl f a args ea er mx fuel,
  quad gk gl f PInf (Fin a) args ea er mx fuel = AssertionFailed /\
  quad gk gl f (Fin a) MInf args ea er mx fuel = AssertionFailed /\
  quad gk gl f PInf MInf args ea er mx fuel = AssertionFailed.
Proof. intros. repeat split. Qed.

(* ------------------------------------------------------------------ a run with one bisection *)
(** Simpson's rule extends the midpoint rule.  x^2 on [0,1] with eps_abs = 1/5: the first estimate 2/9 is too
    large, the two halves (1/36 and 5/72) are accepted, the result is 5/16. *)
Definition simpson : rule1 := [(1/3, -1); (4/3, 0); (1/3, 1)].
Definition square (x : R) (_ : nat) : R := x * x.
Lemma simpson_nonneg : forall w, In w (map fst simpson) -> 0 <= w.
Proof. cbn. intros w [<-|[<-|[<-|[]]]]; lra. Qed.
Lemma half_I_tilde_1 : I_tilde simpson square (0, 1) 0 = 2/9.
Proof.
  unfold I_tilde, gk_fx, to_interval, dot, square, simpson. rewrite interval_length_abs.
  cbn [map fst snd List.combine Rsum]. 
  rewrite (Rabs_right (1 - 0)) by lra.
  rewrite Rabs_left by lra. rewrite Rabs_left by lra. rewrite Rabs_right by lra. lra.
Qed.
Lemma half_I_tilde_2 : I_tilde simpson square (0, 1/2) 0 = 1/36.
Proof.
  unfold I_tilde, gk_fx, to_interval, dot, square, simpson. rewrite interval_length_abs.
  cbn [map fst snd List.combine Rsum].
  rewrite (Rabs_right (1 / 2 - 0)) by lra.
  rewrite Rabs_left by lra. rewrite Rabs_left by lra. rewrite Rabs_right by lra. lra.
Qed.
Lemma half_I_tilde_3 : I_tilde simpson square (1/2, 1) 0 = 5/72.
Proof.
  unfold I_tilde, gk_fx, to_interval, dot, square, simpson. rewrite interval_length_abs.
  cbn [map fst snd List.combine Rsum].
  rewrite (Rabs_right (1 - 1 / 2)) by lra.
  rewrite Rabs_left by lra. rewrite Rabs_left by lra. rewrite Rabs_right by lra. lra.
Qed.
Lemma first_error : error_estimate simpson midpoint square (0, 1) 0 = 2/9.
Proof.
  unfold error_estimate. rewrite half_I_tilde_1. rewrite (proj2 (Rltb_true _ _)) by (rewrite Rabs_right; lra).
  assert (E : gk_val simpson square (0, 1) 0 - gl_val simpson midpoint square (0, 1) 0 = 1/12).
  { unfold gk_val, gl_val, gk_fx, to_interval, dot, square, simpson, midpoint. rewrite interval_length_abs.
    cbn [map fst snd List.combine Rsum odd_positions]. rewrite (Rabs_right (1 - 0)) by lra. lra. }
  rewrite E, Rabs_right by lra. replace (200 * (1 / 12) / (2 / 9)) with 75 by lra.
  assert (1 <= sqrt 75) by (rewrite <- sqrt_1; apply sqrt_le_1; lra). rewrite Rmin_left by lra. lra.
Qed.
Example C45_example : nested simpson midpoint /\ exists v e,
  integrate_adaptive simpson midpoint 1 square [(0, 1)] (Some (1/5)) None Any (1/100) (Some 10%nat) 2 = Returned v e /\
  v 0%nat = 5/16.
Proof.
  split; [reflexivity|].
  assert (H1 : first_good 1 (gl_val simpson midpoint square) (error_estimate simpson midpoint square) (Some (1/5)) None Any (0, 1) = false).
  { unfold first_good. cbn [opt_list map app connect existsb all_components]. unfold all_components. cbn [seq forallb].
    rewrite first_error. rewrite (proj2 (Rltb_false _ _)) by lra. auto. }
  assert (Hs : split_all [(0, 1)] = [(0, 1/2); (1/2, 1)]).
  { unfold split_all, midpoint_of. cbn. replace (0.5 * (0 + 1)) with (1/2) by lra. auto. }
  unfold integrate_adaptive, adapt_main. cbn [forallb fst snd].
  rewrite (proj2 (Rleb_true 0 1)) by lra. cbn [andb filter]. rewrite H1. cbn [negb length].
  set (gv := sum_over (gl_val simpson midpoint square) []). set (ge := sum_over (error_estimate simpson midpoint square) []).
  cbn [adapt_loop]. match goal with |- context [split_all ?l] => change (split_all l) with (split_all [(0, 1)]) end. rewrite Hs. cbn [exceeds Nat.add Nat.ltb Nat.leb].
  cbn [existsb]. rewrite !interval_length_abs. rewrite !Rabs_right by lra.
  rewrite !(proj2 (Rltb_false _ _)) by lra. cbn [orb].
  set (L := later_good 1 _ _ _ _ _ gv ge [(0, 1/2); (1/2, 1)]).
  assert (Ht : Rsum (map interval_length [(0, 1/2); (1/2, 1)]) = 1).
  { cbn [map Rsum]. rewrite !interval_length_abs, !Rabs_right by lra. lra. }
  assert (Hge : ge 0%nat = 0) by reflexivity.
  assert (B2 := error_estimate_bounds simpson midpoint square (0, 1/2) 0 simpson_nonneg). rewrite half_I_tilde_2 in B2.
  assert (B3 := error_estimate_bounds simpson midpoint square (1/2, 1) 0 simpson_nonneg). rewrite half_I_tilde_3 in B3.
  assert (L2 : L (0, 1/2) = true).
  { unfold L, later_good. rewrite Ht. destruct (Req_EM_T 1 0); [lra|]. cbn [opt_list map app connect existsb].
    unfold all_components. cbn [seq forallb]. rewrite (proj2 (Rltb_true _ _)); auto.
    rewrite Hge, interval_length_abs, Rabs_right by lra. lra. }
  assert (L3 : L (1/2, 1) = true).
  { unfold L, later_good. rewrite Ht. destruct (Req_EM_T 1 0); [lra|]. cbn [opt_list map app connect existsb].
    unfold all_components. cbn [seq forallb]. rewrite (proj2 (Rltb_true _ _)); auto.
    rewrite Hge, interval_length_abs, Rabs_right by lra. lra. }
  cbn [filter]. rewrite L2, L3. cbn [negb Nat.eqb length]. eexists. eexists. split; [reflexivity|].
  unfold gv, sum_over. cbn [map Rsum]. rewrite !gl_val_integrate by reflexivity.
  unfold c1_integrate, midpoint, to_interval, square. rewrite !interval_length_abs, !Rabs_right by lra. cbn [map fst snd Rsum]. lra.
Qed.
Example C49_example : error_estimate simpson midpoint square (0, 1) 0 = 2/9 /\ I_tilde simpson square (0, 1) 0 = 2/9.
Proof. split; [apply first_error|apply half_I_tilde_1]. Qed.
Example C47_example : (forall w, In w (map fst simpson) -> 0 <= w) /\ 0 <= 1 /\ (1 <= 50)%nat.
Proof. split; [apply simpson_nonneg|]. split; [lra|lia]. Qed.

Print Assumptions C45_tiling.
Print Assumptions C46_any.
Print Assumptions C50_whole_line_partial.
