(** C72, C73: quadpy.tools.coefficients_from_gauss and the modes of quadpy.tools.scheme_from_rc. *)
From Coq Require Import Reals List Arith ZArith Bool Lia Lra Sorted Permutation ClassicalEpsilon.
From Verif Require Import Spec Spec1 RsumLemmas AdaptModel PyBase UnModel C1Model Interp C1Proofs GwSpec GwModel GwProofs GwExist GwRc KronrodProofs KronrodMain RcSpec RcModel RcProofs RcExist RcModes.
Import ListNotations.
Set Bullet Behavior "Strict Subproofs".
Open Scope R_scope.

(* ------------------------------------------------------------------ C72 *)
(** For every rule with distinct points and positive weights: as many alphas as points, betas positive (beta_0 = nan), int_1 is the
    sum of the weights, and the polynomials of the recurrence are orthogonal for the rule. *)
Theorem C72_orthogonal : forall sytrd points weights n, tridiagonal_reducer sytrd -> (1 <= n)%nat -> length points = n -> length weights = n -> NoDup points ->
  List.Forall (fun w => 0 < w) weights ->
  exists alpha b int_1, coefficients_from_gauss sytrd points weights = Some (alpha, None :: map Some b, int_1) /\ length alpha = n /\ length b = (n - 1)%nat /\
    int_1 = Rsum weights /\ List.Forall (fun v => 0 < v) b /\
    forall k m, (m < k <= n)%nat -> apply1 (List.combine weights points) (fun x => x ^ m * monic (fun i => nth i alpha 0) (fun i => nth (i - 1) b 0) k x) = 0.
Proof.
  intros sytrd points weights [|n] HS Hn Lp Lw ND HW; [lia|]. destruct (coefficients_run sytrd points weights n HS Lp Lw ND HW) as [alpha [b [int_1 [ER [La [Lb [Ei [Hb HO]]]]]]]].
  exists alpha, b, int_1. repeat split; auto; [lia|]. intros k m Hk. rewrite <- lmonic_apply1. apply (HO k m Hk).
Qed.
(** For every functional with recurrence coefficients a_k, b_k > 0 and its n-point Gauss rule, listed in any order: exactly
    a_0, ..., a_{n-1}; nan, b_1, ..., b_{n-1}; mu_0 come back. *)
Theorem C72_recovers : forall sytrd a b mu points weights n, tridiagonal_reducer sytrd -> (forall i, (0 < i < n)%nat -> 0 < b i) -> orthogonal a b mu n ->
  (1 <= n)%nat -> length points = n -> length weights = n -> NoDup points -> List.Forall (fun w => 0 < w) weights -> exact1_mu (2 * n - 1) mu (List.combine weights points) ->
  coefficients_from_gauss sytrd points weights = Some (map a (seq 0 n), None :: map (fun i => Some (b i)) (seq 1 (n - 1)), mu 0%nat).
Proof.
  intros sytrd a b mu points weights [|n] HS Hb HO Hn Lp Lw ND HW HX; [lia|]. destruct (coefficients_run sytrd points weights n HS Lp Lw ND HW) as [alpha [b' [int_1 [ER [La [Lb [Ei [Hb' HO']]]]]]]]. rewrite ER.
  assert (M0 : mu 0%nat = int_1).
  { rewrite <- (HX 0%nat) by lia. rewrite Ei. unfold apply1. rewrite <- (combine_rule_weights weights points) at 2 by lia. apply Rsum_map_ext. intros [w x] _. cbn. ring. }
  assert (P0 : 0 < mu 0%nat). { rewrite M0, Ei. destruct weights as [|w ws]; [discriminate Lw|]. inversion HW as [|? ? Hw HW']; subst. cbn [Rsum map].
    assert (0 <= Rsum ws) by (apply Rsum_nonneg; intros y Hy; rewrite List.Forall_forall in HW'; specialize (HW' y Hy); cbn in HW'; lra). cbn. lra. }
  assert (U := recurrence_unique a b _ _ mu (moment (List.combine weights points)) (S n) ltac:(intros j Hj; symmetry; apply (HX j Hj)) Hb P0 HO HO'). f_equal. f_equal; [f_equal|symmetry; auto].
  - apply (nth_ext _ _ 0 0); [rewrite map_length, seq_length; auto|]. intros i Hi. rewrite nth_seq by lia. symmetry. apply (U i). lia.
  - f_equal. replace (S n - 1)%nat with n by lia. rewrite <- (map_map b Some). f_equal. apply (nth_ext _ _ 0 0); [rewrite map_length, seq_length; auto|]. intros i Hi. rewrite <- seq_shift, map_map.
    rewrite (nth_seq (fun i => b (S i))) by lia. destruct (U (S i) ltac:(lia)) as [_ E]. rewrite E by lia. replace (S i - 1)%nat with i by lia. auto.
Qed.
(** coefficients_from_gauss undoes scheme_from_rc ... *)
Theorem C72_left_inverse : forall sytrd eigh alpha beta int_1 n, tridiagonal_reducer sytrd -> eigen_solver eigh -> (1 <= n)%nat -> length alpha = n -> length beta = n ->
  List.Forall (fun b => 0 < b) (tl beta) -> 0 < int_1 ->
  exists x w, scheme_from_rc eigh alpha beta int_1 = Some (x, w) /\ coefficients_from_gauss sytrd x w = Some (alpha, None :: map Some (tl beta), int_1).
Proof.
  intros sytrd eigh alpha beta int_1 [|n] HS HE Hn La Lb Hb Hi; [lia|]. destruct (scheme_from_rc_run eigh alpha beta int_1 n HE La Lb Hb) as [x [V [ER [HD [Hne Hsq]]]]].
  exists x, (map (fun v => int_1 * v ^ 2) (nth 0 V [])). split; auto. set (w := map (fun v => int_1 * v ^ 2) (nth 0 V [])) in *.
  assert (Lt : length (tl beta) = n) by (destruct beta; cbn in *; lia).
  destruct (decomposition_points alpha (map sqrt (tl beta)) x V n La ltac:(rewrite map_length; auto) HD Hne) as [ND [Lx [So _]]].
  assert (Lw : length w = S n) by (unfold w; rewrite map_length; destruct HD as [_ [LV [HF _]]]; rewrite La in *; rewrite List.Forall_forall in HF; apply HF, nth_In; lia).
  assert (HW := scheme_from_rc_positive eigh alpha beta int_1 n x w HE La Lb Hb Hi ER).
  rewrite (C72_recovers sytrd (fun i => nth i alpha 0) (fun i => nth i beta 0) (moment (List.combine w x)) x w (S n)); auto.
  - assert (E1 : map (fun i => nth i alpha 0) (seq 0 (S n)) = alpha) by (rewrite <- La; clear; induction alpha as [|u l IH]; auto; cbn [length seq map nth]; f_equal; rewrite <- seq_shift, map_map; exact IH).
    assert (E2 : map (fun i => Some (nth i beta 0)) (seq 1 (S n - 1)) = map Some (tl beta)).
    { replace (S n - 1)%nat with n by lia. rewrite <- Lt, <- seq_shift, map_map. destruct beta as [|b0 bt]; auto. cbn [tl nth]. clear. induction bt as [|u l IH]; auto. cbn [length seq map nth]. f_equal. rewrite <- seq_shift, map_map. exact IH. }
    rewrite E1, E2. f_equal. f_equal. apply (gw_sum alpha (map sqrt (tl beta)) x V n La HD).
  - intros i Hi'. destruct beta as [|b0 bt]; [discriminate Lb|]. destruct i as [|i]; [lia|]. cbn [nth tl length] in *. rewrite List.Forall_forall in Hb. apply Hb, nth_In. lia.
  - intros k m Hk. assert (O := gw_orthogonal alpha (map sqrt (tl beta)) x V n La HD Hne int_1 k m Hk). etransitivity; [|exact O]. apply lmonic_ext; auto. intros i Hi'. unfold brec. rewrite Hsq by lia. f_equal. lia.
  - intros k Hk. reflexivity.
Qed.
(** ... and scheme_from_rc rebuilds the rule (whatever is in beta_0), with its points in ascending order. *)
Theorem C72_right_inverse : forall sytrd eigh points weights n, tridiagonal_reducer sytrd -> eigen_solver eigh -> (1 <= n)%nat -> length points = n -> length weights = n -> NoDup points ->
  List.Forall (fun w => 0 < w) weights ->
  exists alpha b int_1, coefficients_from_gauss sytrd points weights = Some (alpha, None :: map Some b, int_1) /\
    forall c, exists x w, scheme_from_rc eigh alpha (c :: b) int_1 = Some (x, w) /\ Sorted Rle x /\ Permutation (List.combine w x) (List.combine weights points) /\
      (Sorted Rle points -> x = points /\ w = weights).
Proof.
  intros sytrd eigh points weights [|n] HS HE Hn Lp Lw ND HW; [lia|]. destruct (rebuild eigh sytrd points weights n HE HS Lp Lw ND HW) as [alpha [b [int_1 [ER H]]]]. exists alpha, b, int_1. split; auto.
  intros c. destruct (H c) as [x [w [EX [Lx [Lw' [So P]]]]]]. exists x, w. split; auto. split; auto. split; auto. intros Sp.
  assert (Px := Permutation_map snd P). rewrite !combine_rule_points in Px by lia. assert (E : x = points) by (apply sorted_perm_eq; auto). split; auto. subst x.
  assert (SW : forall (l : list R) (m : list R), map (fun p => (snd p, fst p)) (List.combine l m) = List.combine m l) by (induction l as [|u l IH]; intros [|y m]; auto; cbn; f_equal; auto).
  assert (P' := Permutation_map (fun p => (snd p, fst p)) P). rewrite !SW in P'.
  assert (E : List.combine points w = List.combine points weights).
  { assert (MF : forall l, length l = S n -> map fst (List.combine points l) = points) by (intros l Hl; apply combine_rule_weights; lia). apply sorted_pairs_eq; auto; rewrite MF; auto. }
  rewrite <- (combine_rule_points points w), <- (combine_rule_points points weights), E by lia. auto.
Qed.
(** No coefficients for lists of different lengths, a negative weight or an empty rule. *)
Theorem C72_errors : forall sytrd, tridiagonal_reducer sytrd ->
  (forall points weights, length points <> length weights -> coefficients_from_gauss sytrd points weights = None) /\
  (forall points weights, List.Exists (fun w => w < 0) weights -> coefficients_from_gauss sytrd points weights = None) /\
  coefficients_from_gauss sytrd [] [] = None.
Proof.
  intros sytrd HS. split; [|split].
  - intros points weights N. unfold coefficients_from_gauss. destruct (Nat.eqb_spec (length points) (length weights)); [contradiction|auto].
  - intros points weights H. unfold coefficients_from_gauss, guard. destruct (length points =? length weights)%nat; auto.
    assert (E : opt_list rsqrt weights = None). { induction H as [w l Hw|w l Hl IH]; cbn [opt_list]; [unfold rsqrt; destruct (Rle_dec 0 w); [lra|auto]|]. rewrite IH. destruct (rsqrt w); auto. }
    rewrite E. auto.
  - unfold coefficients_from_gauss. cbn [length Nat.eqb guard opt_list bind].
    assert (L1 : length (gauss_matrix [] []) = 1%nat) by auto.
    destruct (HS 1%nat (gauss_matrix [] [])) as [d [e [E [Ld [Le _]]]]]; auto.
    + apply (gauss_matrix_square [] [] 0); auto.
    + apply (gauss_matrix_symmetric [] [] 0); auto.
    + exists [1], []. split; auto. split; auto. exists (fun _ _ => 1). rewrite L1. unfold delta, sumn, tri. cbn [seq map Rsum Nat.sub].
      repeat split; try intros i; try intros j; intros; repeat match goal with H : (_ < 1)%nat |- _ => apply Nat.lt_1_r in H; subst end; cbn; ring.
    + rewrite E. cbn [bind]. rewrite L1 in Le. destruct e; [auto|discriminate Le].
Qed.
(** The contract can be met. *)
Example C72_contract : exists sytrd, tridiagonal_reducer sytrd.
Proof.
  exists (fun A => match excluded_middle_informative (exists de, tridiagonalises A (fst de) (snd de)) with left H => Some (proj1_sig (constructive_indefinite_description _ H)) | right _ => None end).
  intros m A Hm Sq Sy [d [e H]]. destruct (excluded_middle_informative _) as [H'|N]; [|exfalso; apply N; exists (d, e); auto].
  destruct (constructive_indefinite_description _ H') as [[d' e'] H2]. cbn [proj1_sig]. exists d', e'. auto.
Qed.
(** The two-point Gauss-Legendre rule, its points in descending order. *)
Example C72_example : forall sytrd, tridiagonal_reducer sytrd ->
  coefficients_from_gauss sytrd [sqrt (1 / 3); - sqrt (1 / 3)] [1; 1] = Some ([0; 0], [None; Some (1 / 3)], 2).
Proof.
  intros sytrd HS. assert (S1 : sqrt (1 / 3) * sqrt (1 / 3) = 1 / 3) by (apply sqrt_sqrt; lra). assert (P1 : 0 < sqrt (1 / 3)) by (apply sqrt_lt_R0; lra).
  rewrite (C72_recovers sytrd (fun _ => 0) (fun _ => 1 / 3) (fun k => match k with 0%nat => 2 | 2%nat => 2 / 3 | _ => 0 end) [sqrt (1 / 3); - sqrt (1 / 3)] [1; 1] 2); auto.
  - intros; lra.
  - intros k m Hk. assert (K : (k = 1 /\ m = 0 \/ k = 2 /\ m = 0 \/ k = 2 /\ m = 1)%nat) by lia. destruct K as [[-> ->]|[[-> ->]|[-> ->]]]; cbn; lra.
  - repeat constructor; cbn; intros H; lra.
  - repeat constructor; lra.
  - intros k Hk. assert (K : (k = 0 \/ k = 1 \/ k = 2 \/ k = 3)%nat) by lia. unfold apply1. destruct K as [->|[->|[->| ->]]]; cbn; nra.
Qed.

(* ------------------------------------------------------------------ C73 *)
(** For every recurrence (as many betas as alphas, positive after the first) the three modes return the same points and weights. *)
Theorem C73_modes_agree : forall eigh eigenvects tridiag_eigen is_float alpha beta int_1 n, eigen_solver eigh -> eigenvects_solver eigenvects -> row_eigen_solver tridiag_eigen ->
  (1 <= n)%nat -> length alpha = n -> length beta = n -> List.Forall (fun b => 0 < b) (tl beta) ->
  exists x w, forall mode, In mode [sympy_mode; numpy_mode; mpmath_mode] ->
    exists beta', scheme_from_rc_py eigh eigenvects tridiag_eigen is_float mode alpha beta int_1 = Some (x, w, beta') /\ (mode = sympy_mode \/ beta' = beta).
Proof.
  intros eigh ev te fl alpha beta int_1 [|n] H1 H2 H3 Hn La Lb Hb; [lia|]. destruct (modes_agree eigh ev te alpha beta int_1 n H1 H2 H3 La Lb Hb) as [x [w [E1 [E2 E3]]]]. exists x, w.
  intros mode [<-|[<-|[<-|[]]]]; unfold scheme_from_rc_py; cbn [bind].
  - exists (int_1 :: tl beta). auto.
  - rewrite E1. exists beta. auto.
  - rewrite E3. exists beta. auto.
Qed.
(** Without a mode: numpy for arrays of floats, an exception otherwise; any other mode raises. *)
Theorem C73_default_mode : forall eigh eigenvects tridiag_eigen alpha beta int_1,
  scheme_from_rc_py eigh eigenvects tridiag_eigen true no_mode alpha beta int_1 = scheme_from_rc_py eigh eigenvects tridiag_eigen true numpy_mode alpha beta int_1 /\
  scheme_from_rc_py eigh eigenvects tridiag_eigen false no_mode alpha beta int_1 = None /\
  forall fl, scheme_from_rc_py eigh eigenvects tridiag_eigen fl other_mode alpha beta int_1 = None.
Proof. intros. split; [|split]; reflexivity. Qed.
(** The points and weights do not depend on the placeholder beta[0], in any mode. *)
Theorem C73_placeholder : forall eigh eigenvects tridiag_eigen is_float mode alpha b0 b0' b int_1,
  match scheme_from_rc_py eigh eigenvects tridiag_eigen is_float mode alpha (b0 :: b) int_1, scheme_from_rc_py eigh eigenvects tridiag_eigen is_float mode alpha (b0' :: b) int_1 with
  | Some (x, w, _), Some (x', w', _) => x = x' /\ w = w'
  | None, None => True
  | _, _ => False
  end.
Proof.
  intros. unfold scheme_from_rc_py. destruct mode; cbn [bind]; auto; [destruct is_float; cbn [bind]; auto| | |].
  - unfold scheme_from_rc. cbn [tl]. destruct (opt_list rsqrt b); cbn [bind]; auto. destruct (eigh alpha l); cbn [bind]. auto.
  - unfold scheme_from_rc_sympy. cbn [assign0 bind tl length]. destruct (opt_list rsqrt b) as [sb|]; cbn [bind]; auto. unfold guard. destruct (length alpha =? S (length b))%nat; auto. destruct (opt_list (sympy_item int_1) _); cbn [bind]; auto.
  - unfold scheme_from_rc. cbn [tl]. destruct (opt_list rsqrt b); cbn [bind]; auto. destruct (eigh alpha l); cbn [bind]. auto.
  - unfold scheme_from_rc_mpmath.
    assert (E : opt_list (fun i => if (i + 1 <? length (b0 :: b))%nat then rsqrt (nth (i + 1) (b0 :: b) 0) else None) (seq 0 (length alpha - 1)) =
                opt_list (fun i => if (i + 1 <? length (b0' :: b))%nat then rsqrt (nth (i + 1) (b0' :: b) 0) else None) (seq 0 (length alpha - 1))).
    { generalize (seq 0 (length alpha - 1)). intros l. induction l as [|i l IH]; auto. cbn [opt_list]. rewrite IH. replace (i + 1)%nat with (S i) by lia. reflexivity. }
    rewrite E. clear E. match goal with |- context [opt_list ?f ?l] => generalize (opt_list f l) end. intros [sb|]; cbn [bind]; auto. unfold guard. destruct (1 <=? length alpha)%nat; cbn [bind]; auto. destruct (tridiag_eigen alpha (sb ++ [0]) (1 :: repeat 0 (length alpha - 1))); cbn [bind]; auto.
Qed.
(** Finding: "scheme_from_rc leaves its arguments alone" is false in sympy mode: beta[0] is overwritten with int_1. *)
Theorem C73_arguments_kept_refuted : forall eigh eigenvects tridiag_eigen is_float alpha b0 b int_1 n, eigenvects_solver eigenvects -> eigen_solver eigh -> row_eigen_solver tridiag_eigen ->
  length alpha = S n -> length b = n -> List.Forall (fun v => 0 < v) b -> b0 <> int_1 ->
  exists x w beta', scheme_from_rc_py eigh eigenvects tridiag_eigen is_float sympy_mode alpha (b0 :: b) int_1 = Some (x, w, beta') /\ beta' <> b0 :: b.
Proof.
  intros eigh ev te fl alpha b0 b int_1 n H2 H1 H3 La Lb Hb N. destruct (modes_agree eigh ev te alpha (b0 :: b) int_1 n H1 H2 H3 La ltac:(cbn; lia) Hb) as [x [w [_ [E _]]]].
  exists x, w, (int_1 :: b). split; [exact E|]. intros F. injection F as F. auto.
Qed.
(** The contracts can be met. *)
Example C73_contracts : (exists eigenvects, eigenvects_solver eigenvects) /\ (exists tridiag_eigen, row_eigen_solver tridiag_eigen) /\ exists eigh, eigen_solver eigh.
Proof.
  split; [|split].
  - exists (fun A => match excluded_middle_informative (exists items, eigen_list A items) with left H => proj1_sig (constructive_indefinite_description _ H) | right _ => [] end).
    intros m A _ _ [items H]. destruct (excluded_middle_informative _) as [H'|N]; [|exfalso; eauto]. destruct (constructive_indefinite_description _ H') as [it H2]. exact H2.
  - exists (fun d e z => match excluded_middle_informative (exists xV, eigen_decomposition d (removelast e) (fst xV) (snd xV)) with
      | left H => let xV := proj1_sig (constructive_indefinite_description _ H) in (fst xV, map (fun k => sumn (length d) (fun j => nth j z 0 * entry (snd xV) j k)) (seq 0 (length d))) | right _ => ([], []) end).
    intros d e z _ _ _ [x [V H]]. destruct (excluded_middle_informative _) as [H'|N]; [|exfalso; apply N; exists (x, V); auto]. destruct (constructive_indefinite_description _ H') as [[x' V'] H2]. cbn [proj1_sig fst snd] in *. exists V'. auto.
  - exists (fun d e => match excluded_middle_informative (exists xV, eigen_decomposition d e (fst xV) (snd xV)) with left H => proj1_sig (constructive_indefinite_description _ H) | right _ => ([], []) end).
    intros d e _ [x [V H]]. destruct (excluded_middle_informative _) as [H'|N]; [|exfalso; apply N; exists (x, V); auto]. destruct (constructive_indefinite_description _ H') as [[x' V'] H2]. exact H2.
Qed.
(** The recurrence of the Legendre polynomials with three terms. *)
Example C73_example : forall eigh eigenvects tridiag_eigen, eigen_solver eigh -> eigenvects_solver eigenvects -> row_eigen_solver tridiag_eigen ->
  exists x w b1 b2, scheme_from_rc_py eigh eigenvects tridiag_eigen true numpy_mode [0; 0; 0] [5; 1 / 3; 4 / 15] 2 = Some (x, w, b1) /\
    scheme_from_rc_py eigh eigenvects tridiag_eigen true sympy_mode [0; 0; 0] [5; 1 / 3; 4 / 15] 2 = Some (x, w, b2).
Proof.
  intros eigh ev te H1 H2 H3. destruct (C73_modes_agree eigh ev te true [0; 0; 0] [5; 1 / 3; 4 / 15] 2 3 H1 H2 H3) as [x [w H]]; auto; [cbn [tl]; repeat constructor; lra|].
  destruct (H numpy_mode) as [b1 [E1 _]]; [cbn; auto|]. destruct (H sympy_mode) as [b2 [E2 _]]; [cbn; auto|]. exists x, w, b1, b2. auto.
Qed.
Print Assumptions C72_orthogonal. Print Assumptions C72_recovers. Print Assumptions C72_left_inverse. Print Assumptions C72_right_inverse. Print Assumptions C72_errors.
Print Assumptions C73_modes_agree. Print Assumptions C73_default_mode. Print Assumptions C73_placeholder. Print Assumptions C73_arguments_kept_refuted.
