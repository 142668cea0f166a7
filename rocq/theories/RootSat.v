(** The contracts of RootSpec.v can be met: root finders and linear solvers as specified exist. *)
From Coq Require Import Reals List Arith Lia Lra ClassicalEpsilon Sorted.
From Verif Require Import Spec TnModel RootSpec.
Import ListNotations.
Open Scope R_scope.

Lemma root_finder_exists : exists roots, root_finder roots.
Proof.
  exists (fun c => match excluded_middle_informative (exists l, all_real_roots c l) with
                   | left H => proj1_sig (constructive_indefinite_description _ H) | right _ => [] end).
  intros c l Hl. destruct (excluded_middle_informative _) as [H|H].
  - destruct (constructive_indefinite_description _ H). auto.
  - exfalso. apply H. eauto.
Qed.

Lemma linear_solver_exists : exists solve, linear_solver solve.
Proof.
  exists (fun A b => match excluded_middle_informative (exists w, solves A w b) with
                     | left H => proj1_sig (constructive_indefinite_description _ H) | right _ => [] end).
  intros A b w Hw Hu. destruct (excluded_middle_informative _) as [H|H].
  - destruct (constructive_indefinite_description _ H). auto.
  - exfalso. apply H. eauto.
Qed.

Lemma poly_val_app c a x : poly_val (c ++ [a]) x = poly_val c x * x + a.
Proof. unfold poly_val. rewrite fold_left_app. reflexivity. Qed.
Lemma poly_divide r c : exists c', length c' = pred (length c) /\ forall x, poly_val c x = poly_val c r + (x - r) * poly_val c' x.
Proof.
  induction c as [|a c IH] using rev_ind.
  - exists []. split; [reflexivity|]. intros. unfold poly_val. simpl. ring.
  - destruct IH as [c' [L E]]. destruct c as [|a0 c0] eqn:Ec.
    + exists []. split; [reflexivity|]. intros. unfold poly_val. simpl. ring.
    + rewrite <- Ec in *. exists (c' ++ [poly_val c r]). split.
      * rewrite !app_length, L, Ec. simpl. lia.
      * intros x. rewrite !poly_val_app, (E x). ring.
Qed.
Lemma finite_roots m : forall c, length c = m -> (forall x, poly_val c x = 0) \/ exists l, forall x, poly_val c x = 0 -> In x l.
Proof.
  induction m as [|m IH]; intros c Hc.
  - destruct c; [|discriminate]. left. reflexivity.
  - destruct (classic (exists r, poly_val c r = 0)) as [[r Hr]|Hn].
    + destruct (poly_divide r c) as [c' [L E]]. destruct (IH c') as [Z|[l Hl]]; [lia| |].
      * left. intros x. rewrite E, Hr, Z. ring.
      * right. exists (r :: l). intros x Hx. rewrite E, Hr, Rplus_0_l in Hx. apply Rmult_integral in Hx.
        destruct Hx; [left; lra|right; auto].
    + right. exists []. intros x Hx. apply Hn. eauto.
Qed.
Lemma min_in_list (P : R -> Prop) l : (exists x, P x) -> (forall x, P x -> In x l) -> exists m, P m /\ forall y, P y -> m <= y.
Proof.
  revert P. induction l as [|a l IH]; intros P [x Hx] H; [destruct (H x Hx)|].
  destruct (classic (exists y, P y /\ y <> a)) as [[y [Hy Ha]]|Hn].
  - destruct (IH (fun y => P y /\ y <> a)) as [m [[Hm Hma] Hle]].
    + exists y. auto.
    + intros z [Hz Hza]. destruct (H z Hz) as [<-|]; [contradiction|auto].
    + destruct (classic (P a)) as [Pa|Pa].
      * destruct (Rle_dec m a).
        -- exists m. split; auto. intros z Hz. destruct (Req_dec z a) as [->|]; auto.
        -- exists a. split; auto. intros z Hz. destruct (Req_dec z a) as [->|Hza]; [lra|]. assert (m <= z) by auto. lra.
      * exists m. split; auto. intros z Hz. apply Hle. split; auto. intros ->. contradiction.
  - exists x. split; auto. intros y Hy. destruct (Req_dec x a) as [E|E].
    + destruct (Req_dec y a) as [E'|E']; [lra|]. exfalso. apply Hn. eauto.
    + exfalso. apply Hn. eauto.
Qed.
Lemma min_root_finder_exists : exists min_root, min_root_finder min_root.
Proof.
  exists (fun c => match excluded_middle_informative (exists m, poly_val c m = 0 /\ forall y, poly_val c y = 0 -> m <= y) with
                   | left H => proj1_sig (constructive_indefinite_description _ H) | right _ => 0 end).
  intros c x Hx [y Hy]. destruct (excluded_middle_informative _) as [H|H].
  - destruct (constructive_indefinite_description _ H). auto.
  - exfalso. apply H. destruct (finite_roots _ c eq_refl) as [Z|[l Hl]]; [rewrite Z in Hy; contradiction|].
    apply (min_in_list (fun m => poly_val c m = 0) l); eauto.
Qed.
