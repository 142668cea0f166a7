(** Sphere orbits lie on the sphere; fully symmetric sets in every dimension. *)
From Coq Require Import Reals List Arith Lia Lra Permutation Bool.
From Verif Require Import Spec RsumLemmas CombModel CombProofs CombProofs2 PyBase SymmModel OrbitModel OrbitSpec SchemeTools OrbitProofs.
Import ListNotations.
Open Scope R_scope.

(** Values given in full must lie on the sphere themselves; in the other forms the code computes the last one. *)
Definition u3_consistent (k : u3key) (col : list R) : Prop :=
  match k, col with
  | (U_pq02 | U_rs0), [a; b] => a ^ 2 + b ^ 2 = 1
  | U_llm2, [L; m] => 2 * L ^ 2 + m ^ 2 = 1
  | (U_rsw2 | U_rst | U_rst_weird), [r; s; w] => r ^ 2 + s ^ 2 + w ^ 2 = 1
  | U_plain, [x; y; w] => x ^ 2 + y ^ 2 + w ^ 2 = 1
  | _, _ => True
  end.

Ltac sphere_pts :=
  intros p Hp; simpl in Hp;
  repeat (destruct Hp as [<-|Hp]; [split; [reflexivity|unfold norm2; simpl; nra]|]); try destruct Hp.

Lemma sphere2 a b k : a ^ 2 + b ^ 2 = 1 -> k = U_pq0 \/ k = U_pq02 \/ k = U_rs0 -> on_sphere 3 (u3_orbit k [a; b]).
Proof. intros H [->|[->| ->]]; sphere_pts. Qed.
Lemma sphere_llm a b k : 2 * a ^ 2 + b ^ 2 = 1 -> k = U_llm \/ k = U_llm2 -> on_sphere 3 (u3_orbit k [a; b]).
Proof. intros H [->| ->]; sphere_pts. Qed.
Lemma sphere3 a b c k : a ^ 2 + b ^ 2 + c ^ 2 = 1 ->
  k = U_rsw \/ k = U_rsw2 \/ k = U_rst \/ k = U_rst_weird \/ k = U_plain -> on_sphere 3 (u3_orbit k [a; b; c]).
Proof. intros H [->|[->|[->|[->| ->]]]]; sphere_pts. Qed.

Lemma sq_inv n : 0 < n -> (1 / sqrt n) ^ 2 = 1 / n.
Proof.
  intros H. assert (E := sqrt_sqrt n (Rlt_le _ _ H)). assert (P := sqrt_lt_R0 n H).
  apply (Rmult_eq_reg_r n); [|lra]. rewrite <- E at 2. field. lra.
Qed.

Theorem u3_sphere k col c : u3_params k col = Some c -> u3_consistent k col -> on_sphere 3 (u3_orbit k c).
Proof.
  assert (A2 := sq_inv 2 ltac:(lra)). assert (A3 := sq_inv 3 ltac:(lra)).
  intros H Hc. destruct k.
  - intros p Hp. simpl in Hp. repeat (destruct Hp as [<-|Hp]; [split; [reflexivity|unfold norm2; simpl; ring]|]). destruct Hp.
  - unfold u3_orbit in *. revert A2. generalize (1 / sqrt 2). intros a A2. sphere_pts.
  - unfold u3_orbit in *. revert A3. generalize (1 / sqrt 3). intros a A3. sphere_pts.
  - destruct col as [|v col]; [discriminate|]. simpl in H. injection H as <-. apply sphere_llm; [|auto].
    assert (E := sin2_cos2 (v * PI)). unfold Rsqr in E.
    replace (sin (v * PI) / sqrt 2) with (sin (v * PI) * (1 / sqrt 2)) by (unfold Rdiv; ring).
    rewrite Rpow_mult_distr, A2. simpl. lra.
  - destruct col as [|a [|b [|]]]; try discriminate; simpl in H.
    + apply bind_inv in H. destruct H as [b [Hb H]]. injection H as <-. apply rsqrt_inv in Hb.
      apply sphere_llm; [|auto]. simpl. lra.
    + injection H as <-. apply sphere_llm; auto.
  - destruct col as [|v col]; [discriminate|]. simpl in H. injection H as <-. apply sphere2; [|auto].
    assert (E := sin2_cos2 (v * PI)). unfold Rsqr in E. simpl. lra.
  - destruct col as [|a [|b [|]]]; try discriminate; simpl in H.
    + apply bind_inv in H. destruct H as [b [Hb H]]. injection H as <-. apply rsqrt_inv in Hb.
      apply sphere2; [|auto]. simpl. lra.
    + injection H as <-. apply sphere2; auto.
  - destruct col as [|a [|b [|]]]; try discriminate; simpl in H.
    + apply bind_inv in H. destruct H as [b [Hb H]]. injection H as <-. apply rsqrt_inv in Hb.
      apply sphere2; [|auto]. simpl. lra.
    + injection H as <-. apply sphere2; auto.
  - destruct col as [|p [|t [|]]]; try discriminate; simpl in H. injection H as <-. apply sphere3; [|auto].
    assert (E1 := sin2_cos2 (p * PI)). assert (E2 := sin2_cos2 (t * PI)). unfold Rsqr in *.
    generalize dependent (sin (p * PI)); generalize dependent (cos (p * PI));
    generalize dependent (sin (t * PI)); generalize dependent (cos (t * PI)). intros ct st E2 cp sp E1.
    replace ((st * cp) ^ 2 + (st * sp) ^ 2 + ct ^ 2) with (st * st * (sp * sp + cp * cp) + ct * ct) by ring.
    rewrite E1. lra.
  - destruct col as [|a [|b [|w [|]]]]; try discriminate; simpl in H.
    + apply bind_inv in H. destruct H as [w [Hb H]]. injection H as <-. apply rsqrt_inv in Hb.
      apply sphere3; [|auto]. simpl. lra.
    + injection H as <-. apply sphere3; auto.
  - destruct col as [|a [|b [|w [|]]]]; try discriminate; simpl in H.
    + apply bind_inv in H. destruct H as [w [Hb H]]. injection H as <-. apply rsqrt_inv in Hb.
      apply sphere3; [|auto]. simpl. lra.
    + injection H as <-. apply sphere3; auto.
  - destruct col as [|a [|b [|w [|]]]]; try discriminate; simpl in H.
    + apply bind_inv in H. destruct H as [w [Hb H]]. injection H as <-. apply rsqrt_inv in Hb.
      apply sphere3; [|auto]. simpl. lra.
    + injection H as <-. apply sphere3; auto 6.
  - destruct col as [|a [|b [|w [|]]]]; try discriminate; simpl in H.
    injection H as <-. apply sphere3; auto 6.
Qed.

(* ------------------------------------------------- arbitrary dimension: multiset invariance of combine *)
Lemma product_map {A B} (f : A -> B) ls : product (map (map f) ls) = map (map f) (product ls).
Proof.
  induction ls as [|l ls IH]; simpl; auto. rewrite IH. induction l as [|v l IHl]; simpl; auto.
  rewrite map_app, <- IHl. f_equal. rewrite !map_map. auto.
Qed.
Lemma combine_map {A B} (f : A -> B) elems :
  combine (map (fun e => (map f (fst e), snd e)) elems) = map (map f) (combine elems).
Proof.
  unfold combine. rewrite !map_map. cbn [fst snd].
  rewrite !flat_map_concat_map, concat_map, map_map. f_equal. apply map_ext. intros t.
  rewrite <- product_map, map_map. f_equal. apply map_ext. intros i.
  change (@nil B) with (map f []). rewrite <- (map_map fst (map f)). rewrite map_nth. auto.
Qed.

(** Distinct labels for all values. *)
Fixpoint label_elems {A} (i : nat) (elems : list (list A * nat)) : list (list (nat * nat) * nat) :=
  match elems with
  | [] => []
  | e :: es => (map (pair i) (seq 0 (length (fst e))), snd e) :: label_elems (S i) es
  end.
Lemma label_elems_spec {A} (d : A) (elems0 : list (list A * nat)) elems i :
  (forall j, nth j elems ([], 0%nat) = nth (i + j) elems0 ([], 0%nat)) ->
  map (fun e => (map (fun lj => nth (snd lj) (fst (nth (fst lj) elems0 ([], 0%nat))) d) (fst e), snd e))
      (label_elems i elems) = elems.
Proof.
  revert i; induction elems as [|[vs c] elems IH]; intros i H; simpl; auto. f_equal.
  - f_equal. rewrite map_map. cbn [fst snd]. assert (E := H 0%nat). simpl in E. rewrite Nat.add_0_r in E.
    rewrite <- E. cbn [fst]. clear. induction vs; simpl; auto. rewrite <- seq_shift, map_map. simpl. f_equal. auto.
  - apply IH. intros j. assert (E := H (S j)). simpl in E. rewrite E. f_equal. lia.
Qed.
Lemma NoDup_label_elems {A} (elems : list (list A * nat)) i :
  NoDup (concat (map fst (label_elems i elems))) /\
  forall x, In x (concat (map fst (label_elems i elems))) -> (i <= fst x)%nat.
Proof.
  revert i; induction elems as [|[vs c] elems IH]; intros i; simpl; [split; [constructor|tauto]|].
  destruct (IH (S i)) as [H1 H2]. split.
  - apply NoDup_app_intro; auto.
    + apply NoDup_map_inj; [|apply seq_NoDup]. congruence.
    + intros x Hx Hx'. apply H2 in Hx'. apply in_map_iff in Hx. destruct Hx as [j [<- _]]. simpl in Hx'. lia.
  - intros x Hx. apply in_app_or in Hx. destruct Hx as [Hx|Hx].
    + apply in_map_iff in Hx. destruct Hx as [j [<- _]]. simpl. lia.
    + apply H2 in Hx. lia.
Qed.

Definition gpermute {A} (d : A) (sigma : list nat) (p : list A) : list A := map (fun i => nth i p d) sigma.

Lemma gpermute_perm {A} (d : A) sigma p : Permutation sigma (seq 0 (length p)) -> Permutation (gpermute d sigma p) p.
Proof.
  intros H. unfold gpermute. rewrite H. clear H.
  match goal with |- Permutation ?a ?b => replace a with b; [reflexivity|] end.
  induction p; simpl; auto. rewrite <- seq_shift, map_map. simpl. f_equal. auto.
Qed.

Lemma arrangement_perm {A} (elems : list (list A * nat)) p p' :
  Permutation p p' -> arrangement elems p -> arrangement elems p'.
Proof.
  intros Hp [t [Hc Hf]].
  assert (G : exists t', Permutation t t' /\ Forall2 (fun v ti => In v (nth ti (map fst elems) [])) p' t').
  { clear Hc. revert t Hf. induction Hp; intros t Hf.
    - exists t. split; auto.
    - inversion Hf as [|? b ? t0 Hb Ht]; subst. destruct (IHHp _ Ht) as [t' [P F]]. exists (b :: t'). split; auto.
    - inversion Hf as [|? b ? t0 Hb Ht]; subst. inversion Ht as [|? b' ? t1 Hb' Ht']; subst.
      exists (b' :: b :: t1). split; [constructor|]. constructor; [auto|constructor; auto].
    - destruct (IHHp1 _ Hf) as [t1 [P1 F1]]. destruct (IHHp2 _ F1) as [t2 [P2 F2]].
      exists t2. split; auto. etransitivity; eauto. }
  destruct G as [t' [P F]]. exists t'. split; auto. intros i. rewrite <- Hc.
  symmetry. apply (proj1 (Permutation_count_occ Nat.eq_dec t t')). auto.
Qed.

Lemma nth_gpermute_inj {A} (d : A) sigma n p q : is_perm n sigma -> length p = n -> length q = n ->
  gpermute d sigma p = gpermute d sigma q -> p = q.
Proof.
  intros Hs Hp Hq E. apply (nth_ext _ _ d d); [lia|]. intros i Hi.
  assert (Hin : In i sigma). { eapply Permutation_in; [apply Permutation_sym; exact Hs|]. apply in_seq. lia. }
  unfold gpermute in E. clear -E Hin. induction sigma as [|s sigma IH]; [destruct Hin|].
  simpl in E. injection E as E1 E2. destruct Hin as [->|Hin]; auto.
Qed.

Theorem combine_perm_invariant_gen {A} (d : A) (elems : list (list A * nat)) n sigma :
  list_sum (map snd elems) = n -> is_perm n sigma ->
  Permutation (map (gpermute d sigma) (combine elems)) (combine elems).
Proof.
  intros Hn Hs.
  set (val := fun lj : nat * nat => nth (snd lj) (fst (nth (fst lj) elems ([], 0%nat))) d).
  set (L := label_elems 0 elems).
  assert (EL : map (fun e => (map val (fst e), snd e)) L = elems) by (apply label_elems_spec; auto).
  assert (HL : NoDup (combine L)) by (apply NoDup_combine, NoDup_label_elems).
  assert (HnL : list_sum (map snd L) = n).
  { rewrite <- Hn, <- EL at 1. rewrite map_map. reflexivity. }
  (* the labelled set is permuted *)
  pose (dl := (0, 0)%nat).
  assert (P : Permutation (map (gpermute dl sigma) (combine L)) (combine L)).
  { assert (Hinj : forall x y, In x (combine L) -> In y (combine L) ->
                   gpermute dl sigma x = gpermute dl sigma y -> x = y).
    { intros x y Hx Hy. apply combine_row_length in Hx, Hy. apply (nth_gpermute_inj dl sigma n); auto; lia. }
    assert (Hsub : incl (map (gpermute dl sigma) (combine L)) (combine L)).
    { intros x Hx. apply in_map_iff in Hx. destruct Hx as [y [<- Hy]].
      assert (Hy' := combine_row_length _ _ Hy).
      apply in_combine. apply in_combine in Hy. eapply arrangement_perm; [|exact Hy].
      apply Permutation_sym, gpermute_perm. rewrite Hy', HnL. auto. }
    assert (Hnd : NoDup (map (gpermute dl sigma) (combine L))) by (apply NoDup_map_inj; auto).
    apply NoDup_Permutation; auto. intros x. split; [apply Hsub|].
    apply (NoDup_length_incl Hnd); auto. rewrite map_length. auto. }
  rewrite <- EL, combine_map.
  assert (Q := Permutation_map (map val) P). rewrite map_map in Q. rewrite map_map.
  rewrite (map_ext_in _ (fun x => map val (gpermute dl sigma x))); auto.
  intros p Hp. unfold gpermute. rewrite map_map. apply map_ext_in. intros i Hi.
  apply combine_row_length in Hp.
  assert (Hlt : (i < n)%nat). { eapply Permutation_in in Hi; [|exact Hs]. apply in_seq in Hi. lia. }
  rewrite (nth_indep _ d (val dl)) by (rewrite map_length; lia). rewrite map_nth. auto.
Qed.

Theorem combine_perm_symmetric elems n : list_sum (map snd elems) = n -> perm_symmetric n (combine elems).
Proof. intros H sigma Hs. apply (combine_perm_invariant_gen 0 elems n sigma); auto. Qed.

(* sign changes *)
Lemma product_perm {A} (ls ls' : list (list A)) : Forall2 (@Permutation A) ls ls' -> Permutation (product ls) (product ls').
Proof.
  induction 1 as [|l l' ls ls' H _ IH]; simpl; auto.
  etransitivity.
  - apply Permutation_flat_map. exact H.
  - clear H. induction l' as [|v l' IHl]; simpl; auto. apply Permutation_app; auto. apply Permutation_map. auto.
Qed.

Lemma flip_product ss ls : length ss = length ls ->
  map (flip ss) (product ls) = product (map (fun sl : bool * list R => if fst sl then map Ropp (snd sl) else snd sl) (List.combine ss ls)).
Proof.
  revert ls; induction ss as [|s ss IH]; intros [|l ls] H; simpl in H; try lia; [reflexivity|].
  cbn [List.combine map fst snd product]. rewrite <- IH by lia.
  assert (G : forall P : list (list R), map (flip (s :: ss)) (flat_map (fun v => map (cons v) P) l) =
     flat_map (fun v => map (cons v) (map (flip ss) P)) (if s then map Ropp l else l)).
  { intros P. rewrite !flat_map_concat_map, concat_map, map_map.
    destruct s; [rewrite map_map|]; f_equal; apply map_ext; intros v; rewrite !map_map; reflexivity. }
  apply G.
Qed.

Theorem combine_sign_symmetric elems n : list_sum (map snd elems) = n ->
  Forall (fun e => Permutation (map Ropp (fst e)) (fst e)) elems ->
  sign_symmetric n (combine elems).
Proof.
  intros Hn Hf ss Hss. unfold invariant, combine. rewrite !flat_map_concat_map, concat_map, map_map.
  rewrite <- !flat_map_concat_map.
  assert (G : forall ts, (forall t, In t ts -> In t (partitions (map snd elems))) ->
    Permutation (flat_map (fun x => map (flip ss) (product (map (fun ti => nth ti (map fst elems) []) x))) ts)
                (flat_map (fun t => product (map (fun ti => nth ti (map fst elems) []) t)) ts)).
  { induction ts as [|t ts IH]; intros Ht; simpl; auto. apply Permutation_app; [|apply IH; intros; apply Ht; right; auto].
    assert (Hl : length t = n).
    { rewrite <- Hn. apply labeling_length. apply in_partitions. apply Ht. left; auto. }
    rewrite flip_product by (rewrite map_length; lia). apply product_perm.
    assert (Hss2 : length ss = length t) by lia. clear -Hf Hss2. revert t Hss2. induction ss as [|s ss IH]; intros [|a t] H; simpl in *; try lia; constructor.
    - destruct s; cbn [fst snd]; auto.
      destruct (Nat.lt_ge_cases a (length elems)) as [Ha|Ha].
      + rewrite Forall_forall in Hf.
        replace (nth a (map fst elems) []) with (fst (nth a elems ([], 0%nat)))
          by (symmetry; exact (map_nth fst elems ([], 0%nat) a)).
        apply Hf. exact (nth_In elems ([], 0%nat) Ha).
      + rewrite nth_overflow by (rewrite map_length; lia). auto.
    - apply IH. lia. }
  apply G. auto.
Qed.

Theorem combine_cube_symmetric elems n : list_sum (map snd elems) = n ->
  Forall (fun e => Permutation (map Ropp (fst e)) (fst e)) elems -> cube_symmetric n (combine elems).
Proof.
  intros Hn Hf sigma ss Hs Hl.
  apply (invariant_comp (flip ss) (permute sigma)).
  - apply (combine_sign_symmetric elems n Hn Hf ss Hl).
  - apply (combine_perm_symmetric elems n Hn sigma Hs).
Qed.

Lemma pm_neg_perm r : Permutation (map Ropp [r; - r]) [r; - r].
Proof. simpl. rewrite Ropp_involutive. constructor. Qed.
Lemma zero_neg_perm : Permutation (map Ropp [0]) [0].
Proof. simpl. rewrite Ropp_0. auto. Qed.

Theorem Rfsd_cube_symmetric n tuples rows : Rfsd n tuples = Some rows -> cube_symmetric n rows.
Proof.
  intros H. apply Rfsd_inv in H. destruct H as [Hle ->].
  apply combine_cube_symmetric.
  - rewrite map_app, list_sum_app, map_map. cbn [map snd].
    change (map (fun x : R * nat => snd x) tuples) with (map snd tuples). unfold list_sum in *. simpl. lia.
  - apply Forall_app. split.
    + apply Forall_forall. intros e He. apply in_map_iff in He. destruct He as [it [<- _]]. apply pm_neg_perm.
    + constructor; [apply zero_neg_perm|constructor].
Qed.

Theorem Ka_cube_symmetric n c : cube_symmetric n (orbit Ka n c).
Proof.
  change (orbit Ka n c) with (orbit Ka n [nth 0 c 0]). rewrite orbit_Ka. apply combine_cube_symmetric.
  - simpl. lia.
  - constructor; [apply pm_neg_perm|constructor].
Qed.
Theorem Ka0_cube_symmetric n c : (1 <= n)%nat -> cube_symmetric n (orbit Ka0 n c).
Proof.
  intros H. change (orbit Ka0 n c) with (orbit Ka0 n [nth 0 c 0]). rewrite orbit_Ka0 by auto. apply combine_cube_symmetric.
  - simpl. lia.
  - constructor; [apply pm_neg_perm|]. constructor; [apply zero_neg_perm|constructor].
Qed.
Theorem K0_cube_symmetric n c : cube_symmetric n (orbit K0 n c).
Proof.
  rewrite orbit_K0. apply combine_cube_symmetric.
  - simpl. lia.
  - constructor; [apply zero_neg_perm|constructor].
Qed.
