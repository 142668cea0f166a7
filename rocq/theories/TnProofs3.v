(** Walkington's schemes: weights normalised by their sum. *)
From Coq Require Import Reals List Arith Lia Lra Permutation Bool.
From Verif Require Import Spec RsumLemmas CombSpec CombModel CombProofs CombProofs2 Moments SymExact
  IntegralSpec IntegralProofs PyBase MiscModel CnModel SchemeTools CnTools TnBase TnModel TnTools TnProofs TnProofs2.
Import ListNotations.
Open Scope R_scope.

Lemma np_repeat_map {W W'} (f : W -> W') ws cs : np_repeat (map f ws) cs = map f (np_repeat ws cs).
Proof. revert cs. induction ws; intros [|c cs]; cbn; auto. rewrite map_app, map_rep, IHws. auto. Qed.

Lemma combine_fst_sum {P} (ws : list R) (ps : list P) : length ps = length ws ->
  Rsum (map fst (List.combine ws ps)) = Rsum ws.
Proof. revert ps. induction ws; intros [|p ps] H; try discriminate; cbn; auto. rewrite IHws by (cbn in H; lia). auto. Qed.

(** The weights of an exact rule sum to 1. *)
Lemma exact_weights n d q : exact (n + 1) d (simplexI n) q -> Rsum (map fst q) = 1.
Proof.
  intros [Hd H]. specialize (H (repeat 0%nat (n + 1)) (repeat_length _ _)).
  rewrite tdeg_zeros in H. specialize (H (Nat.le_0_l _)). unfold simplexI in H.
  rewrite simplex_mean_mono in H by (rewrite repeat_length; lia).
  unfold simplex_moment in H. rewrite tdeg_zeros, Nat.add_0_r in H.
  transitivity (apply q (mono (repeat 0%nat (n + 1)))).
  - unfold apply. apply Rsum_map_ext. intros [w p] Hp. cbn [fst snd].
    rewrite mono_zeros. ring.
  - rewrite H. assert (P0 : prodfactR (repeat 0%nat (n + 1)) = 1).
    { unfold prodfactR. rewrite map_rep. change (INR (fact 0)) with 1. clear. induction (n + 1)%nat; cbn; auto. rewrite IHn0. ring. }
    rewrite P0. field. apply INR_fact_neq_0.
Qed.

Lemma normalize_exact n c d data : c <> 0 ->
  exact (n + 1) d (simplexI n) (mk_rule (untangle data)) ->
  simplex_scheme n d (normalize n (map (fun g => (c * fst g, snd g)) data) d).
Proof.
  intros Hc He. assert (W := exact_weights _ _ _ He).
  assert (L := untangle_pairs data (fst (untangle data)) (snd (untangle data)) (surjective_pairing _)). destruct L as [L _].
  unfold mk_rule in *. rewrite combine_fst_sum in W by auto.
  unfold normalize. unfold untangle in *. rewrite !map_map. cbn [fst snd] in *.
  rewrite <- (map_map fst (Rmult c)), np_repeat_map, <- (map_map snd (@length point)).
  set (ws := np_repeat (map fst data) _) in *. change (map (fun x => snd x) data) with (map snd data).
  replace (Rsum (map (Rmult c) ws)) with c by (change (map (Rmult c) ws) with (map (fun x => c * (fun y => y) x) ws); rewrite Rsum_map_scal, map_id, W; ring).
  rewrite rdiv_ok by auto. cbn [bind].
  eexists. split; [reflexivity|]. cbn [s_dim s_degree s_rule]. split; auto. split; auto.
  rewrite map_map. rewrite (map_ext _ (fun w => w)) by (intros; field; auto). rewrite map_id. exact He.
Qed.

Lemma perm_data (data data' : list (R * list point)) :
  Forall2 (fun g g' => fst g = fst g' /\ Permutation (snd g) (snd g')) data data' ->
  Permutation (mk_rule (untangle data)) (mk_rule (untangle data')).
Proof.
  rewrite !mk_rule_untangle. induction 1 as [|g g' l l' [E P] _ IH]; auto.
  cbn [flat_map]. apply Permutation_app; auto. rewrite E. apply Permutation_map. auto.
Qed.

Lemma xi1_rows d a : _xi1 d a = map (xrow (d + 1) (1 - INR d * a) a) (seq 0 (d + 1)).
Proof. reflexivity. Qed.
Lemma xi1_perm w d a : 1 - INR d * a <> a ->
  Permutation (combine (sg_elems (d + 1) (w, [(1 - INR d * a, 1%nat); (a, d)]))) (_xi1 d a).
Proof. intros H. rewrite xi1_rows. apply sg_rows_1_n. auto. Qed.
Lemma c_perm w d : Permutation (combine (sg_elems (d + 1) (w, [(1 / (INR d + 1), (d + 1)%nat)]))) (_c d).
Proof. rewrite combine_all. unfold _c. rewrite plus_INR. auto. Qed.

(** Normalised rule of groups gs, with arranged points. *)
Lemma normalize_groups n c d gs data : c <> 0 ->
  exact (n + 1) d (simplexI n) (srule (n + 1) gs) ->
  Forall2 (fun g g' => c * fst g = fst g' /\ Permutation (combine (sg_elems (n + 1) g)) (snd g')) gs data ->
  simplex_scheme n d (normalize n data d).
Proof.
  intros Hc He HF.
  replace data with (map (fun g => (c * fst g, snd g)) (map (fun g => (fst g / c, snd g)) data)).
  - apply normalize_exact; auto. eapply exact_perm; [|exact He].
    rewrite <- mk_rule_sdata. apply perm_data. clear He. induction HF as [|g g' gs data [E P] _ IH]; constructor; auto.
    cbn [fst snd]. split; auto. rewrite <- E. field. auto.
  - rewrite map_map. cbn [fst snd]. rewrite (map_ext _ (fun x => x)), map_id; auto.
    intros [w p]. cbn [fst snd]. f_equal. field. auto.
Qed.

Lemma invfact_nz d : 1 / INR (fact d) <> 0.
Proof. assert (H := INR_fact_lt_0 d). assert (0 < 1 / INR (fact d)) by (apply Rdiv_lt_0_compat; lra). lra. Qed.

Theorem walkington_1_exact d : simplex_scheme d 1 (walkington_1 d).
Proof.
  unfold walkington_1. apply (normalize_groups _ (1 / INR (fact d)) _ [(1, [(1 / (INR d + 1), (d + 1)%nat)])]).
  - apply invfact_nz.
  - tn_split d; field; tside.
  - constructor; [|constructor]. cbn [fst snd]. split; [ring|apply c_perm].
Qed.

Theorem walkington_2_exact d : (1 <= d)%nat -> simplex_scheme d 1 (walkington_2 d).
Proof.
  intros H. unfold walkington_2. n_bound d. apply bind_sqrt; [lra|]. intros q Pq Qq.
  assert (0 < q) by nra. apply bind_div; [lra|]. intros a Ea.
  apply (normalize_groups _ (1 / INR (fact d)) _ [(1 / (INR d + 1), [(1 - INR d * a, 1%nat); (a, d)])]).
  - apply invfact_nz.
  - clear B. tn_split d; field; tside.
  - constructor; [|constructor]. cbn [fst snd]. split.
    + replace (d + 1)%nat with (S d) by lia. rewrite factS. field. repeat split; try lra; apply INR_fact_neq_0.
    + apply xi1_perm. subst a. intros E. apply (Rmult_eq_compat_r q) in E.
      replace ((1 - INR d * (1 / q)) * q) with (q - INR d) in E by (field; lra).
      replace (1 / q * q) with 1 in E by (field; lra). assert (q * (q - 1) = 0) by lra. assert (1 < q) by nra. nra.
Qed.

Lemma fact_add d k : fact (d + k) = fact (k + d).
Proof. f_equal. lia. Qed.
Lemma xi1_ne d a : (1 <= d)%nat -> a <> 1 / (INR d + 1) -> 1 - INR d * a <> a.
Proof. intros H Ha E. n_bound d. apply Ha. apply (Rmult_eq_reg_r (INR d + 1)); [|lra]. field_simplify; lra. Qed.

Theorem walkington_3_exact d : (1 <= d)%nat -> simplex_scheme d 3 (walkington_3 d).
Proof.
  intros H. unfold walkington_3. n_bound d.
  apply (normalize_groups _ (1 / INR (fact d)) _
    [(- (INR d + 1) ^ 3 / (4 * ((INR d + 1) * (INR d + 2))), [(1 / (INR d + 1), (d + 1)%nat)]);
     ((INR d + 3) ^ 3 / (4 * ((INR d + 1) * (INR d + 2) * (INR d + 3))), [(1 - INR d * (1 / (INR d + 3)), 1%nat); (1 / (INR d + 3), d)])]).
  - apply invfact_nz.
  - clear B. tn_split d; field; tside.
  - assert (F := INR_fact_neq_0 d). constructor; [|constructor; [|constructor]]; cbn [fst snd]; split.
    + rewrite !rise_fact. cbn [rise]. inr_lits. field. tside.
    + apply c_perm.
    + rewrite !rise_fact. cbn [rise]. inr_lits. field. tside.
    + apply xi1_perm, xi1_ne; auto. intros E. apply (Rmult_eq_compat_r ((INR d + 1) * (INR d + 3))) in E.
      field_simplify in E; lra.
Qed.

(* ------------------------------------------------ explicit orbits for d = 2, 3 *)
Ltac find_split x l k :=
  match l with
  | x :: ?r => match type of l with list ?T => k (@nil T) r end
  | ?y :: ?r => find_split x r ltac:(fun a b => k (y :: a) b)
  end.
Ltac perm_explicit :=
  repeat match goal with |- Permutation (?x :: ?l) ?l' =>
    find_split x l' ltac:(fun a b => change l' with (a ++ x :: b); apply Permutation_cons_app; cbn [app]) end;
  apply perm_nil.
Lemma rows_2_1 {A} (b a z : A) : Permutation (combine [([b], 2%nat); ([a], 1%nat); ([z], 0%nat)]) [[b; b; a]; [b; a; b]; [a; b; b]].
Proof. cbv. perm_explicit. Qed.
Lemma rows_2_2 {A} (b a z : A) : Permutation (combine [([b], 2%nat); ([a], 2%nat); ([z], 0%nat)])
  [[b; b; a; a]; [b; a; b; a]; [b; a; a; b]; [a; b; a; b]; [a; a; b; b]; [a; b; b; a]].
Proof. cbv. perm_explicit. Qed.
Lemma rows_3_1 {A} (b a z : A) : Permutation (combine [([b], 3%nat); ([a], 1%nat); ([z], 0%nat)])
  [[b; b; b; a]; [b; b; a; b]; [b; a; b; b]; [a; b; b; b]].
Proof. cbv. perm_explicit. Qed.
Lemma rows_1_1_2 {A} (b c a z : A) : Permutation (combine [([b], 1%nat); ([c], 1%nat); ([a], 2%nat); ([z], 0%nat)])
  [[b; c; a; a]; [b; a; c; a]; [b; a; a; c]; [a; b; a; c]; [a; a; b; c]; [a; b; c; a];
   [c; b; a; a]; [c; a; b; a]; [c; a; a; b]; [a; c; a; b]; [a; a; c; b]; [a; c; b; a]].
Proof. cbv. perm_explicit. Qed.

Ltac sg_num_concrete :=
  repeat match goal with |- context [gnum (sg_group ?M ?g)] =>
    let c := constr:(gnum (sg_group M g)) in
    let k := eval vm_compute in (Z.of_nat (length (combine (map (fun it : nat * nat => ([fst it], snd it))
       (map (fun it : R * nat => (0%nat, snd it)) (snd g)) ++ [([0%nat], (M - list_sum (map snd (snd g)))%nat)])))) in
    replace c with (IZR k) by (unfold gnum; cbn; lra) end.
Ltac tn_concrete :=
  apply simplex_exact_groups;
  [ let g := fresh in let Hg := fresh in intros g Hg; cbn [In] in Hg;
    decompose [or] Hg; subst; try contradiction; cbn [map fst snd list_sum fold_right]; lia
  | let g := fresh in let Hg := fresh in intros g Hg; cbn [In] in Hg;
    decompose [or] Hg; subst; try contradiction; cbn [map fst snd Rsum]; inr_lits; lra
  | let l := fresh in let Hl := fresh in let Hs := fresh in let Hn := fresh in
    intros l Hl Hs Hn; cbv in Hl;
    decompose [or] Hl; clear Hl; subst; try contradiction;
    cbn [list_sum fold_right Nat.add] in Hs; try discriminate Hs; clear Hs;
    cbn [length Nat.add] in Hn; try (exfalso; lia); clear Hn;
    cbn [map fst snd Rsum]; sg_num_concrete;
    cbn [svals scounts map fst snd pavg length seq decR nth Rsum rise Nat.add];
    unfold prodfactR; cbn [map fact Nat.add Nat.mul Rprod]; inr_lits; field ].

Lemma xi11_2_perm w a : Permutation (combine (sg_elems 3 (w, [((1 - (INR 2 - 1) * a) / 2, 2%nat); (a, 1%nat)])))
  [[(1 - (INR 2 - 1) * a) / 2; (1 - (INR 2 - 1) * a) / 2; a]; [(1 - (INR 2 - 1) * a) / 2; a; (1 - (INR 2 - 1) * a) / 2]; [a; (1 - (INR 2 - 1) * a) / 2; (1 - (INR 2 - 1) * a) / 2]].
Proof. apply (rows_2_1 ((1 - (INR 2 - 1) * a) / 2) a 0). Qed.

Theorem walkington_5_exact d : d = 2%nat \/ d = 3%nat -> simplex_scheme d 5 (walkington_5 d).
Proof.
  intros [-> | ->]; unfold walkington_5, _xi11, guard; cbn [Nat.ltb Nat.leb Nat.eqb].
  - apply bind_Some.
    apply (normalize_groups _ (1 / INR (fact 2)) _
      [((INR 2 + 1) ^ 5 / (32 * 60), [(1 / (INR 2 + 1), 3%nat)]);
       (- (INR 2 + 3) ^ 5 / (16 * 360), [(1 - INR 2 * (1 / (INR 2 + 3)), 1%nat); (1 / (INR 2 + 3), 2%nat)]);
       ((INR 2 + 5) ^ 5 / (16 * 2520), [(1 - INR 2 * (1 / (INR 2 + 5)), 1%nat); (1 / (INR 2 + 5), 2%nat)]);
       ((INR 2 + 5) ^ 5 / (16 * 2520), [((1 - (INR 2 - 1) * (1 / (INR 2 + 5))) / 2, 2%nat); (1 / (INR 2 + 5), 1%nat)])]).
    + apply invfact_nz.
    + tn_concrete.
    + repeat (apply Forall2_cons; [cbn [fst snd]; split|]); [| | | | | | | |constructor].
      all: try (rewrite !rise_fact; cbn [rise fact Nat.add Nat.mul]; inr_lits; field).
      * apply (c_perm _ 2).
      * apply (xi1_perm _ 2). inr_lits. lra.
      * apply (xi1_perm _ 2). inr_lits. lra.
      * apply rows_2_1.
  - apply bind_Some.
    apply (normalize_groups _ (1 / INR (fact 3)) _
      [((INR 3 + 1) ^ 5 / (32 * 120), [(1 / (INR 3 + 1), 4%nat)]);
       (- (INR 3 + 3) ^ 5 / (16 * 840), [(1 - INR 3 * (1 / (INR 3 + 3)), 1%nat); (1 / (INR 3 + 3), 3%nat)]);
       ((INR 3 + 5) ^ 5 / (16 * 6720), [(1 - INR 3 * (1 / (INR 3 + 5)), 1%nat); (1 / (INR 3 + 5), 3%nat)]);
       ((INR 3 + 5) ^ 5 / (16 * 6720), [((1 - (INR 3 - 1) * (1 / (INR 3 + 5))) / 2, 2%nat); (1 / (INR 3 + 5), 2%nat)])]).
    + apply invfact_nz.
    + tn_concrete.
    + repeat (apply Forall2_cons; [cbn [fst snd]; split|]); [| | | | | | | |constructor].
      all: try (rewrite !rise_fact; cbn [rise fact Nat.add Nat.mul]; inr_lits; field).
      * apply (c_perm _ 3).
      * apply (xi1_perm _ 3). inr_lits. lra.
      * apply (xi1_perm _ 3). inr_lits. lra.
      * apply rows_2_2.
Qed.

Theorem walkington_7_exact : simplex_scheme 3 7 (walkington_7 3).
Proof.
  unfold walkington_7, _xi11, _xi21, _xi111, guard. cbn [Nat.ltb Nat.leb Nat.eqb]. apply bind_Some. apply bind_Some. apply bind_Some.
  apply (normalize_groups _ (1 / INR (fact 3)) _
      [(- (1/384) * ((INR 3 + 1) ^ 7 / 840), [(1 / (INR 3 + 1), 4%nat)]);
       (1/128 * ((INR 3 + 3) ^ 7 / 6720), [(1 - INR 3 * (1 / (INR 3 + 3)), 1%nat); (1 / (INR 3 + 3), 3%nat)]);
       (- (1/64) * ((INR 3 + 5) ^ 7 / 60480), [(1 - INR 3 * (1 / (INR 3 + 5)), 1%nat); (1 / (INR 3 + 5), 3%nat)]);
       (- (1/64) * ((INR 3 + 5) ^ 7 / 60480), [((1 - (INR 3 - 1) * (1 / (INR 3 + 5))) / 2, 2%nat); (1 / (INR 3 + 5), 2%nat)]);
       (1/64 * ((INR 3 + 7) ^ 7 / 604800), [(1 - INR 3 * (1 / (INR 3 + 7)), 1%nat); (1 / (INR 3 + 7), 3%nat)]);
       (1/64 * ((INR 3 + 7) ^ 7 / 604800), [((1 - (INR 3 - 2) * (1 / (INR 3 + 7))) / 3, 1%nat);
           (1 - (INR 3 - 1) * (1 / (INR 3 + 7)) - (1 - (INR 3 - 2) * (1 / (INR 3 + 7))) / 3, 1%nat); (1 / (INR 3 + 7), 2%nat)]);
       (1/64 * ((INR 3 + 7) ^ 7 / 604800), [((1 - (INR 3 - 2) * (1 / (INR 3 + 7))) / 3, 3%nat); (1 / (INR 3 + 7), 1%nat)])]).
  + apply invfact_nz.
  + tn_concrete.
  + repeat (apply Forall2_cons; [cbn [fst snd]; split|]); [| | | | | | | | | | | | | |constructor].
    all: try (rewrite !rise_fact; cbn [rise fact Nat.add Nat.mul]; inr_lits; field).
    * apply (c_perm _ 3).
    * apply (xi1_perm _ 3). inr_lits. lra.
    * apply (xi1_perm _ 3). inr_lits. lra.
    * apply rows_2_2.
    * apply (xi1_perm _ 3). inr_lits. lra.
    * apply rows_1_1_2.
    * apply rows_3_1.
Qed.
