(** The inverse of coefficients_from_gauss, and the three modes of scheme_from_rc. *)
From Coq Require Import Reals List Arith ZArith Bool Lia Lra Sorted Permutation.
From Verif Require Import Spec Spec1 RsumLemmas AdaptModel PyBase UnModel C1Model Interp C1Proofs GwSpec GwModel GwProofs GwExist GwRc KronrodProofs KronrodMain RcSpec RcModel RcProofs RcExist.
Import ListNotations.
Set Bullet Behavior "Strict Subproofs".
Open Scope R_scope.

(* ------------------------------------------------------------------ sorted lists *)
Lemma sorted_head x l : Sorted Rle (x :: l) -> forall y, In y l -> x <= y.
Proof. intros H y Hy. apply Sorted_StronglySorted in H; [|intros a b c; lra]. inversion H as [|? ? _ F]; subst. rewrite List.Forall_forall in F. auto. Qed.
Lemma sorted_perm_eq l m : Sorted Rle l -> Sorted Rle m -> Permutation l m -> l = m.
Proof.
  revert m. induction l as [|x l IH]; intros m Hl Hm P; [apply Permutation_nil in P; auto|].
  destruct m as [|y m]; [apply Permutation_sym, Permutation_nil in P; discriminate|].
  assert (E : x = y).
  { assert (Ix : In x (y :: m)) by (apply (Permutation_in _ P); left; auto). assert (Iy : In y (x :: l)) by (apply (Permutation_in _ (Permutation_sym P)); left; auto).
    destruct Ix as [->|Ix]; auto. destruct Iy as [->|Iy]; auto. pose proof (sorted_head _ _ Hm x Ix). pose proof (sorted_head _ _ Hl y Iy). lra. }
  subst y. f_equal. apply IH; [inversion Hl; auto|inversion Hm; auto|]. apply Permutation_cons_inv in P. auto.
Qed.
(** Lists of pairs with distinct sorted keys. *)
Lemma sorted_pairs_eq (l m : list (R * R)) : Sorted Rle (map fst l) -> Sorted Rle (map fst m) -> NoDup (map fst l) -> Permutation l m -> l = m.
Proof.
  revert m. induction l as [|[x w] l IH]; intros m Hl Hm ND P; [apply Permutation_nil in P; auto|].
  destruct m as [|[y u] m]; [apply Permutation_sym, Permutation_nil in P; discriminate|]. cbn [map fst] in *.
  assert (Pf := Permutation_map fst P). cbn [map fst] in Pf. assert (E := sorted_perm_eq _ _ Hl Hm Pf). injection E as -> E.
  assert (I : In (y, u) ((y, w) :: l)) by (apply (Permutation_in _ (Permutation_sym P)); left; auto). inversion ND as [|? ? NI ND']; subst.
  destruct I as [I|I]; [injection I as ->|exfalso; apply NI; apply (in_map fst _ _ I)].
  f_equal. apply IH; [inversion Hl; auto|inversion Hm; auto|auto|]. apply Permutation_cons_inv in P. auto.
Qed.
Lemma insert_perm p l : Permutation (insert_by_x p l) (p :: l).
Proof. induction l as [|q l IH]; cbn [insert_by_x]; auto. destruct (Rle_dec (fst p) (fst q)); auto. rewrite IH. apply perm_swap. Qed.
Lemma sort_perm l : Permutation (sort_by_x l) l.
Proof. induction l as [|p l IH]; cbn; auto. rewrite insert_perm. fold (sort_by_x l). rewrite IH. auto. Qed.
Lemma insert_sorted p l : Sorted Rle (map fst l) -> Sorted Rle (map fst (insert_by_x p l)).
Proof.
  induction l as [|q l IH]; intros H; cbn [insert_by_x map]; [constructor; constructor|]. destruct (Rle_dec (fst p) (fst q)) as [L|L].
  - cbn [map]. constructor; auto.
  - cbn [map] in *. inversion H as [|? ? H1 H2]; subst. constructor; [apply IH; auto|]. destruct l as [|r l]; cbn [insert_by_x map]; [constructor; lra|].
    cbn [map] in H2. inversion H2; subst. destruct (Rle_dec (fst p) (fst r)); cbn [map]; constructor; lra.
Qed.
Lemma sort_sorted l : Sorted Rle (map fst (sort_by_x l)).
Proof. induction l as [|p l IH]; cbn; [constructor|]. apply insert_sorted. exact IH. Qed.

(* ------------------------------------------------------------------ equal rules *)
(** [f] vanishes at all nodes but z. *)
Lemma apply1_single g w z f : NoDup (map snd g) -> In (w, z) g -> (forall y, In y (map snd g) -> y <> z -> f y = 0) -> apply1 g f = w * f z.
Proof.
  intros ND Hin Hf. apply in_split in Hin. destruct Hin as [g1 [g2 ->]]. rewrite map_app in ND. cbn [map snd] in ND. apply NoDup_remove_2 in ND. rewrite <- map_app in ND.
  assert (Z : forall h, (forall wx, In wx h -> In wx (g1 ++ g2)) -> apply1 h f = 0).
  { intros h Hh. unfold apply1. apply Rsum_map_zero. intros [w0 x0] Hx. cbn [fst snd]. specialize (Hh _ Hx). rewrite Hf; [ring| |].
    - apply in_app_or in Hh. rewrite map_app. apply in_or_app. destruct Hh as [Hh|Hh]; [left|right; cbn; right]; apply (in_map snd _ _ Hh).
    - intros ->. apply ND. apply (in_map snd _ _ Hh). }
  assert (EA : apply1 (g1 ++ (w, z) :: g2) f = apply1 g1 f + (w * f z + apply1 g2 f)) by (unfold apply1; rewrite map_app, Rsum_app; reflexivity).
  rewrite EA, (Z g1), (Z g2) by (intros; apply in_or_app; auto). ring.
Qed.
Lemma nodup_map_snd (g : rule1) : NoDup (map snd g) -> NoDup g.
Proof. apply NoDup_map_inv. Qed.
Theorem gauss_rule_unique mu n g gl : (1 <= n)%nat -> length g = n -> length gl = n -> NoDup (map snd g) -> List.Forall (fun wx => fst wx <> 0) g ->
  exact1_mu (2 * n - 1) mu g -> exact1_mu (2 * n - 1) mu gl -> Permutation gl g.
Proof.
  intros Hn Lg Ll ND HW H1 H2. assert (HI := gauss_unique mu n g gl Hn Lg Ll ND HW H1 H2).
  assert (PN : Permutation (map snd g) (map snd gl)) by (apply NoDup_Permutation_bis; auto; rewrite !map_length; lia).
  assert (NDl : NoDup (map snd gl)) by (apply (Permutation_NoDup PN); auto).
  apply Permutation_sym. apply NoDup_Permutation_bis; [apply nodup_map_snd; auto|lia|]. intros [w z] Hin.
  assert (Hz : In z (map snd gl)) by (apply HI; apply (in_map snd _ _ Hin)). apply in_map_iff in Hz. destruct Hz as [[w' z'] [E Hin']]. cbn [snd] in E. subst z'.
  assert (Hs := Hin). apply in_split in Hs. destruct Hs as [g1 [g2 Eg]]. set (others := map snd (g1 ++ g2)).
  assert (NI : ~ In z others) by (rewrite Eg, map_app in ND; cbn [map snd] in ND; apply NoDup_remove_2 in ND; rewrite <- map_app in ND; exact ND).
  assert (Lo : length others = (n - 1)%nat) by (unfold others; rewrite map_length, app_length; rewrite Eg, app_length in Lg; cbn [length] in Lg; lia).
  assert (V : forall y, In y (map snd g) -> y <> z -> rprod others y = 0).
  { intros y Hy N. apply rprod_root. rewrite Eg, map_app in Hy. cbn [map snd] in Hy. unfold others. rewrite map_app. apply in_app_or in Hy. apply in_or_app. destruct Hy as [Hy|[Hy|Hy]]; auto. exfalso. auto. }
  assert (E := mu_pol (2 * n - 1) mu g gl (rprod others) H1 H2 ltac:(apply (pol_le (S (length others))); [lia|apply pol_rprod])).
  rewrite (apply1_single g w z) in E by auto. rewrite (apply1_single gl w' z) in E by (auto; intros y Hy; apply V; apply (Permutation_in _ (Permutation_sym PN)); auto).
  assert (F : rprod others z <> 0) by (intros F; apply rprod_zero in F; tauto). assert (w = w') by (apply (Rmult_eq_reg_r (rprod others z)); auto). subst w'. auto.
Qed.

(* ------------------------------------------------------------------ any two decompositions agree *)
Lemma decomposition_weight d e x V n k : length d = S n -> eigen_decomposition d e x V -> (forall i, (i < n)%nat -> nth i e 0 <> 0) -> (k < S n)%nat ->
  entry V 0 k ^ 2 * sumn (S n) (fun j => (monic (arec d) (brec e) j (nth k x 0) / eprod e j) ^ 2) = 1.
Proof.
  intros Ld HD He Hk. assert (HD' := HD). destruct HD' as [_ [_ [_ [_ [_ [HC _]]]]]]. rewrite Ld in HC. assert (N := HC k k Hk Hk). unfold delta in N. rewrite Nat.eqb_refl in N. rewrite <- N, <- sumn_scal.
  apply sumn_ext. intros j Hj. assert (G := gw_col d e x V n Ld HD He k j Hk Hj). assert (En : eprod e j <> 0) by (apply eprod_neq; intros; apply He; lia).
  assert (E : entry V j k = entry V 0 k * (monic (arec d) (brec e) j (nth k x 0) / eprod e j)) by (apply (Rmult_eq_reg_r (eprod e j)); auto; rewrite G; field; auto).
  rewrite !E. ring.
Qed.
Lemma decomposition_points d e x V n : length d = S n -> length e = n -> eigen_decomposition d e x V -> (forall i, (i < n)%nat -> nth i e 0 <> 0) ->
  NoDup x /\ length x = S n /\ Sorted Rle x /\ forall r, In r x <-> monic (arec d) (brec e) (S n) r = 0.
Proof.
  intros Ld Le HD He. destruct (eigen_exists d e n Ld Le He) as [x0 [V0 [HD0 S0]]]. assert (L0 : length x0 = S n) by (destruct HD0 as [L _]; lia). assert (Lx : length x = S n) by (destruct HD as [L _]; lia).
  assert (ND0 : NoDup x0) by (apply (NoDup_nth x0 0); apply (sorted_nth_neq x0 S0)).
  assert (I : incl x0 x). { intros r Hr. destruct (In_nth _ _ 0 Hr) as [k [Hk <-]]. apply (gw_contains d e x V n Ld HD He). apply (gw_root d e x0 V0 n Ld HD0 He). lia. }
  assert (P : Permutation x0 x) by (apply NoDup_Permutation_bis; auto; lia). split; [apply (Permutation_NoDup P); auto|]. split; auto. split; [apply HD|].
  intros r. split; [|apply (gw_contains d e x V n Ld HD He)]. intros Hr. destruct (In_nth _ _ 0 Hr) as [k [Hk <-]]. apply (gw_root d e x V n Ld HD He). lia.
Qed.
Lemma decomposition_unique d e x V x' V' n : length d = S n -> length e = n -> eigen_decomposition d e x V -> eigen_decomposition d e x' V' -> (forall i, (i < n)%nat -> nth i e 0 <> 0) ->
  x = x' /\ forall k, (k < S n)%nat -> entry V 0 k ^ 2 = entry V' 0 k ^ 2.
Proof.
  intros Ld Le HD HD' He. destruct (decomposition_points d e x V n Ld Le HD He) as [ND [Lx [So Hr]]]. destruct (decomposition_points d e x' V' n Ld Le HD' He) as [ND' [Lx' [So' Hr']]].
  assert (E : x = x'). { apply sorted_perm_eq; auto. apply NoDup_Permutation; auto. intros r. rewrite Hr, Hr'. tauto. }
  split; auto. subst x'. intros k Hk. assert (W := decomposition_weight d e x V n k Ld HD He Hk). assert (W' := decomposition_weight d e x V' n k Ld HD' He Hk).
  set (s := sumn (S n) _) in *. apply (Rmult_eq_reg_r s); [lra|]. intros Z. rewrite Z in W. lra.
Qed.

(* ------------------------------------------------------------------ sympy *)
Section Sympy.
Context (alpha e : list R) (n : nat) (La : length alpha = S n) (Le : length e = n) (He : forall i, (i < n)%nat -> nth i e 0 <> 0).
Let A := sympy_tridiag alpha (0 :: e).
Lemma sympy_length : length A = S n.
Proof. unfold A, sympy_tridiag. rewrite map_length, seq_length. auto. Qed.
Lemma sympy_entry i j : (i < S n)%nat -> (j < S n)%nat -> entry A i j = tri alpha e i j.
Proof.
  intros Hi Hj. unfold A, sympy_tridiag. rewrite La. etransitivity; [exact (entry_build (S n) (fun i j => if (i =? j)%nat then nth i alpha 0 else if (S i =? j)%nat then nth j (0 :: e) 0 else if (i =? S j)%nat then nth i (0 :: e) 0 else 0) i j Hi Hj)|].
  cbn beta. unfold tri. destruct (Nat.eqb_spec i j); auto. destruct (Nat.eqb_spec (S i) j) as [E1|]; destruct (Nat.eqb_spec i (S j)) as [E2|]; auto; try lia; subst; auto.
Qed.
Lemma sympy_square : square (S n) A.
Proof. split; [apply sympy_length|]. apply List.Forall_forall. intros row Hr. unfold A, sympy_tridiag in Hr. apply in_map_iff in Hr. destruct Hr as [i [<- _]]. rewrite map_length, seq_length. auto. Qed.
Lemma sympy_symmetric : symmetric (S n) A.
Proof. intros i j Hi Hj. rewrite !sympy_entry by auto. apply tri_sym. Qed.
(** Eigenvectors are multiples of the vector of polynomial values. *)
Lemma eigenvector_monic r v : eigenvector A r v -> nth 0 v 0 <> 0 /\ monic (arec alpha) (brec e) (S n) r = 0 /\
  forall j, (j < S n)%nat -> nth j v 0 = nth 0 v 0 * (monic (arec alpha) (brec e) j r / eprod e j).
Proof.
  intros [Lv [[i0 [Hi0 Nz]] HE]]. rewrite sympy_length in *.
  assert (HE' : forall i, (i < S n)%nat -> sumn (S n) (fun j => tri alpha e i j * nth j v 0) = r * nth i v 0) by (intros i Hi; rewrite <- HE by auto; apply sumn_ext; intros j Hj; rewrite sympy_entry by auto; auto).
  assert (C : forall j, (j < S n)%nat -> nth j v 0 = nth 0 v 0 * (monic (arec alpha) (brec e) j r / eprod e j)).
  { intros j Hj. assert (G := rows_monic alpha e (fun j => nth j v 0) r (S n) ltac:(intros; apply He; lia) ltac:(intros; apply HE'; lia) j Hj). cbn beta in G.
    assert (eprod e j <> 0) by (apply eprod_neq; intros; apply He; lia). apply (Rmult_eq_reg_r (eprod e j)); auto. rewrite G. field. auto. }
  assert (N0 : nth 0 v 0 <> 0) by (intros E; apply Nz; rewrite C, E by auto; ring). split; auto. split; auto.
  assert (G := last_row_monic alpha e (fun j => nth j v 0) r n 0 ltac:(intros; apply He; lia) ltac:(intros; apply HE'; lia) ltac:(cbn beta; rewrite HE' by lia; ring)). cbn beta in G.
  rewrite Ropp_0, Rmult_0_l in G. apply Rmult_integral in G. tauto.
Qed.
Lemma eigen_list_exists : exists items, eigen_list A items.
Proof.
  destruct (eigen_exists alpha e n La Le He) as [x [V [HD S0]]]. assert (Lx : length x = S n) by (destruct HD as [L _]; lia).
  exists (map (fun k => (nth k x 0, 1%nat, [map (fun j => entry V j k) (seq 0 (S n))])) (seq 0 (S n))).
  assert (EF : map (fun it => fst (fst it)) (map (fun k => (nth k x 0, 1%nat, [map (fun j => entry V j k) (seq 0 (S n))])) (seq 0 (S n))) = x).
  { rewrite map_map. cbn [fst]. rewrite <- Lx. clear. induction x as [|a x IH]; auto. cbn [length seq map nth]. f_equal. rewrite <- seq_shift, map_map. exact IH. }
  unfold eigen_list. rewrite EF. split; [|split].
  - apply (NoDup_nth x 0). apply (sorted_nth_neq x S0).
  - intros r v Hv. apply (gw_contains alpha e x V n La HD He). apply (eigenvector_monic r v Hv).
  - intros r mult vs Hin. apply in_map_iff in Hin. destruct Hin as [k [E Hk]]. injection E as <- <- <-. apply in_seq in Hk. cbn [length].
    assert (Nc : forall j, (j < S n)%nat -> nth j (map (fun j => entry V j k) (seq 0 (S n))) 0 = entry V j k) by (intros j Hj; apply (nth_seq (fun j => entry V j k)); auto).
    assert (V0 : entry V 0 k <> 0) by (apply (gw_first alpha e x V n La HD He); lia).
    split; auto. split; [lia|]. split.
    + intros c Hc k0 Hk0. assert (E := Hc 0%nat ltac:(rewrite sympy_length; lia)). cbn [length] in E, Hk0. unfold sumn in E. cbn [seq map Rsum] in E. change (nth 0 [map (fun j => entry V j k) (0%nat :: seq 1 n)] []) with (map (fun j => entry V j k) (seq 0 (S n))) in E.
      rewrite Nc, Rplus_0_r in E by lia. replace k0 with 0%nat by lia. apply Rmult_integral in E. tauto.
    + intros v [<-|[]]. change (entry V 0 k :: map (fun j => entry V j k) (seq 1 n)) with (map (fun j => entry V j k) (seq 0 (S n))). unfold eigenvector. rewrite sympy_length, map_length, seq_length. split; auto. split; [exists 0%nat; split; [lia|rewrite Nc by lia; auto]|].
      intros i Hi. destruct HD as [_ [_ [_ [_ [HE _]]]]]. rewrite La in HE. rewrite (Nc i) by auto. rewrite <- HE by lia. apply sumn_ext. intros j Hj. rewrite sympy_entry, Nc by auto. auto.
Qed.
(** An entry of the list. *)
Lemma sympy_item_value items x V r mult vs int_1 : eigen_list A items -> eigen_decomposition alpha e x V -> In (r, mult, vs) items ->
  exists k, (k < S n)%nat /\ r = nth k x 0 /\ sympy_item int_1 (r, mult, vs) = Some (r, int_1 * entry V 0 k ^ 2).
Proof.
  intros [_ [_ HI]] HD Hin. destruct (HI r mult vs Hin) as [Lm [Hm [Hind Hv]]]. rewrite sympy_length in Hind.
  assert (L1 : exists v, vs = [v]).
  { destruct vs as [|v [|u vs]]; [cbn in Lm; lia|eauto|exfalso].
    destruct (eigenvector_monic r v (Hv v (or_introl eq_refl))) as [N [_ C]]. destruct (eigenvector_monic r u (Hv u (or_intror (or_introl eq_refl)))) as [N' [_ C']].
    assert (Z := Hind (fun k => match k with 0%nat => nth 0 u 0 | 1%nat => - nth 0 v 0 | _ => 0 end)). apply N'. refine (Z _ 0%nat ltac:(cbn; lia)).
    intros i Hi. unfold sumn. cbn [length seq map Rsum nth]. rewrite (C i Hi), (C' i Hi). rewrite Rsum_map_zero; [ring|]. intros k Hk. apply in_seq in Hk. destruct k as [|[|k]]; [lia|lia|ring]. }
  destruct L1 as [v ->]. cbn in Lm. subst mult. destruct (Hv v (or_introl eq_refl)) as [Lv _]. rewrite sympy_length in Lv. destruct (eigenvector_monic r v (Hv v (or_introl eq_refl))) as [N [Z C]].
  assert (Ir := gw_contains alpha e x V n La HD He r Z). destruct (In_nth _ _ 0 Ir) as [k [Hk Er]]. assert (Lx : length x = S n) by (destruct HD as [L _]; lia). rewrite Lx in Hk.
  exists k. split; auto. split; auto. unfold sympy_item. cbn [Nat.eqb guard].
  assert (W := decomposition_weight alpha e x V n k La HD He Hk). rewrite Er in W. set (s := sumn (S n) _) in W.
  assert (ES : Rsum (map (fun v => v ^ 2) v) = nth 0 v 0 ^ 2 * s).
  { unfold s. rewrite <- sumn_scal. rewrite (sumn_ext _ _ (fun j => nth j v 0 ^ 2)) by (intros j Hj; rewrite (C j Hj) at 1; ring). unfold sumn. rewrite <- Lv. clear. f_equal. induction v as [|a v IH]; auto. cbn [length seq map nth]. f_equal. rewrite <- seq_shift, map_map. exact IH. }
  rewrite ES. assert (Sz : s <> 0) by (intros E; rewrite E in W; lra). assert (V2 : nth 0 v 0 ^ 2 <> 0) by (apply pow_nonzero; auto).
  unfold rdiv. destruct (Req_EM_T (nth 0 v 0 ^ 2 * s) 0) as [E|_]; [exfalso; apply Rmult_integral in E; tauto|]. cbn [bind]. f_equal. f_equal.
  replace (entry V 0 k ^ 2) with (/ s) by (apply (Rmult_eq_reg_r s); auto; rewrite W; field; auto). field. auto.
Qed.
Lemma opt_list_some {B C} (f : B -> option C) g l : (forall b, In b l -> f b = Some (g b)) -> opt_list f l = Some (map g l).
Proof. induction l as [|b l IH]; intros H; auto. cbn [opt_list map]. rewrite H by (left; auto). cbn [bind]. rewrite IH by (intros; apply H; right; auto). auto. Qed.
Theorem sympy_run eigenvects x V int_1 : eigenvects_solver eigenvects -> eigen_decomposition alpha e x V ->
  exists xw, opt_list (sympy_item int_1) (eigenvects A) = Some xw /\ sort_by_x xw = map (fun k => (nth k x 0, int_1 * entry V 0 k ^ 2)) (seq 0 (S n)).
Proof.
  intros HS HD. assert (HL := HS (S n) A sympy_square sympy_symmetric eigen_list_exists). set (items := eigenvects A) in *. destruct (decomposition_points alpha e x V n La Le HD He) as [ND [Lx [So Hr]]].
  set (pairs := map (fun k => (nth k x 0, int_1 * entry V 0 k ^ 2)) (seq 0 (S n))).
  assert (EP : map fst pairs = x). { unfold pairs. rewrite map_map. cbn [fst]. rewrite <- Lx. clear. induction x as [|a x IH]; auto. cbn [length seq map nth]. f_equal. rewrite <- seq_shift, map_map. exact IH. }
  assert (G : forall its, (forall it, In it its -> In it items) -> exists xw, opt_list (sympy_item int_1) its = Some xw /\ map fst xw = map (fun it => fst (fst it)) its /\ incl xw pairs).
  { induction its as [|[[r mult] vs] its IH]; intros Hi; [exists []; cbn; split; auto; split; auto; intros ? []|].
    destruct (IH ltac:(intros; apply Hi; right; auto)) as [xw [E1 [E2 E3]]]. destruct (sympy_item_value items x V r mult vs int_1 HL HD (Hi _ (or_introl eq_refl))) as [k [Hk [Er Es]]].
    exists ((r, int_1 * entry V 0 k ^ 2) :: xw). split; [|split].
    - change (opt_list (sympy_item int_1) ((r, mult, vs) :: its)) with (let! b := sympy_item int_1 (r, mult, vs) in let! bs := opt_list (sympy_item int_1) its in Some (b :: bs)). rewrite Es, E1. auto.
    - cbn [map fst]. f_equal. auto.
    - intros p [<-|Hp]; [|auto]. unfold pairs. apply in_map_iff. exists k. split; [rewrite Er; auto|apply in_seq; lia]. }
  destruct (G items ltac:(auto)) as [xw [E1 [E2 E3]]]. exists xw. split; auto.
  assert (NDx : NoDup (map fst xw)) by (rewrite E2; apply HL).
  assert (P : Permutation xw pairs).
  { apply NoDup_Permutation_bis; [apply (NoDup_map_inv fst); auto| |auto].
    (* as many eigenvalues as points *)
    assert (I : incl x (map fst xw)).
    { intros r Hx. rewrite E2. destruct HL as [_ [HC _]]. destruct (In_nth _ _ 0 Hx) as [k [Hk Er]]. rewrite Lx in Hk.
      apply (HC r (map (fun j => entry V j k) (seq 0 (S n)))). assert (Nc : forall j, (j < S n)%nat -> nth j (map (fun j => entry V j k) (seq 0 (S n))) 0 = entry V j k) by (intros j Hj; apply (nth_seq (fun j => entry V j k)); auto).
      unfold eigenvector. rewrite sympy_length, map_length, seq_length. split; auto. split; [exists 0%nat; split; [lia|rewrite Nc by lia; apply (gw_first alpha e x V n La HD He); auto]|].
      intros i Hi. destruct HD as [_ [_ [_ [_ [HE _]]]]]. rewrite La in HE. rewrite (Nc i) by auto. rewrite <- Er, <- HE by lia. apply sumn_ext. intros j Hj. rewrite sympy_entry, Nc by auto. auto. }
    assert (L := NoDup_incl_length ND I). rewrite map_length in L. unfold pairs. rewrite map_length, seq_length. lia. }
  apply sorted_pairs_eq; [apply sort_sorted|rewrite EP; auto| |rewrite sort_perm; auto].
  apply (Permutation_NoDup (Permutation_map fst (Permutation_sym (sort_perm xw)))). auto.
Qed.
End Sympy.

(* ------------------------------------------------------------------ the three modes *)
Theorem modes_agree eigh eigenvects tridiag_eigen alpha beta int_1 n : eigen_solver eigh -> eigenvects_solver eigenvects -> row_eigen_solver tridiag_eigen ->
  length alpha = S n -> length beta = S n -> List.Forall (fun b => 0 < b) (tl beta) ->
  exists x w, scheme_from_rc eigh alpha beta int_1 = Some (x, w) /\ scheme_from_rc_sympy eigenvects alpha beta int_1 = Some (x, w, int_1 :: tl beta) /\ scheme_from_rc_mpmath tridiag_eigen alpha beta int_1 = Some (x, w).
Proof.
  intros H1 H2 H3 La Lb Hb. destruct (scheme_from_rc_run eigh alpha beta int_1 n H1 La Lb Hb) as [x [V [ER [HD [Hne Hsq]]]]]. exists x, (map (fun v => int_1 * v ^ 2) (nth 0 V [])). split; auto.
  destruct beta as [|b0 bt]; [discriminate Lb|]. cbn [tl] in *. cbn in Lb. assert (Lt : length bt = n) by lia. assert (Le : length (map sqrt bt) = n) by (rewrite map_length; auto).
  assert (Lx : length x = S n) by (destruct HD as [L _]; lia). assert (L0 : length (nth 0 V []) = S n) by (destruct HD as [_ [LV [HF _]]]; rewrite La in *; rewrite List.Forall_forall in HF; apply HF, nth_In; lia).
  assert (EW : map (fun v => int_1 * v ^ 2) (nth 0 V []) = map (fun k => int_1 * entry V 0 k ^ 2) (seq 0 (S n))).
  { unfold entry. rewrite <- L0. generalize (nth 0 V []). clear. intros l. induction l as [|a l IH]; auto. cbn [length seq map nth]. f_equal. rewrite <- seq_shift, map_map. exact IH. }
  rewrite EW. split.
  - unfold scheme_from_rc_sympy. cbn [assign0 bind tl]. rewrite opt_list_sqrt by auto. cbn [bind]. cbn [length]. rewrite La, Lt, Nat.eqb_refl. cbn [guard].
    destruct (sympy_run alpha (map sqrt bt) n La Le Hne eigenvects x V int_1 H2 HD) as [xw [E1 E2]]. rewrite E1. cbn [bind]. rewrite E2. rewrite !map_map. cbn [fst snd]. f_equal. f_equal. f_equal.
    rewrite <- Lx. clear. induction x as [|a x IH]; auto. cbn [length seq map nth]. f_equal. rewrite <- seq_shift, map_map. exact IH.
  - unfold scheme_from_rc_mpmath. rewrite La. replace (S n - 1)%nat with n by lia. cbn [length]. rewrite Lt.
    assert (EB : opt_list (fun i => if (i + 1 <? S n)%nat then rsqrt (nth (i + 1) (b0 :: bt) 0) else None) (seq 0 n) = Some (map sqrt bt)).
    { rewrite (opt_list_some _ (fun i => sqrt (nth i bt 0))).
      - f_equal. rewrite <- Lt. clear. induction bt as [|a l IH]; auto. cbn [length seq map nth]. f_equal. rewrite <- seq_shift, map_map. exact IH.
      - intros i Hi. apply in_seq in Hi. destruct (Nat.ltb_spec (i + 1) (S n)); [|lia]. replace (i + 1)%nat with (S i) by lia. cbn [nth]. unfold rsqrt. destruct (Rle_dec 0 (nth i bt 0)) as [|N]; auto. exfalso. apply N. rewrite List.Forall_forall in Hb. apply Rlt_le, Hb, nth_In. lia. }
    rewrite EB. cbn [bind]. change (1 <=? S n)%nat with true. cbn [guard].
    assert (RL : removelast (map sqrt bt ++ [0]) = map sqrt bt) by (apply removelast_last).
    destruct (H3 alpha (map sqrt bt ++ [0]) (1 :: repeat 0 n)) as [V' [HD' Hz]].
    + rewrite app_length. cbn. lia.
    + cbn [length]. rewrite repeat_length. lia.
    + lia.
    + rewrite RL. exists x, V. auto.
    + rewrite RL in HD'. destruct (tridiag_eigen alpha (map sqrt bt ++ [0]) (1 :: repeat 0 n)) as [d' z']. cbn [fst snd] in *. destruct (decomposition_unique alpha (map sqrt bt) x V d' V' n La Le HD HD' Hne) as [<- EV].
      f_equal. f_equal. rewrite Hz, La, map_map. apply map_ext_in. intros k Hk. apply in_seq in Hk. rewrite EV by lia. f_equal. f_equal.
      unfold sumn. cbn [seq map Rsum nth]. rewrite Rsum_map_zero; [ring|]. intros j Hj. apply in_seq in Hj. destruct j as [|j]; [lia|]. cbn [nth]. rewrite nth_repeat. ring.
Qed.

(* ------------------------------------------------------------------ the inverse *)
Theorem rebuild eigh sytrd points weights n : eigen_solver eigh -> tridiagonal_reducer sytrd -> length points = S n -> length weights = S n -> NoDup points -> List.Forall (fun w => 0 < w) weights ->
  exists alpha b int_1, coefficients_from_gauss sytrd points weights = Some (alpha, None :: map Some b, int_1) /\
    forall c, exists x w, scheme_from_rc eigh alpha (c :: b) int_1 = Some (x, w) /\ length x = S n /\ length w = S n /\ Sorted Rle x /\ Permutation (List.combine w x) (List.combine weights points).
Proof.
  intros HE HS Lp Lw ND HW. destruct (coefficients_run sytrd points weights n HS Lp Lw ND HW) as [alpha [b [int_1 [ER [La [Lb [Ei [Hb HO]]]]]]]].
  exists alpha, b, int_1. split; auto. intros c. set (q := List.combine weights points) in *.
  assert (Lq : length q = S n) by (unfold q; rewrite combine_length; lia). assert (Sq : map snd q = points) by (apply combine_rule_points; lia).
  assert (M0 : moment q 0 = int_1). { rewrite Ei. unfold moment, q, apply1. rewrite <- (combine_rule_weights weights points) at 2 by lia. apply Rsum_map_ext. intros [w x] _. cbn. ring. }
  destruct (scheme_from_rc_exact eigh alpha (c :: b) int_1 n (fun i => nth i alpha 0) (fun i => nth (i - 1) b 0) (moment q) (S n) (2 * S n - 1) (S n) (S n) HE La) as [x [w [EX [Lx [Lw' [So [HX _]]]]]]]; auto.
  - cbn. lia.
  - intros i Hi. destruct i as [|i]; [lia|]. cbn [nth]. replace (S i - 1)%nat with i by lia. auto.
  - intros k Hk. lia.
  - intros k Hk. lia.
  - exists x, w. split; auto. split; auto. split; auto. split; auto.
    apply (gauss_rule_unique (moment q) (S n)); auto; [lia| | | |].
    + rewrite combine_length. lia.
    + rewrite Sq. auto.
    + apply List.Forall_forall. intros [w0 x0] Hin. apply in_combine_l in Hin. rewrite List.Forall_forall in HW. specialize (HW w0 Hin). cbn. lra.
    + intros k Hk. reflexivity.
Qed.
