(** Silvester's rules are exact to degree n in every dimension. *)
From Coq Require Import Reals List Arith Lia Lra Permutation Bool.
From Verif Require Import Spec RsumLemmas CombSpec CombModel CombProofs CombProofs2 Moments SymExact
  IntegralSpec IntegralProofs IntegralPoly PyBase MiscModel CnModel SchemeTools CnTools TnBase IntegralProofs2 TnModel TnTools TnProofs TnModel2 Series.
Import ListNotations.
Open Scope R_scope.

(* ------------------------------------------------------------ the monomial integral *)
Lemma prodfactR_zeros m : prodfactR (repeat 0%nat m) = 1.
Proof. unfold prodfactR. induction m; cbn [repeat map Rprod]; auto. rewrite IHm. simpl. ring. Qed.
Lemma list_sum_zeros m : list_sum (repeat 0%nat m) = 0%nat.
Proof. induction m; simpl; auto. Qed.
Lemma integrate_bary_closed fuel : forall k, (0 < length k)%nat -> list_sum k = fuel ->
  integrate_bary_fuel fuel k = simplex_moment (length k - 1) k.
Proof.
  induction fuel as [|fuel IH]; intros k Hl H; cbn [integrate_bary_fuel].
  all: destruct (first_nonzero k) as [[v k2]|] eqn:E.
  { apply first_nonzero_Some in E. lia. }
  { apply first_nonzero_None in E. unfold simplex_moment, tdeg. rewrite H, Nat.add_0_r.
    rewrite E at 2. rewrite prodfactR_zeros. field. apply INR_fact_neq_0. }
  { apply first_nonzero_Some in E. destruct E as [H1 [H2 H3]]. rewrite IH by lia.
    unfold simplex_moment, tdeg. rewrite H1, H2, H3. replace (length k - 1 + S (list_sum k2))%nat with (S (length k - 1 + list_sum k2)) by lia.
    change (fact (S (length k - 1 + list_sum k2))) with (S (length k - 1 + list_sum k2) * fact (length k - 1 + list_sum k2))%nat.
    rewrite mult_INR. replace (S (list_sum k2) + (length k - 1))%nat with (S (length k - 1 + list_sum k2)) by lia.
    field. split; [apply INR_fact_neq_0|apply not_0_INR; lia]. }
  { apply first_nonzero_None in E. exfalso. rewrite E, list_sum_zeros in H. lia. }
Qed.
Lemma integrate_bary_mean n k : length k = S n -> integrate_bary k = simplex_mean n (mono k).
Proof.
  intros H. unfold integrate_bary. rewrite integrate_bary_closed by (auto; lia). rewrite simplex_mean_mono by auto.
  f_equal. lia.
Qed.

(* ------------------------------------------------------------ evaluation of products of polynomials *)
Definition mp_len (D : nat) (p : mpoly) : Prop := Forall (fun ck => length (snd ck) = D) p.
Definition addk (a b : list nat) : list nat := map (fun e => (fst e + snd e)%nat) (List.combine a b).
Lemma addk_length D a b : length a = D -> length b = D -> length (addk a b) = D.
Proof. intros. unfold addk. rewrite map_length, combine_length. lia. Qed.
Lemma mono_addk a : forall b x, length b = length a -> length x = length a -> mono (addk a b) x = mono a x * mono b x.
Proof.
  unfold addk. induction a as [|i a IH]; intros [|j b] [|t x] H1 H2; try discriminate; cbn [List.combine map fst snd mono]; [ring|].
  rewrite IH by (simpl in *; lia). rewrite pow_add. ring.
Qed.
Lemma mp_mul_len D p q : mp_len D p -> mp_len D q -> mp_len D (mp_mul p q).
Proof.
  unfold mp_len. rewrite !Forall_forall. intros Hp Hq ck Hc. apply in_flat_map in Hc. destruct Hc as [a [Ha Hc]].
  apply in_map_iff in Hc. destruct Hc as [b [<- Hb]]. cbn [snd]. apply addk_length; auto.
Qed.
Lemma mpeval_mul D p q x : mp_len D p -> mp_len D q -> length x = D -> mpeval (mp_mul p q) x = mpeval p x * mpeval q x.
Proof.
  intros Hp Hq Hx. unfold mpeval, mp_mul. rewrite Rsum_map_flat_map, <- Rsum_map_scal_r. apply Rsum_map_ext. intros a Ha.
  rewrite map_map. cbn [fst snd]. rewrite <- Rsum_map_scal. apply Rsum_map_ext. intros b Hb.
  unfold mp_len in *. rewrite Forall_forall in Hp, Hq. specialize (Hp _ Ha). specialize (Hq _ Hb).
  fold (addk (snd a) (snd b)). rewrite mono_addk by congruence. ring.
Qed.
Lemma fold_mul D x fs : forall acc, Forall (mp_len D) fs -> mp_len D acc -> length x = D ->
  mp_len D (fold_left mp_mul fs acc) /\ mpeval (fold_left mp_mul fs acc) x = mpeval acc x * Rprod (map (fun f => mpeval f x) fs).
Proof.
  induction fs as [|f fs IH]; intros acc Hf Ha Hx; cbn [fold_left map Rprod].
  - split; auto. ring.
  - inversion Hf; subst. destruct (IH (mp_mul acc f)) as [L E]; auto using mp_mul_len.
    split; auto. rewrite E, (mpeval_mul (length x)) by auto. ring.
Qed.
Lemma mono_mp_unit m : forall i x, length x = m -> (i < m)%nat -> mono (mp_unit m i) x = nth i x 0.
Proof.
  unfold mp_unit. induction m as [|m IH]; intros i [|t x] Hx Hi; try lia; try discriminate.
  cbn [seq map mono nth]. rewrite <- seq_shift, map_map. destruct i as [|i].
  - cbn [Nat.eqb].
    assert (Z : forall l (y : list R), mono (map (fun _ : nat => 0%nat) l) y = 1).
    { induction l as [|? ? IHl]; intros [|? ?]; simpl; auto. rewrite IHl. ring. }
    rewrite Z. simpl. ring.
  - cbn [Nat.eqb].
    rewrite IH by (simpl in *; lia). simpl. ring.
Qed.

(** Value of the polynomial of the code. *)
Definition bfac (X : nat -> R) (m : nat) (t : R) : R := Rprod (map (fun k => (t - X k) / (X m - X k)) (seq 0 m)).
Fixpoint Bf (X : nat -> R) (idx : list nat) (x : point) : R :=
  match idx, x with m :: idx', t :: x' => bfac X m t * Bf X idx' x' | _, _ => 1 end.
Lemma Rprod_app2 l l' : Rprod (l ++ l') = Rprod l * Rprod l'.
Proof. apply Rprod_app. Qed.
Lemma factors_value D X idx : forall pre x, (length pre + length x)%nat = D -> length x = length idx ->
  Rprod (map (fun f => mpeval f (pre ++ x))
    (flat_map (fun im => map (fun k => [(/ (X (snd im) - X k), mp_unit D (fst im)); (- X k / (X (snd im) - X k), repeat 0%nat D)]) (seq 0 (snd im)))
      (List.combine (seq (length pre) (length idx)) idx))) = Bf X idx x.
Proof.
  induction idx as [|m idx IH]; intros pre [|t x] HD Hl; try discriminate; [reflexivity|].
  cbn [length seq List.combine flat_map fst snd Bf]. rewrite map_app, Rprod_app. f_equal.
  - unfold bfac. f_equal. rewrite map_map. apply map_ext. intros k. unfold mpeval. cbn [map fst snd Rsum].
    rewrite mono_mp_unit by (rewrite ?app_length in *; simpl in *; lia). rewrite mono_zeros.
    rewrite app_nth2, Nat.sub_diag by lia. cbn [nth]. unfold Rdiv. ring.
  - specialize (IH (pre ++ [t]) x). rewrite app_length in IH. cbn [length] in IH. rewrite Nat.add_1_r in IH.
    rewrite <- app_assoc in IH. cbn [app] in IH. rewrite <- IH; auto; simpl in *; lia.
Qed.
Lemma mp_unit_length D i : length (mp_unit D i) = D.
Proof. unfold mp_unit. rewrite map_length, seq_length. auto. Qed.
Lemma silvester_g_eval dim X idx x : length idx = (dim + 1)%nat -> length x = (dim + 1)%nat ->
  mpeval (silvester_g dim X idx) x = Bf X idx x.
Proof.
  intros Hi Hx. unfold silvester_g.
  destruct (fold_mul (dim + 1) x
    (flat_map (fun im => map (fun k => [(/ (X (snd im) - X k), mp_unit (dim + 1) (fst im)); (- X k / (X (snd im) - X k), repeat 0%nat (dim + 1))]) (seq 0 (snd im)))
      (List.combine (seq 0 (length idx)) idx)) [(1, repeat 0%nat (dim + 1))]) as [_ E]; auto.
  - apply Forall_forall. intros f Hf. apply in_flat_map in Hf. destruct Hf as [im [_ Hf]]. apply in_map_iff in Hf. destruct Hf as [k [<- _]].
    repeat constructor; cbn [snd]; rewrite ?mp_unit_length, ?repeat_length; auto.
  - repeat constructor. cbn [snd]. apply repeat_length.
  - rewrite E. assert (F := factors_value (dim + 1) X idx [] x). cbn [length app] in F. rewrite F by (simpl; lia). unfold mpeval. cbn [map Rsum fst snd]. rewrite mono_zeros. ring.
Qed.
Lemma silvester_g_len dim X idx : mp_len (dim + 1) (silvester_g dim X idx).
Proof.
  unfold silvester_g. eapply (proj1 (fold_mul (dim + 1) (repeat 0 (dim + 1)) _ _ _ _ _)). Unshelve.
  - apply Forall_forall. intros f Hf. apply in_flat_map in Hf. destruct Hf as [im [_ Hf]]. apply in_map_iff in Hf. destruct Hf as [k [<- _]].
    repeat constructor; cbn [snd]; rewrite ?mp_unit_length, ?repeat_length; auto.
  - repeat constructor. cbn [snd]. apply repeat_length.
  - apply repeat_length.
Qed.

(* ------------------------------------------------------------ interpolation on the simplex *)
Section Sil.
  Context (dim n : nat) (N sh : R) (X : nat -> R).
  Context (HN : N <> 0) (HX : forall k, X k = (INR k + sh) / N) (Hsum : N - INR (dim + 1) * sh = INR n).
  Notation D := (dim + 1)%nat.

  Fixpoint ff (m : nat) (y : R) : R := match m with O => 1 | S k => ff k y * (y - INR k) end.
  Lemma ff_seq m y : Rprod (map (fun k => y - INR k) (seq 0 m)) = ff m y.
  Proof. induction m as [|m IH]; [reflexivity|]. rewrite seq_S, map_app, Rprod_app, IH. cbn. ring. Qed.
  Lemma ff_fact m : forall j, (j <= m)%nat -> ff j (INR m) * INR (fact (m - j)) = INR (fact m).
  Proof.
    induction j as [|j IH]; intros H; cbn [ff].
    - rewrite Nat.sub_0_r. ring.
    - rewrite <- IH by lia. replace (m - j)%nat with (S (m - S j)) by lia.
      change (fact (S (m - S j))) with (S (m - S j) * fact (m - S j))%nat. rewrite mult_INR.
      replace (S (m - S j)) with (m - j)%nat by lia. rewrite minus_INR by lia. ring.
  Qed.
  Lemma ff_zero m : forall j, (j < m)%nat -> ff m (INR j) = 0.
  Proof.
    induction m as [|m IH]; intros j H; [lia|]. cbn [ff]. destruct (Nat.eq_dec j m) as [->|]; [ring|]. rewrite IH by lia. ring.
  Qed.
  Lemma Rprod_div {A} (f g : A -> R) l : (forall x, In x l -> g x <> 0) ->
    Rprod (map (fun x => f x / g x) l) = Rprod (map f l) / Rprod (map g l) /\ Rprod (map g l) <> 0.
  Proof.
    induction l as [|x l IH]; intros H; cbn [map Rprod]; [split; [field|lra]|].
    destruct IH as [E Z]; [intros; apply H; right; auto|]. assert (g x <> 0) by (apply H; left; auto).
    split; [rewrite E; field; auto|apply Rmult_integral_contrapositive; auto].
  Qed.
  Lemma bfac_ff m t : bfac X m t = ff m (N * t - sh) / INR (fact m).
  Proof.
    unfold bfac. rewrite (map_ext_in _ (fun k => ((N * t - sh) - INR k) / (INR m - INR k))).
    - destruct (Rprod_div (fun k => (N * t - sh) - INR k) (fun k => INR m - INR k) (seq 0 m)) as [E _].
      + intros k Hk. apply in_seq in Hk. assert (INR k < INR m) by (apply lt_INR; lia). lra.
      + rewrite E, !ff_seq. f_equal. rewrite <- (ff_fact m m) by lia. rewrite Nat.sub_diag. simpl. ring.
    - intros k Hk. apply in_seq in Hk. assert (INR k < INR m) by (apply lt_INR; lia). rewrite !HX. field. repeat split; auto; try lra.
  Qed.
  Lemma bfac_step m t : (INR m + 1) * bfac X (S m) t = (N * t - sh - INR m) * bfac X m t.
  Proof.
    rewrite !bfac_ff. cbn [ff]. change (fact (S m)) with (S m * fact m)%nat. rewrite mult_INR, S_INR.
    assert (0 <= INR m) by apply pos_INR. field. split; [apply INR_fact_neq_0|lra].
  Qed.
  Lemma bfac_pt m j : bfac X m (X j) = if (j <? m)%nat then 0 else bfac X m (X j).
  Proof.
    destruct (Nat.ltb_spec j m); auto. rewrite bfac_ff, HX. replace (N * ((INR j + sh) / N) - sh) with (INR j) by (field; auto).
    rewrite ff_zero by auto. unfold Rdiv. ring.
  Qed.
  Lemma bfac_pt_eq m : bfac X m (X m) = 1.
  Proof.
    rewrite bfac_ff, HX. replace (N * ((INR m + sh) / N) - sh) with (INR m) by (field; auto).
    rewrite <- (ff_fact m m) by lia. rewrite Nat.sub_diag. simpl. assert (F := INR_fact_neq_0 m). rewrite <- (ff_fact m m) in F by lia.
    rewrite Nat.sub_diag in F. simpl in F. field. intros E. apply F. rewrite E. ring.
  Qed.
  Lemma Bf_pt k : Bf X k (map X k) = 1.
  Proof. induction k as [|m k IH]; cbn [map Bf]; auto. rewrite IH, bfac_pt_eq. ring. Qed.
  Lemma Bf_pt_ne k : forall j, length j = length k -> list_sum j = list_sum k -> j <> k -> Bf X k (map X j) = 0.
  Proof.
    assert (G : forall j, length j = length k -> (list_sum j <= list_sum k)%nat -> j <> k -> Bf X k (map X j) = 0).
    { induction k as [|m k IH]; intros [|i j] Hl Hs Hne; try discriminate; [contradiction|].
      cbn [map Bf]. cbn [list_sum fold_right] in Hs. fold (list_sum j) in Hs. fold (list_sum k) in Hs.
      destruct (Nat.ltb_spec i m) as [H|H].
      - rewrite (bfac_pt m i). replace (i <? m)%nat with true by (symmetry; apply Nat.ltb_lt; auto). ring.
      - rewrite IH; [ring| simpl in Hl; lia | lia |].
        intros ->. apply Hne. f_equal. lia. }
    intros j H1 H2. apply G; auto. lia.
  Qed.
  Lemma Bf_bump k : forall i x, (i < length k)%nat -> length x = length k ->
    (INR (nth i k 0%nat) + 1) * Bf X (bump i k) x = (N * nth i x 0 - sh - INR (nth i k 0%nat)) * Bf X k x.
  Proof.
    induction k as [|m k IH]; intros [|i] [|t x] Hi Hx; try discriminate; try (simpl in Hi; lia); cbn [bump Bf nth].
    - rewrite <- Rmult_assoc, bfac_step. ring.
    - replace ((INR (nth i k 0%nat) + 1) * (bfac X m t * Bf X (bump i k) x)) with (bfac X m t * ((INR (nth i k 0%nat) + 1) * Bf X (bump i k) x)) by ring.
      rewrite IH by (simpl in *; lia). ring.
  Qed.
  Lemma Rsum_nth x : Rsum (map (fun i => nth i x 0) (seq 0 (length x))) = Rsum x.
  Proof. induction x as [|t x IH]; [reflexivity|]. cbn [length seq map nth Rsum]. rewrite <- seq_shift, map_map. cbn [nth]. rewrite IH. auto. Qed.
  Lemma Bf_lift k x : length k = D -> length x = D -> Rsum x = 1 ->
    (INR n - INR (tdeg k)) * Bf X k x = Rsum (map (fun i => (INR (nth i k 0%nat) + 1) * Bf X (bump i k) x) (seq 0 D)).
  Proof.
    intros Hk Hx Hs.
    rewrite (Rsum_map_ext _ (fun i => (N * nth i x 0 - (INR (nth i k 0%nat) + 1) + (1 - sh)) * Bf X k x)).
    - rewrite Rsum_map_scal_r. f_equal.
      rewrite Rsum_map_plus, Rsum_map_minus, Rsum_map_scal. rewrite <- Hk at 2. rewrite Rsum_nth_INR, Hk. rewrite <- Hx at 1. rewrite Rsum_nth, Hs.
      rewrite Rsum_map_const, seq_length. lra.
    - intros i Hi. apply in_seq in Hi. rewrite Bf_bump by lia. ring.
  Qed.

  (** Linear combinations of basis functions, as functions on the hyperplane. *)
  Definition span (ok : list nat -> Prop) (f : point -> R) : Prop :=
    exists cs : list (R * list nat), (forall ck, In ck cs -> length (snd ck) = D /\ ok (snd ck)) /\
      forall x, length x = D -> Rsum x = 1 -> f x = Rsum (map (fun ck => fst ck * Bf X (snd ck) x) cs).
  Lemma span_sum {A} ok (l : list A) (c : A -> R) (f : A -> point -> R) : (forall a, In a l -> span ok (f a)) ->
    span ok (fun x => Rsum (map (fun a => c a * f a x) l)).
  Proof.
    induction l as [|a l IH]; intros H.
    - exists []. split; [intros _ []|]. reflexivity.
    - destruct IH as [cs [O E]]; [intros; apply H; right; auto|]. destruct (H a) as [cs' [O' E']]; [left; auto|].
      exists (map (fun ck => (c a * fst ck, snd ck)) cs' ++ cs). split.
      + intros ck Hc. apply in_app_or in Hc. destruct Hc as [Hc|Hc]; auto. apply in_map_iff in Hc. destruct Hc as [ck' [<- Hc]]. cbn [snd]. auto.
      + intros x Hx Hs. cbn [map Rsum]. rewrite E, E' by auto. rewrite map_app, Rsum_app, map_map. cbn [fst snd]. f_equal.
        rewrite <- Rsum_map_scal. apply Rsum_map_ext. intros; ring.
  Qed.
  Lemma span_ext ok f g : (forall x, length x = D -> Rsum x = 1 -> f x = g x) -> span ok f -> span ok g.
  Proof. intros H [cs [O E]]. exists cs. split; auto. intros x Hx Hs. rewrite <- H, E; auto. Qed.
  Lemma span_base (ok : list nat -> Prop) k : length k = D -> ok k -> span ok (Bf X k).
  Proof. intros H Ho. exists [(1, k)]. split; [intros ck [<-|[]]; auto|]. intros. cbn. ring. Qed.

  Lemma span_mul j f i : (i < D)%nat -> span (fun k => tdeg k <= j)%nat f -> span (fun k => tdeg k <= S j)%nat (fun x => nth i x 0 * f x).
  Proof.
    intros Hi [cs [O E]].
    apply (span_ext _ (fun x => Rsum (map (fun ck => fst ck * (Rsum (map (fun e => fst e * Bf X (snd e) x)
        [((INR (nth i (snd ck) 0%nat) + 1) / N, bump i (snd ck)); ((INR (nth i (snd ck) 0%nat) + sh) / N, snd ck)]))) cs))).
    - intros x Hx Hs. rewrite E by auto. rewrite <- Rsum_map_scal. apply Rsum_map_ext. intros ck Hc. destruct (O ck Hc) as [Hl _].
      cbn [map Rsum fst snd].
      replace ((INR (nth i (snd ck) 0%nat) + 1) / N * Bf X (bump i (snd ck)) x) with (/ N * ((INR (nth i (snd ck) 0%nat) + 1) * Bf X (bump i (snd ck)) x)) by (field; auto).
      rewrite Bf_bump by lia. field. auto.
    - apply span_sum. intros ck Hc. destruct (O ck Hc) as [Hl Ho].
      apply (span_sum _ _ fst (fun e => Bf X (snd e))). intros e [<-|[<-|[]]]; cbn [snd]; apply span_base; rewrite ?bump_length, ?bump_tdeg by lia; auto; lia.
  Qed.
  Lemma mono_bump1 k : forall i x, (i < length k)%nat -> length x = length k -> mono (bump i k) x = nth i x 0 * mono k x.
  Proof.
    induction k as [|a k IH]; intros [|i] [|t x] Hi Hx; try discriminate; try (simpl in Hi; lia); cbn [bump mono nth].
    - simpl. ring.
    - rewrite IH by (simpl in *; lia). ring.
  Qed.
  Lemma tdeg_bump_ex k j : tdeg k = S j -> exists i k', k = bump i k' /\ (i < length k')%nat /\ tdeg k' = j.
  Proof.
    revert j. induction k as [|[|a] k IH]; intros j H; [discriminate| |].
    - destruct (IH j) as (i & k' & -> & Hi & Ht); [exact H|]. exists (S i), (0%nat :: k'). simpl. split; auto. split; [lia|exact Ht].
    - exists 0%nat, (a :: k). split; auto. split; [simpl; lia|]. unfold tdeg in *. simpl in *. lia.
  Qed.
  Lemma span_mono j : forall k, length k = D -> tdeg k = j -> span (fun m => tdeg m <= j)%nat (mono k).
  Proof.
    induction j as [|j IH]; intros k Hk Ht.
    - apply (span_ext _ (Bf X (repeat 0%nat D))).
      + intros x Hx _. assert (Z : forall m (y : point), Bf X (repeat 0%nat m) y = 1).
        { induction m as [|m IHm]; intros [|t y]; cbn [repeat Bf]; auto. rewrite IHm. unfold bfac. simpl. ring. }
        rewrite Z. assert (Z2 : forall (l : list nat) (y : point), list_sum l = 0%nat -> mono l y = 1).
        { induction l as [|a l IHl]; intros [|t y] E; cbn [mono]; auto. cbn [list_sum fold_right] in E. fold (list_sum l) in E.
          replace a with 0%nat by lia. rewrite IHl by lia. simpl. ring. }
        symmetry. apply Z2. exact Ht.
      + apply span_base; [apply repeat_length|]. unfold tdeg. rewrite list_sum_zeros. auto.
    - destruct (tdeg_bump_ex k j Ht) as (i & k' & -> & Hi & Ht'). rewrite bump_length in Hk.
      apply (span_ext _ (fun x => nth i x 0 * mono k' x)); [intros x Hx _; rewrite mono_bump1 by lia; auto|].
      apply span_mul; [lia|]. apply IH; auto.
  Qed.
  Lemma span_top r : forall k, length k = D -> (tdeg k + r = n)%nat -> span (fun m => tdeg m = n) (Bf X k).
  Proof.
    induction r as [|r IH]; intros k Hk Ht; [apply span_base; auto; lia|].
    apply (span_ext _ (fun x => Rsum (map (fun i => ((INR (nth i k 0%nat) + 1) / (INR n - INR (tdeg k))) * Bf X (bump i k) x) (seq 0 D)))).
    - intros x Hx Hs. assert (E := Bf_lift k x Hk Hx Hs).
      assert (Hne : INR n - INR (tdeg k) <> 0) by (assert (INR (tdeg k) < INR n) by (apply lt_INR; lia); lra).
      apply (Rmult_eq_reg_l (INR n - INR (tdeg k))); auto. rewrite E, <- Rsum_map_scal. apply Rsum_map_ext. intros i _. field. auto.
    - apply (span_sum _ _ (fun i => (INR (nth i k 0%nat) + 1) / (INR n - INR (tdeg k))) (fun i => Bf X (bump i k))).
      intros i Hi. apply in_seq in Hi. apply IH; rewrite ?bump_length, ?bump_tdeg by lia; lia.
  Qed.
  Lemma span_all k : length k = D -> (tdeg k <= n)%nat -> span (fun m => tdeg m = n) (mono k).
  Proof.
    intros Hk Ht. destruct (span_mono (tdeg k) k Hk eq_refl) as [cs [O E]].
    apply (span_ext _ (fun x => Rsum (map (fun ck => fst ck * Bf X (snd ck) x) cs))); [intros; rewrite E; auto|].
    apply (span_sum _ _ fst (fun ck => Bf X (snd ck))). intros ck Hc. destruct (O ck Hc). apply (span_top (n - tdeg (snd ck))); auto. lia.
  Qed.

  (* ------------------------------------------------------------ the rule *)
  Definition wt (idx : list nat) : R := Rsum (map (fun ck => fst ck * integrate_bary (snd ck)) (silvester_g dim X idx)).
  Lemma wt_span cs : (forall ck, In ck cs -> length (snd ck) = D) ->
    simplex_mean dim (fun x => Rsum (map (fun ck => fst ck * Bf X (snd ck) x) cs)) = Rsum (map (fun ck => fst ck * wt (snd ck)) cs).
  Proof.
    intros H.
    set (P := flat_map (fun ck => map (fun e => (fst ck * fst e, snd e)) (silvester_g dim X (snd ck))) cs).
    rewrite (simplex_mean_ext dim _ (mpeval P)).
    - rewrite simplex_mean_mpeval.
      + unfold P. rewrite Rsum_map_flat_map. apply Rsum_map_ext. intros ck _. rewrite map_map. cbn [fst snd]. unfold wt.
        rewrite <- Rsum_map_scal. apply Rsum_map_ext. intros e He.
        assert (L := silvester_g_len dim X (snd ck)). unfold mp_len in L. rewrite Forall_forall in L. specialize (L _ He).
        rewrite (integrate_bary_mean dim) by lia. ring.
      + apply Forall_forall. intros e He. apply in_flat_map in He. destruct He as [ck [_ He]]. apply in_map_iff in He. destruct He as [e' [<- He]].
        cbn [snd]. assert (L := silvester_g_len dim X (snd ck)). unfold mp_len in L. rewrite Forall_forall in L. specialize (L _ He). lia.
    - intros x Hx _. unfold mpeval at 1, P. rewrite Rsum_map_flat_map. apply Rsum_map_ext. intros ck Hc.
      rewrite map_map. cbn [fst snd]. rewrite <- (silvester_g_eval dim X (snd ck) x) by (auto; lia). unfold mpeval. rewrite <- Rsum_map_scal.
      apply Rsum_map_ext. intros; ring.
  Qed.
  Lemma Rsum_delta (l : list (list nat)) (f : list nat -> R) a : NoDup l -> In a l ->
    (forall m, In m l -> m <> a -> f m = 0) -> Rsum (map f l) = f a.
  Proof.
    induction 1 as [|x l Hx Hl IH]; intros Ha Hz; [destruct Ha|]. cbn [map Rsum].
    destruct Ha as [-> | Ha].
    - rewrite Rsum_map_zero; [ring|]. intros m Hm. apply Hz; [right; auto|]. intros ->. contradiction.
    - rewrite IH; auto; [|intros; apply Hz; [right|]; auto]. rewrite (Hz x); [ring|left; auto|]. intros ->. contradiction.
  Qed.
  Lemma combine_map_pairs {A} (f : A -> R) (g : A -> point) l : List.combine (map f l) (map g l) = map (fun a => (f a, g a)) l.
  Proof. induction l; simpl; congruence. Qed.
  Theorem silvester_rule : exact D n (simplexI dim) (mk_rule (snd (silvester_data dim n X), fst (silvester_data dim n X))).
  Proof.
    unfold silvester_data, mk_rule. cbn [fst snd]. set (idxs := nth n (get_all_exponents D n) []).
    fold wt. change (map (fun idx => Rsum (map (fun ck => fst ck * integrate_bary (snd ck)) (silvester_g dim X idx))) idxs) with (map wt idxs).
    rewrite combine_map_pairs.
    destruct (get_all_exponents_level D n n (le_n n)) as [ND IN]. fold idxs in ND, IN.
    split.
    - apply Forall_forall. intros wp Hw. apply in_map_iff in Hw. destruct Hw as [b [<- Hb]]. apply IN in Hb. cbn [snd]. rewrite map_length. tauto.
    - intros k Hk Ht. destruct (span_all k Hk Ht) as [cs [O E]].
      transitivity (Rsum (map (fun ck => fst ck * wt (snd ck)) cs)).
      + unfold apply. rewrite map_map. cbn [fst snd].
        rewrite (Rsum_map_ext _ (fun m => Rsum (map (fun ck => wt m * (fst ck * Bf X (snd ck) (map X m))) cs))).
        * rewrite Rsum_swap. apply Rsum_map_ext. intros ck Hc. destruct (O ck Hc) as [Hl Ho].
          rewrite (Rsum_delta idxs _ (snd ck)); auto.
          -- rewrite Bf_pt. ring.
          -- apply IN. auto.
          -- intros m Hm Hne. apply IN in Hm. unfold tdeg in Ho. rewrite Bf_pt_ne; [ring|lia|lia|auto].
        * intros m Hm. apply IN in Hm. destruct Hm as [Hl Hs]. rewrite Rsum_map_scal. f_equal. apply E.
          -- rewrite map_length. auto.
          -- rewrite (map_ext _ (fun j => (INR j + sh) * / N)) by (intros; apply HX). rewrite Rsum_map_scal_r, Rsum_map_plus, Rsum_map_const.
             assert (S0 : Rsum (map INR m) = INR n).
             { rewrite <- Hs. clear. induction m as [|a m IH]; [reflexivity|]. cbn [map Rsum list_sum fold_right]. fold (list_sum m). rewrite IH, plus_INR. auto. }
             change (map (fun j => INR j) m) with (map INR m). rewrite S0, Hl. rewrite <- Hsum. field. auto.
      + unfold simplexI. rewrite <- wt_span by (intros ck Hc; apply O; auto).
        apply simplex_mean_ext. intros x Hx Hs. symmetry. apply E; auto. lia.
  Qed.
End Sil.

Theorem silvester_exact dim closed n : (1 <= n)%nat -> simplex_scheme dim n (silvester dim closed n).
Proof.
  intros H. destruct n as [|n]; [lia|]. unfold silvester. set (m := S n) in *.
  set (X := if closed then _ else _).
  destruct (silvester_data dim m X) as [w p] eqn:Ed.
  eexists. split; [reflexivity|]. cbn [s_dim s_degree s_rule]. split; auto. split; auto.
  assert (E := silvester_rule dim m (if closed then INR m else INR (m + 1 + dim)) (if closed then 0 else 1) X).
  rewrite Ed in E. cbn [fst snd] in E. apply E.
  - destruct closed; apply not_0_INR; lia.
  - intros k. unfold X. destruct closed; [rewrite Rplus_0_r|rewrite plus_INR; simpl (INR 1)]; reflexivity.
  - destruct closed; [ring|]. rewrite !plus_INR. simpl (INR 1). ring.
Qed.
