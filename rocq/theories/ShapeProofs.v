(** Proofs for C38. *)
From Coq Require Import Reals List Arith Lia Lra Bool.
From Verif Require Import Spec RsumLemmas PyBase ShapeModel ShapeSpec.
Import ListNotations.
Set Bullet Behavior "Strict Subproofs".
Open Scope R_scope.

Lemma shape_eqb_true a b : shape_eqb a b = true <-> a = b.
Proof. unfold shape_eqb. destruct (list_eq_dec Nat.eq_dec a b); split; congruence. Qed.
Lemma shape_eqb_refl a : shape_eqb a a = true. Proof. apply shape_eqb_true. reflexivity. Qed.

(* --- longest common prefix *)
Fixpoint lcp (a b : list nat) : list nat :=
  match a, b with
  | x :: a', y :: b' => if (x =? y)%nat then x :: lcp a' b' else []
  | _, _ => []
  end.
Lemma lcp_split a b : exists a' b', a = lcp a b ++ a' /\ b = lcp a b ++ b' /\ (a' = [] \/ b' = [] \/ hd 0%nat a' <> hd 0%nat b').
Proof.
  revert b. induction a as [|x a IH]; intros [|y b]; cbn; try (exists []; eexists; repeat split; auto; fail).
  - exists (x :: a), []. auto.
  - destruct (Nat.eqb_spec x y) as [<-|N].
    + destruct (IH b) as [a' [b' [E1 [E2 H]]]]. exists a', b'. cbn. rewrite <- E1, <- E2. auto.
    + exists (x :: a), (y :: b). auto.
Qed.
Lemma lcp_max a b c a' b' : a = c ++ a' -> b = c ++ b' -> exists e, lcp a b = c ++ e.
Proof.
  revert a b. induction c as [|x c IH]; intros a b -> ->; cbn; eauto.
  rewrite Nat.eqb_refl. destruct (IH _ _ eq_refl eq_refl) as [e ->]. exists e. reflexivity.
Qed.
Lemma lcp_exact c a' b' : (a' = [] \/ b' = [] \/ hd 0%nat a' <> hd 0%nat b') -> lcp (c ++ a') (c ++ b') = c.
Proof.
  intros H. induction c as [|x c IH]; cbn; [|rewrite Nat.eqb_refl, IH; auto].
  destruct a' as [|x a']; auto. destruct b' as [|y b']; auto. cbn in *. destruct (Nat.eqb_spec x y); auto.
  destruct H as [H|[H|H]]; try discriminate. contradiction.
Qed.

Lemma nth_rev_last (l : list nat) k : (k < length l)%nat -> nth (length l - k - 1) l 0%nat = nth k (rev l) 0%nat.
Proof. intros H. rewrite rev_nth by auto. f_equal. lia. Qed.
Lemma skipn_cons_nth (l : list nat) k : (k < length l)%nat -> skipn k l = nth k l 0%nat :: skipn (S k) l.
Proof. revert k. induction l as [|x l IH]; intros [|k] H; cbn in *; try lia; auto. rewrite IH by lia. reflexivity. Qed.
Lemma common_tail_lcp iv fx n : forall k acc, (k + n <= length iv)%nat -> (k + n + 1 <= length fx)%nat ->
  common_tail iv fx k n acc = acc ++ lcp (firstn n (skipn k (rev iv))) (firstn n (skipn (S k) (rev fx))).
Proof.
  induction n as [|n IH]; intros k acc H1 H2; cbn [common_tail]; [cbn; rewrite app_nil_r; reflexivity|].
  rewrite (skipn_cons_nth (rev iv) k), (skipn_cons_nth (rev fx) (S k)) by (rewrite rev_length; lia).
  rewrite <- nth_rev_last by lia. rewrite <- (nth_rev_last fx (S k)) by lia.
  replace (length fx - S k - 1)%nat with (length fx - k - 2)%nat by lia. cbn [firstn lcp].
  rewrite Nat.eqb_sym. destruct (_ =? _)%nat; cbn [negb]; [|rewrite app_nil_r; reflexivity].
  rewrite IH by lia. rewrite <- app_assoc. reflexivity.
Qed.
Lemma lcp_firstn a b n : (n = Nat.min (length a) (length b))%nat -> lcp (firstn n a) (firstn n b) = lcp a b.
Proof.
  revert b n. induction a as [|x a IH]; intros [|y b] n ->; cbn; auto.
  destruct (x =? y)%nat; auto. f_equal. apply IH. reflexivity.
Qed.
Lemma rev_tl (l : list nat) x : rev (x :: l) = rev l ++ [x]. Proof. reflexivity. Qed.

(** The inferred shape of the set of intervals. *)
Definition common_suffix (a b : list nat) : list nat := rev (lcp (rev a) (rev b)).
Lemma common_tail_suffix h iv fx n :
  rev (common_tail (h :: iv) (fx ++ [n]) 0 (Nat.min (length (h :: iv) - 1) (length (fx ++ [n]) - 1)) []) = common_suffix iv fx.
Proof.
  rewrite common_tail_lcp by (cbn; rewrite app_length; cbn; lia). cbn [app]. unfold common_suffix. f_equal.
  rewrite rev_app_distr. cbn [rev app skipn]. rewrite app_length. cbn [length].
  replace (length iv + 1 - 0)%nat with (S (length iv)) by lia.
  transitivity (lcp (firstn (Nat.min (length (rev iv)) (length (rev fx))) (rev iv)) (firstn (Nat.min (length (rev iv)) (length (rev fx))) (rev fx))).
  - rewrite !rev_length. replace (Nat.min (S (length iv) - 1) (length fx + 1 - 1)) with (Nat.min (length iv) (length fx)) by lia.
    f_equal. rewrite firstn_app. replace (_ - length (rev iv))%nat with 0%nat by (rewrite rev_length; lia). cbn. rewrite app_nil_r. reflexivity.
  - apply lcp_firstn. reflexivity.
Qed.
Lemma common_suffix_split a b : exists a' b', a = a' ++ common_suffix a b /\ b = b' ++ common_suffix a b /\ tails_differ a' b'.
Proof.
  unfold common_suffix. destruct (lcp_split (rev a) (rev b)) as [a' [b' [E1 [E2 H]]]].
  exists (rev a'), (rev b'). rewrite <- !rev_app_distr, <- E1, <- E2, !rev_involutive. repeat split; auto.
  unfold tails_differ. destruct a' as [|x a']; auto. destruct b' as [|y b']; auto. right. right.
  cbn [rev]. rewrite !last_last. destruct H as [H|[H|H]]; try discriminate. exact H.
Qed.
Lemma common_suffix_exact a' b' c : tails_differ a' b' -> common_suffix (a' ++ c) (b' ++ c) = c.
Proof.
  intros H. unfold common_suffix. rewrite !rev_app_distr, lcp_exact; [apply rev_involutive|].
  destruct H as [-> |[-> |H]]; auto. destruct (rev a') as [|x l] eqn:E; auto. destruct (rev b') as [|y m] eqn:F; auto.
  right. right. cbn. apply (f_equal (@rev nat)) in E, F. rewrite rev_involutive in E, F. subst. cbn [rev] in H. rewrite !last_last in H. exact H.
Qed.
Lemma common_suffix_max a' b' c : exists e, common_suffix (a' ++ c) (b' ++ c) = e ++ c.
Proof.
  unfold common_suffix. rewrite !rev_app_distr. destruct (lcp_max _ _ (rev c) (rev a') (rev b') eq_refl eq_refl) as [e ->].
  exists (rev e). rewrite rev_app_distr, rev_involutive. reflexivity.
Qed.

(* --- slices *)
Lemma slice_until_app a b : slice_until (length b) (a ++ b) = a.
Proof. unfold slice_until. rewrite app_length, firstn_app, Nat.add_sub, Nat.sub_diag, firstn_all. cbn. apply app_nil_r. Qed.
Lemma slice_between_app (x a b : shape) : slice_between (length x) (length b) (x ++ a ++ b) = a.
Proof.
  unfold slice_between. assert (E := slice_until_app (x ++ a) b). unfold slice_until in E. rewrite <- app_assoc in E. rewrite E.
  rewrite skipn_app, skipn_all, Nat.sub_diag. reflexivity.
Qed.
Lemma slice_from_app (a b : shape) : slice_from (length a) (a ++ b) = b.
Proof. unfold slice_from. rewrite skipn_app, skipn_all, Nat.sub_diag. reflexivity. Qed.

(* --- find_shapes *)
Lemma find_shapes_sound fx iv x dom rng ds rs ss : find_shapes fx iv x dom rng = Some (ds, rs, ss) ->
  length x = 1%nat /\ fits fx iv x ds rs ss /\ (forall d, dom = Some d -> ds = d) /\ (forall r, rng = Some r -> rs = r).
Proof.
  unfold find_shapes. destruct (Nat.eqb_spec (length x) 1) as [L|]; cbn [negb]; [|discriminate]. intros H. split; auto.
  destruct dom as [d|], rng as [r|]; cbv zeta in H;
    match type of H with context [shape_eqb iv ?u] => destruct (shape_eqb iv u) eqn:E1; cbn [negb] in H; [|discriminate] end;
    match type of H with context [shape_eqb fx ?u] => destruct (shape_eqb fx u) eqn:E2; cbn [negb] in H; [|discriminate] end;
    apply shape_eqb_true in E1, E2; injection H as <- <- <-; (split; [split; auto|]); split; congruence.
Qed.
Lemma fits_end fx iv x ds rs ss : length x = 1%nat -> fits fx iv x ds rs ss -> exists n, x = [n] /\ fx = (rs ++ ss) ++ [n].
Proof. intros L [_ ->]. destruct x as [|n [|]]; cbn in L; try lia. exists n. rewrite app_assoc. auto. Qed.
Lemma domain_slice h (ds ss : shape) : (if (length ss =? 0)%nat then slice_from 1 (h :: ds ++ ss) else slice_between 1 (length ss) (h :: ds ++ ss)) = ds.
Proof.
  destruct ss as [|m ss]; [cbn; apply app_nil_r|]. cbn [length Nat.eqb].
  apply (slice_between_app [h] ds (m :: ss)).
Qed.
Lemma range_slice (rs ss : shape) n : slice_until (length ss + 1) (rs ++ ss ++ [n]) = rs.
Proof. replace (length ss + 1)%nat with (length (ss ++ [n])) by (rewrite app_length; reflexivity). apply slice_until_app. Qed.

Lemma find_shapes_given fx iv x ds rs ss dom rng : length x = 1%nat -> fits fx iv x ds rs ss ->
  (dom = Some ds /\ (rng = None \/ rng = Some rs) \/ dom = None /\ rng = Some rs) -> find_shapes fx iv x dom rng = Some (ds, rs, ss).
Proof.
  intros L F H. assert (G := F). destruct (fits_end _ _ _ _ _ _ L F) as [n [-> E]]. destruct F as [-> ->]. unfold find_shapes. cbn [length Nat.eqb negb].
  assert (A : slice_from (1 + length ds) (2%nat :: ds ++ ss) = ss) by (cbn; apply slice_from_app).
  destruct H as [[-> [-> | ->]]|[-> ->]]; cbv zeta.
  - rewrite A, range_slice, !shape_eqb_refl. reflexivity.
  - rewrite A, !shape_eqb_refl. reflexivity.
  - assert (B := slice_between_app rs ss [n]). cbn [length] in B. rewrite B, domain_slice, !shape_eqb_refl. reflexivity.
Qed.
Lemma find_shapes_inferred fx iv x ds rs ss : length x = 1%nat -> fits fx iv x ds rs ss ->
  exists ds' rs' e, find_shapes fx iv x None None = Some (ds', rs', e ++ ss) /\ ds = ds' ++ e /\ rs = rs' ++ e /\ tails_differ ds' rs'.
Proof.
  intros L F. destruct (fits_end _ _ _ _ _ _ L F) as [n [-> E]]. destruct F as [-> ->]. unfold find_shapes. cbn [length Nat.eqb negb]. cbv zeta.
  rewrite app_assoc. change (S (length (ds ++ ss))) with (length (2%nat :: ds ++ ss)). rewrite common_tail_suffix.
  destruct (common_suffix_max ds rs ss) as [e Ee]. destruct (common_suffix_split (ds ++ ss) (rs ++ ss)) as [ds' [rs' [E1 [E2 T]]]].
  rewrite Ee in *. exists ds', rs', e. rewrite E1, domain_slice, E2, <- app_assoc, range_slice, !shape_eqb_refl. cbn [negb].
  split; [reflexivity|]. rewrite !app_assoc in E1, E2. apply app_inv_tail in E1, E2. auto.
Qed.
Lemma fits_shapes_unique fx iv x ds rs ss ds' rs' ss' : fits fx iv x ds rs ss -> fits fx iv x ds' rs' ss' ->
  tails_differ ds rs -> tails_differ ds' rs' -> ds = ds' /\ rs = rs' /\ ss = ss'.
Proof.
  intros [-> ->] [E1 E2] T T'. injection E1 as E1. rewrite !app_assoc in E2. apply app_inv_tail in E2.
  assert (A := common_suffix_exact ds rs ss T). rewrite E1, E2, common_suffix_exact in A by auto. subst ss'.
  apply app_inv_tail in E1, E2. auto.
Qed.
Lemma find_shapes_none fx iv x dom rng : length x = 1%nat -> (find_shapes fx iv x dom rng = None <->
  ~ exists ds rs ss, fits fx iv x ds rs ss /\ (forall d, dom = Some d -> ds = d) /\ (forall r, rng = Some r -> rs = r)).
Proof.
  intros L. split.
  - intros H [ds [rs [ss [F [Hd Hr]]]]]. destruct dom as [d|].
    + specialize (Hd d eq_refl). subst d. destruct rng as [r|]; [specialize (Hr r eq_refl); subst r|];
        rewrite (find_shapes_given _ _ _ _ _ _ _ _ L F) in H; try discriminate; auto.
    + destruct rng as [r|]; [specialize (Hr r eq_refl); subst r; rewrite (find_shapes_given _ _ _ _ _ _ _ _ L F) in H; try discriminate; auto|].
      destruct (find_shapes_inferred _ _ _ _ _ _ L F) as [a [b [c [E _]]]]. congruence.
  - intros H. destruct (find_shapes fx iv x dom rng) as [[[ds rs] ss]|] eqn:E; auto. exfalso. apply H.
    exists ds, rs, ss. apply find_shapes_sound in E. tauto.
Qed.

(* --- multi-indices *)
Lemma in_indices s i : In i (indices s) <-> within i s.
Proof.
  unfold within. revert i. induction s as [|m s IH]; intros i; cbn [indices].
  - split; [intros [<-|[]]; constructor|intros H; inversion H; cbn; auto].
  - rewrite in_flat_map. split.
    + intros [k [Hk Hi]]. apply in_seq in Hk. apply in_map_iff in Hi. destruct Hi as [j [<- Hj]]. constructor; [lia|]. apply IH, Hj.
    + intros H. inversion H as [|k m' j s' Hk Hj]; subst. exists k. split; [apply in_seq; lia|]. apply in_map, IH, Hj.
Qed.
Lemma indices_nodup s : NoDup (indices s).
Proof.
  induction s as [|m s IH]; cbn [indices]; [repeat constructor; auto|].
  assert (G : forall n a, NoDup (flat_map (fun k => map (cons k) (indices s)) (seq a n))).
  { induction n as [|n IHn]; intros a; cbn; [constructor|].
    assert (A : NoDup (map (cons a) (indices s))) by (apply FinFun.Injective_map_NoDup; auto; intros u v; congruence).
    assert (B := IHn (S a)).
    assert (D : forall i, In i (map (cons a) (indices s)) -> ~ In i (flat_map (fun k => map (cons k) (indices s)) (seq (S a) n))).
    { intros i Hi Hj. apply in_map_iff in Hi. destruct Hi as [u [<- _]]. apply in_flat_map in Hj. destruct Hj as [k [Hk Hj]].
      apply in_seq in Hk. apply in_map_iff in Hj. destruct Hj as [v [E _]]. injection E as E. lia. }
    revert A D. generalize (map (cons a) (indices s)). intros l. induction l as [|i l IHl]; intros A D; cbn; auto.
    inversion A; subst. constructor.
    - rewrite in_app_iff. intros [H|H]; auto. apply (D i); cbn; auto.
    - apply IHl; auto. intros j Hj. apply D. cbn; auto. }
  apply G.
Qed.
Lemma within_length i s : within i s -> length i = length s.
Proof. unfold within. induction 1; cbn; congruence. Qed.

(* --- integrate *)
Lemma c1_integrate_nd_value points weights f iv ds rs ss F dom rng :
  length points = length weights -> nd_shape iv = 2%nat :: ds ++ ss -> evaluates ds rs ss (length points) F f ->
  (dom = Some ds /\ (rng = None \/ rng = Some rs) \/ dom = None /\ rng = Some rs \/ dom = None /\ rng = None /\ tails_differ ds rs) ->
  exists out, c1_integrate_nd points weights f iv dom rng = Some out /\ nd_shape out = rs ++ ss /\
  forall r s, within r rs -> within s ss ->
    let a := fun d => nd_at iv (0%nat :: d ++ s) in let b := fun d => nd_at iv (1%nat :: d ++ s) in
    nd_at out (r ++ s) = distance ds a b / 2 * Rsum (map (fun wt => fst wt * F (on_segment a b (snd wt)) r) (combine weights points)).
Proof.
  intros L Hiv [Fext Hf] Hg. unfold c1_integrate_nd. unfold nd_item. rewrite Hiv. cbn [Nat.ltb Nat.leb].
  cbn [bind]. unfold nd_zip, nd_outer. cbn [nd_shape nd_at]. rewrite !map_length, !shape_eqb_refl. cbn [bind].
  set (x := mk_nd _ _).
  assert (Hx : nd_shape x = ds ++ ss ++ [length points]) by (subst x; cbn [nd_shape]; rewrite <- app_assoc; reflexivity).
  destruct (Hf x Hx) as [Sfx Vfx]. 
  assert (Fs : find_shapes (nd_shape (f x)) (2%nat :: ds ++ ss) [length points] dom rng = Some (ds, rs, ss)).
  { assert (G : fits (nd_shape (f x)) (2%nat :: ds ++ ss) [length points] ds rs ss) by (split; auto).
    destruct Hg as [Hg|[Hg|[-> [-> T]]]]; [apply find_shapes_given; auto|apply find_shapes_given; auto|].
    destruct (find_shapes_inferred _ _ [length points] _ _ _ eq_refl G) as [ds' [rs' [e [E [E1 [E2 T']]]]]]. etransitivity; [exact E|].
    destruct (find_shapes_sound _ _ _ _ _ _ _ _ E) as [_ [G' _]].
    destruct (fits_shapes_unique _ _ _ _ _ _ _ _ _ G G' T T') as [A [B C]]. rewrite <- C, <- A, <- B; reflexivity. }
  rewrite Fs. cbn [bind]. unfold nd_dot. rewrite Sfx. destruct (rs ++ ss ++ [length points]) as [|z l] eqn:E; [destruct rs; [destruct ss|]; discriminate|].
  rewrite <- E. rewrite app_assoc, last_last, removelast_last, L, Nat.eqb_refl. cbn [bind].
  unfold nd_mul_tail. cbn [nd_shape nd_at nd_map nd_sum_axes].
  assert (Sk : skipn (length ds) (ds ++ ss) = ss) by (rewrite skipn_app, skipn_all, Nat.sub_diag; reflexivity).
  rewrite Sk. rewrite app_length, Nat.add_sub. rewrite skipn_app, skipn_all, Nat.sub_diag. cbn [app skipn]. rewrite shape_eqb_refl.
  eexists. split; [reflexivity|]. cbn [nd_shape nd_at]. split; [reflexivity|]. intros r s Hr Hs. set (a := fun d => nd_at iv (0%nat :: d ++ s)). set (b := fun d => nd_at iv (1%nat :: d ++ s)).
  rewrite <- (within_length r rs Hr), skipn_app, skipn_all, Nat.sub_diag. cbn [app skipn].
  assert (Fi : firstn (length ds) (ds ++ ss) = ds) by (rewrite firstn_app, firstn_all, Nat.sub_diag; cbn; apply app_nil_r).
  rewrite Fi. unfold distance. 
  replace (Rsum (map (fun wt => fst wt * F (on_segment a b (snd wt)) r) (combine weights points)))
    with (Rsum (map (fun k => nd_at (f x) ((r ++ s) ++ [k]) * nth k weights 0) (seq 0 (length weights)))); [unfold a, b; lra|].
  assert (Ec : combine weights points = map (fun k => (nth k weights 0, nth k points 0)) (seq 0 (length weights))).
  { clear - L. revert points L. induction weights as [|w ws IH]; intros [|p ps] L; cbn in *; try lia; auto.
    f_equal. rewrite (IH ps) by lia. rewrite <- seq_shift, map_map. reflexivity. }
  rewrite Ec, map_map. f_equal. apply map_ext_in. intros k Hk. apply in_seq in Hk. cbn [fst snd].
  rewrite <- app_assoc. rewrite Vfx by (auto; lia). rewrite Rmult_comm. f_equal. apply Fext. intros d Hd.
  subst x. cbn [nd_at]. rewrite app_assoc, removelast_last, last_last.
  assert (N : forall g : R -> R, nth k (map g points) 0 = g (nth k points 0)).
  { intros g. rewrite (nth_indep _ 0 (g 0)) by (rewrite map_length; lia). apply map_nth. }
  rewrite !N.
  unfold on_segment, a, b. lra.
Qed.
