(** Gauss rules for integrals over the half line and the line: error bound from a Taylor polynomial. *)
From Coq Require Import Reals List Arith ZArith Lia Lra.
From Coquelicot Require Import Coquelicot.
From Verif Require Import Spec Spec1 RsumLemmas AdaptModel PyBase UnModel C1Tools Interp C1Model C1Proofs GwSpec GwProofs GwModel WeightSpec GwInt GwInt2 GwBound OrderProofs LineModel.
Import ListNotations.
Set Bullet Behavior "Strict Subproofs".
Open Scope R_scope.

Lemma e1_integrate_apply q f : e1_integrate q f = [apply1 q f].
Proof.
  unfold e1_integrate, apply1. cbn [map]. f_equal. induction q as [|[w x] q IH]; [reflexivity|]. cbn [map combine fst snd Rsum]. rewrite IH. ring.
Qed.

(* ------------------------------------------------------------------ dominated integrals *)
Section Dom.
Context (Fa Fb : (R -> Prop) -> Prop) (PFa : ProperFilter Fa) (PFb : ProperFilter Fb).
Context (D : R -> Prop) (Da : Fa D) (Db : Fb D) (Dc : forall x y z, D x -> D y -> x <= z <= y -> D z).

Lemma ex_D (f : R -> R) : (forall x, D x -> continuous f x) -> forall p q, D p -> D q -> ex_RInt f p q.
Proof. intros C p q Dp Dq. apply (ex_RInt_continuous (V := R_CompleteNormedModule)). intros z Hz. apply C. apply (D_between D Dc p q); auto. Qed.
Lemma abs_D (f g : R -> R) : (forall x, D x -> continuous f x) -> (forall x, D x -> continuous g x) -> (forall x, D x -> Rabs (f x) <= g x) ->
  forall p q, D p -> D q -> Rabs (RInt f p q) <= Rabs (RInt g p q).
Proof.
  intros Cf Cg H.
  assert (L : forall p q, D p -> D q -> p <= q -> Rabs (RInt f p q) <= RInt g p q).
  { intros p q Dp Dq Hpq. apply (norm_RInt_le (V := R_NormedModule) f g p q); auto.
    - intros x Hx. apply H. apply (Dc p q); auto.
    - apply (RInt_correct (V := R_CompleteNormedModule)). apply ex_D; auto.
    - apply (RInt_correct (V := R_CompleteNormedModule)). apply ex_D; auto. }
  intros p q Dp Dq. destruct (Rle_dec p q) as [Hpq|Hpq].
  - eapply Rle_trans; [apply L; auto|]. apply Rle_abs.
  - rewrite <- (opp_RInt_swap (V := R_CompleteNormedModule) f q p) by (apply ex_D; auto).
    rewrite <- (opp_RInt_swap (V := R_CompleteNormedModule) g q p) by (apply ex_D; auto).
    change (Rabs (- RInt f q p) <= Rabs (- RInt g q p)). rewrite !Rabs_Ropp. eapply Rle_trans; [apply L; auto; lra|]. apply Rle_abs.
Qed.
Lemma gen_dom (f g : R -> R) (lg : R) : (forall x, D x -> continuous f x) -> (forall x, D x -> continuous g x) -> (forall x, D x -> Rabs (f x) <= g x) ->
  is_RInt_gen g Fa Fb lg -> exists lf : R, is_RInt_gen f Fa Fb lf.
Proof.
  intros Cf Cg H Hg.
  assert (X : exists y, filterlim (fun ab => RInt f (fst ab) (snd ab)) (filter_prod Fa Fb) (locally y)).
  { apply (filterlim_locally_cauchy (U := R_CompleteNormedModule)). intros eps.
    assert (E4 : 0 < eps / 4) by (assert (Q := cond_pos eps); lra).
    assert (HL : locally lg (fun y => Rabs (y - lg) < eps / 4)) by (exists (mkposreal _ E4); intros y Hy; exact Hy).
    specialize (Hg _ HL). unfold filtermapi in Hg. destruct Hg as [A B FA FB HAB].
    assert (Near : forall a b, A a -> B b -> Rabs (RInt g a b - lg) < eps / 4).
    { intros a b Ha Hb. destruct (HAB a b Ha Hb) as [I [HI HC]]. cbn [fst snd] in HI. apply (is_RInt_unique (V := R_CompleteNormedModule)) in HI. rewrite HI. exact HC. }
    exists (fun ab => (A (fst ab) /\ D (fst ab)) /\ (B (snd ab) /\ D (snd ab))). split.
    - apply (Filter_prod _ _ _ (fun a => A a /\ D a) (fun b => B b /\ D b)); [apply filter_and; auto|apply filter_and; auto|]. intros a b Ha Hb. cbn. auto.
    - intros [a b] [a' b'] [[Aa Da'] [Bb Db']] [[Aa2 Da2] [Bb2 Db2]]. cbn [fst snd] in *.
      change (Rabs (RInt f a' b' - RInt f a b) < eps).
      assert (Ch : forall (h : R -> R), (forall x, D x -> continuous h x) -> forall p q r, D p -> D q -> D r -> RInt h p q + RInt h q r = RInt h p r).
      { intros h Ch p q r Dp Dq Dr. apply (RInt_Chasles (V := R_CompleteNormedModule) h p q r); apply ex_D; auto. }
      assert (E1 := Ch f Cf a a' b Da' Da2 Db'). assert (E2 := Ch f Cf a' b b' Da2 Db' Db2).
      assert (G1 := Ch g Cg a a' b Da' Da2 Db'). assert (G2 := Ch g Cg a' b b' Da2 Db' Db2).
      assert (N1 := Near a b Aa Bb). assert (N2 := Near a' b Aa2 Bb). assert (N3 := Near a' b' Aa2 Bb2).
      assert (A1 := abs_D f g Cf Cg H a a' Da' Da2). assert (A2 := abs_D f g Cf Cg H b b' Db' Db2).
      replace (RInt f a' b' - RInt f a b) with (RInt f b b' - RInt f a a') by lra.
      assert (B1 : Rabs (RInt g a a') < eps / 2).
      { replace (RInt g a a') with ((RInt g a b - lg) - (RInt g a' b - lg)) by lra. eapply Rle_lt_trans; [apply Rabs_triang|]. rewrite Rabs_Ropp. lra. }
      assert (B2 : Rabs (RInt g b b') < eps / 2).
      { replace (RInt g b b') with ((RInt g a' b' - lg) - (RInt g a' b - lg)) by lra. eapply Rle_lt_trans; [apply Rabs_triang|]. rewrite Rabs_Ropp. lra. }
      eapply Rle_lt_trans; [apply Rabs_triang|]. rewrite Rabs_Ropp. lra. }
  destruct X as [y Hy]. exists y. unfold is_RInt_gen. apply (filterlimi_lim_ext_loc (fun ab => RInt f (fst ab) (snd ab))); [|exact Hy].
  apply (Filter_prod _ _ _ D D Da Db). intros a b Ha Hb. cbn [fst snd]. apply (RInt_correct (V := R_CompleteNormedModule)). apply ex_D; auto.
Qed.

(** A rule that integrates a polynomial [p] and x^k, with |f - p| <= B x^k wherever f is looked at. *)
Lemma gen_error (Hab : filter_prod Fa Fb (fun ab => fst ab <= snd ab)) (w f : R -> R) p k B q (mu : R) :
  (forall x, D x -> 0 <= w x) -> (forall x, D x -> continuous w x) -> (forall x, D x -> continuous f x) -> 0 <= B ->
  List.Forall (fun wx => 0 <= fst wx) q -> (forall x, D x \/ In x (map snd q) -> Rabs (f x - peval p x) <= B * x ^ k) ->
  is_RInt_gen (fun x => w x * peval p x) Fa Fb (apply1 q (peval p)) -> is_RInt_gen (fun x => w x * x ^ k) Fa Fb mu -> apply1 q (fun x => x ^ k) = mu ->
  exists I : R, is_RInt_gen (fun x => w x * f x) Fa Fb I /\ Rabs (apply1 q f - I) <= 2 * B * mu.
Proof.
  intros Hw Cw Cf HB Hq HT Hp Hk Ek.
  assert (Hg := gen_scal _ _ _ _ _ B _ Hk).
  set (g := fun x => B * (w x * x ^ k)) in *. set (e := fun x => w x * (f x - peval p x)).
  assert (Ck : forall x, continuous (fun y => y ^ k) x) by (intros x; apply (ex_derive_continuous (V := R_NormedModule)); auto_derive; auto).
  assert (Cg : forall x, D x -> continuous g x).
  { intros x Hx. apply (continuous_scal_r (K := R_AbsRing) (V := R_NormedModule)). apply (continuous_mult (K := R_AbsRing) w (fun y => y ^ k)); auto. }
  assert (Ce : forall x, D x -> continuous e x).
  { intros x Hx. apply (continuous_mult (K := R_AbsRing) w (fun y => f y - peval p y)); auto. apply (continuous_minus (V := R_NormedModule) f (peval p)); auto. apply peval_continuous. }
  assert (He : forall x, D x -> Rabs (e x) <= g x).
  { intros x Hx. unfold e, g. rewrite Rabs_mult, (Rabs_pos_eq (w x)) by auto. replace (B * (w x * x ^ k)) with (w x * (B * x ^ k)) by ring. apply Rmult_le_compat_l; auto. }
  destruct (gen_dom e g (B * mu) Ce Cg He Hg) as [J HJ].
  exists (1 * J + 1 * apply1 q (peval p)). split.
  - assert (S := gen_lin _ _ _ _ _ _ 1 1 _ _ HJ Hp). eapply (gen_ext _ _ _ _ D Da Db Dc); [|exact S]. intros x Hx. unfold e. cbn beta. ring.
  - assert (NJ : Rabs J <= B * mu).
    { apply (RInt_gen_norm (V := R_CompleteNormedModule) (Fa := Fa) (Fb := Fb) e g J (B * mu) Hab); auto.
      apply (Filter_prod _ _ _ D D Da Db). intros a b Ha Hb x Hx. cbn [fst snd] in Hx. apply He. apply (Dc a b); auto. }
    assert (NQ : Rabs (apply1 q f - apply1 q (peval p)) <= B * mu).
    { rewrite <- Ek. clear - Hq HT. assert (HT' : forall x, In x (map snd q) -> Rabs (f x - peval p x) <= B * x ^ k) by auto. clear HT. unfold apply1.
      induction q as [|[c x] q IH]; [cbn; rewrite Rminus_0_r, Rabs_R0; lra|]. inversion_clear Hq. cbn [map Rsum fst snd] in *.
      specialize (IH ltac:(auto) ltac:(intros; apply HT'; right; auto)). specialize (HT' x ltac:(left; auto)).
      replace (c * f x + Rsum (map (fun wx => fst wx * f (snd wx)) q) - (c * peval p x + Rsum (map (fun wx => fst wx * peval p (snd wx)) q)))
        with (c * (f x - peval p x) + (Rsum (map (fun wx => fst wx * f (snd wx)) q) - Rsum (map (fun wx => fst wx * peval p (snd wx)) q))) by ring.
      eapply Rle_trans; [apply Rabs_triang|]. rewrite Rabs_mult, (Rabs_pos_eq c) by auto.
      assert (c * Rabs (f x - peval p x) <= c * (B * x ^ k)) by (apply Rmult_le_compat_l; auto). lra. }
    replace (apply1 q f - (1 * J + 1 * apply1 q (peval p))) with ((apply1 q f - apply1 q (peval p)) - J) by ring.
    eapply Rle_trans; [apply Rabs_triang|]. rewrite Rabs_Ropp. lra.
Qed.
End Dom.

Lemma gen_unique Fa Fb (PFa : ProperFilter' Fa) (PFb : ProperFilter' Fb) (f : R -> R) (l l' : R) : is_RInt_gen f Fa Fb l -> is_RInt_gen f Fa Fb l' -> l = l'.
Proof. intros H H'. exact (eq_trans (eq_sym (is_RInt_gen_unique (V := R_CompleteNormedModule) f l H)) (is_RInt_gen_unique (V := R_CompleteNormedModule) f l' H')). Qed.

(* ------------------------------------------------------------------ the Taylor polynomial at 0 *)
Definition tc (f : R -> R) (k : nat) : list R := map (fun i => Derive_n f i 0 / INR (fact i)) (seq 0 k).
Lemma tc_length f k : length (tc f k) = k. Proof. unfold tc. rewrite map_length, seq_length. auto. Qed.
Lemma tay_Rsum k a : tay k a 1 = Rsum (map (fun i => a i / INR (fact i)) (seq 0 k)).
Proof. induction k as [|k IH]; [reflexivity|]. rewrite seq_S, map_app, Rsum_app, <- IH. cbn [tay map Rsum]. rewrite pow1, Nat.add_0_l. unfold Rdiv. ring. Qed.
Lemma tc_eval f k x : peval (tc f k) x = tay k (fun i => x ^ i * Derive_n f i (0 * x)) 1.
Proof.
  rewrite tay_Rsum, peval_nth, tc_length. apply Rsum_map_ext. intros i Hi. apply in_seq in Hi. unfold tc.
  rewrite (nth_indep _ 0 ((fun i => Derive_n f i 0 / INR (fact i)) 0%nat)) by (rewrite map_length, seq_length; lia).
  rewrite (map_nth (fun i => Derive_n f i 0 / INR (fact i))), seq_nth by lia. rewrite Nat.add_0_l, Rmult_0_l. unfold Rdiv. ring.
Qed.
Lemma taylor_0 (f : R -> R) k M x : 0 <= M -> (forall j t, (j <= k)%nat -> 0 <= t <= 1 -> ex_derive_n f j (t * x)) -> (forall t, 0 <= t <= 1 -> Rabs (Derive_n f k (t * x)) <= M) ->
  Rabs (f x - peval (tc f k) x) <= M / INR (fact k) * Rabs x ^ k.
Proof.
  intros HM HE HB. rewrite tc_eval.
  assert (T := taylor_bound k (fun i t => x ^ i * Derive_n f i (t * x)) (M * Rabs x ^ k)).
  assert (P : 0 <= M * Rabs x ^ k) by (apply Rmult_le_pos; auto; apply pow_le, Rabs_pos).
  specialize (T P).
  assert (T1 : forall i t, (i < k)%nat -> 0 <= t <= 1 -> is_derive (fun t => x ^ i * Derive_n f i (t * x)) t (x ^ S i * Derive_n f (S i) (t * x))).
  { intros i t Hi Ht. replace (x ^ S i * Derive_n f (S i) (t * x)) with (x ^ i * (x * Derive_n f (S i) (t * x))) by (cbn; ring). apply is_derive_scal.
    apply (is_derive_comp (V := R_NormedModule) (Derive_n f i) (fun t => t * x) t).
    - apply Derive_correct. apply (HE (S i) t); auto.
    - auto_derive; auto. ring. }
  specialize (T T1).
  assert (T2 : forall t, 0 <= t <= 1 -> Rabs (x ^ k * Derive_n f k (t * x)) <= M * Rabs x ^ k).
  { intros t Ht. rewrite Rabs_mult, <- RPow_abs, (Rmult_comm M). apply Rmult_le_compat_l; [apply pow_le, Rabs_pos|auto]. }
  specialize (T T2 1 ltac:(lra)). cbn beta in T. rewrite pow1 in T. cbn [Derive_n pow] in T. rewrite !Rmult_1_l in T.
  eapply Rle_trans; [exact T|]. right. unfold Rdiv. ring.
Qed.

(* ------------------------------------------------------------------ the whole line *)
Lemma mono_eval k x : peval (repeat 0 k ++ [1]) x = x ^ k.
Proof. induction k as [|j IH]; [cbn; ring|]. cbn [repeat app peval]. rewrite IH. cbn. ring. Qed.
Lemma h_ab : filter_prod (Rbar_locally m_infty) (Rbar_locally p_infty) (fun ab => fst ab <= snd ab).
Proof. apply (Filter_prod _ _ _ (fun x => x < 0) (fun x => 0 < x)); [exists 0; auto|exists 0; auto|]. intros; cbn; lra. Qed.
Lemma l_ab : filter_prod (at_right 0) (Rbar_locally p_infty) (fun ab => fst ab <= snd ab).
Proof.
  apply (Filter_prod _ _ _ (fun x => x < 1) (fun x => 1 < x)); [|exists 1; auto|intros; cbn; lra].
  exists (mkposreal 1 Rlt_0_1). intros y Hy _. change (Rabs (y - 0) < 1) in Hy. apply Rabs_def2 in Hy. lra.
Qed.
Lemma hnu_even_fact m : hnu (2 * m) / INR (fact (2 * m)) = sqrt PI / (4 ^ m * INR (fact m)).
Proof.
  induction m as [|m IH]; [cbn; unfold hnu; cbn; field|].
  replace (2 * S m)%nat with (S (S (2 * m))) by lia. rewrite hnu_SS, (fact_simpl (S (2 * m))), (fact_simpl (2 * m)), (fact_simpl m), (mult_INR (S (S (2 * m)))), (mult_INR (S (2 * m))), (mult_INR (S m)). cbn [pow].
  assert (A := pos_INR m). assert (F := INR_fact_lt_0 m). assert (F2 := INR_fact_lt_0 (2 * m)). assert (P4 : 0 < 4 ^ m) by (apply pow_lt; lra).
  replace ((INR (2 * m) + 1) / 2 * hnu (2 * m) / (INR (S (S (2 * m))) * (INR (S (2 * m)) * INR (fact (2 * m)))))
    with ((INR (2 * m) + 1) / 2 / (INR (S (S (2 * m))) * INR (S (2 * m))) * (hnu (2 * m) / INR (fact (2 * m)))).
  - rewrite IH, !S_INR, mult_INR. change (INR 2) with (1 + 1). field. repeat split; lra.
  - rewrite !S_INR, mult_INR. change (INR 2) with (1 + 1). field. repeat split; lra.
Qed.
Lemma hermite_error q n f m M : List.Forall (fun wx => 0 <= fst wx) q -> (forall c, (length c <= 2 * n)%nat -> hermite_int (peval c) (apply1 q (peval c))) ->
  (1 <= m < n)%nat -> 0 <= M -> (forall j x, (j <= 2 * m)%nat -> ex_derive_n f j x) -> (forall x, Rabs (Derive_n f (2 * m) x) <= M) ->
  exists I, hermite_int f I /\ Rabs (apply1 q f - I) <= 2 * sqrt PI * M / (4 ^ m * INR (fact m)).
Proof.
  intros Hq HX Hm HM HE HB.
  assert (F := INR_fact_lt_0 (2 * m)).
  assert (B0 : 0 <= M / INR (fact (2 * m))) by (apply Rmult_le_pos; auto; left; apply Rinv_0_lt_compat; auto).
  assert (Mk := proj1 (hnu_int (2 * m))).
  assert (Ek : apply1 q (fun x => x ^ (2 * m)) = hnu (2 * m)).
  { set (c := repeat 0 (2 * m) ++ [1]). assert (Lc : length c = S (2 * m)) by (unfold c; rewrite app_length, repeat_length; cbn; lia).
    assert (Ev : forall x, peval c x = x ^ (2 * m)) by (intros; apply mono_eval).
    specialize (HX c ltac:(lia)). rewrite (apply1_ext' q _ _ Ev) in HX. unfold hermite_int in *. 
    assert (HX' : is_RInt_gen (fun x => exp (- x ^ 2) * x ^ (2 * m)) (Rbar_locally m_infty) (Rbar_locally p_infty) (apply1 q (fun x => x ^ (2 * m)))).
    { eapply h_ext; [|exact HX]. intros x. cbn beta. rewrite Ev. reflexivity. }
    apply (is_RInt_gen_unique (V := R_CompleteNormedModule)) in HX'. apply (is_RInt_gen_unique (V := R_CompleteNormedModule)) in Mk. rewrite <- HX'. exact Mk. }
  destruct (gen_error _ _ _ _ hD hDa hDb hDc h_ab (fun x => exp (- x ^ 2)) f (tc f (2 * m)) (2 * m) (M / INR (fact (2 * m))) q (hnu (2 * m))) as [I [HI HJ]]; auto.
  - intros; left; apply exp_pos.
  - intros x _. apply (ex_derive_continuous (V := R_NormedModule)). auto_derive. auto.
  - intros x _. apply (ex_derive_continuous (V := R_NormedModule)). apply (HE 1%nat x). lia.
  - intros x _. eapply Rle_trans; [apply (taylor_0 f (2 * m) M x HM); auto|]. rewrite RPow_abs, Rabs_pos_eq; [lra|]. rewrite pow_mult. apply pow_le, pow2_ge_0.
  - apply HX. rewrite tc_length. lia.
  - exists I. split; [exact HI|]. eapply Rle_trans; [exact HJ|]. right.
    replace (2 * (M / INR (fact (2 * m))) * hnu (2 * m)) with (2 * M * (hnu (2 * m) / INR (fact (2 * m)))) by (unfold Rdiv; ring). rewrite hnu_even_fact. unfold Rdiv. ring.
Qed.

(* ------------------------------------------------------------------ the half line *)
Lemma laguerre_pos_poly a c l I : (forall x, 0 < x -> 0 <= peval c x) -> (forall x, 0 < x -> ~ In x l -> 0 < peval c x) -> laguerre_int a (peval c) I -> 0 < I.
Proof.
  intros H1 H2 H. destruct (avoid l 1 2 ltac:(lra)) as [u [v [Hu [Huv [Hv Ha]]]]].
  apply (gen_pos _ _ _ _ lD lDa lDb lDc (fun x => lw a x * peval c x) u v); unfold lD; try lra.
  - exists (mkposreal 1 Rlt_0_1). intros y Hy _. change (Rabs (y - 0) < 1) in Hy. apply Rabs_def2 in Hy. lra.
  - exists 2. intros; lra.
  - intros x Hx. apply Rmult_le_pos; [left; apply lw_pos|apply H1; auto].
  - intros x Hx. apply Rmult_lt_0_compat; [apply lw_pos|apply H2; [lra|]]. intros Q. apply (Ha x Q). auto.
  - intros x Hx. apply (continuous_mult (K := R_AbsRing) (lw a) (peval c)); [apply lw_cont; auto|apply peval_continuous].
  - exact H.
Qed.
Lemma laguerre_nodes a q n : length q = n -> List.Forall (fun wx => 0 <= fst wx) q -> (forall c, (length c <= 2 * n)%nat -> laguerre_int a (peval c) (apply1 q (peval c))) ->
  List.Forall (fun wx => 0 < snd wx) q.
Proof.
  intros Ln Hq HX. apply List.Forall_forall. intros [w x] Hin. cbn [snd]. destruct (Rlt_dec 0 x) as [|Hx]; auto. exfalso.
  destruct (in_split _ _ Hin) as [q1 [q2 E]]. set (l := map snd (q1 ++ q2)). set (c := 0 :: psq l).
  assert (Lc : (length c <= 2 * n)%nat). { unfold c. cbn [length]. assert (A := psq_length l). unfold l in A. rewrite map_length, app_length in A. assert (B := f_equal (@length _) E). rewrite app_length in B. cbn [length] in B. fold l in A. lia. }
  assert (P := laguerre_pos_poly a c l (apply1 q (peval c))). 
  assert (Pos : 0 < apply1 q (peval c)).
  { apply P; [| |apply HX; exact Lc]; unfold c; intros y Hy; cbn [peval]; rewrite Rplus_0_l; [apply Rmult_le_pos; [lra|apply psq_ge]|]. intros Hn. apply Rmult_lt_0_compat; [lra|apply psq_pos; auto]. }
  assert (S : apply1 q (peval c) = w * peval c x).
  { rewrite E. unfold apply1. rewrite map_app, Rsum_app. cbn [map Rsum fst snd].
    assert (Z : forall r, (forall y, In y (map snd r) -> In y l) -> Rsum (map (fun wx => fst wx * peval c (snd wx)) r) = 0).
    { intros r Hr. apply (apply1_0 r (peval c)). intros y Hy. unfold c. cbn [peval]. rewrite psq_0 by auto. ring. }
    rewrite !Z; [ring| |]; intros y Hy; unfold l; rewrite map_app; apply in_or_app; auto. }
  rewrite S in Pos. rewrite List.Forall_forall in Hq. specialize (Hq _ Hin). cbn [fst] in Hq.
  assert (G := psq_ge l x). assert (N : w * peval c x <= 0); [|lra]. unfold c. cbn [peval]. rewrite Rplus_0_l.
  assert (0 <= w * (- x * peval (psq l) x)) by (apply Rmult_le_pos; auto; apply Rmult_le_pos; lra). lra.
Qed.
Lemma laguerre_error a q n f k M mu : length q = n -> List.Forall (fun wx => 0 <= fst wx) q -> (forall c, (length c <= 2 * n)%nat -> laguerre_int a (peval c) (apply1 q (peval c))) ->
  (1 <= k < 2 * n)%nat -> 0 <= M -> (forall j x, (j <= k)%nat -> 0 <= x -> ex_derive_n f j x) -> (forall x, 0 <= x -> Rabs (Derive_n f k x) <= M) -> laguerre_int a (fun x => x ^ k) mu ->
  exists I, laguerre_int a f I /\ Rabs (apply1 q f - I) <= 2 * M * mu / INR (fact k).
Proof.
  intros Ln Hq HX Hk HM HE HB Mk.
  assert (HN := laguerre_nodes a q n Ln Hq HX).
  assert (F := INR_fact_lt_0 k).
  assert (B0 : 0 <= M / INR (fact k)) by (apply Rmult_le_pos; auto; left; apply Rinv_0_lt_compat; auto).
  assert (Ek : apply1 q (fun x => x ^ k) = mu).
  { set (c := repeat 0 k ++ [1]). assert (Lc : length c = S k) by (unfold c; rewrite app_length, repeat_length; cbn; lia).
    assert (Ev : forall x, peval c x = x ^ k) by (intros; apply mono_eval).
    assert (HX1 := HX c ltac:(lia)). rewrite (apply1_ext' q _ _ Ev) in HX1. unfold laguerre_int in *.
    assert (HX' : is_RInt_gen (fun x => Rpower x a * exp (- x) * x ^ k) (at_right 0) (Rbar_locally p_infty) (apply1 q (fun x => x ^ k))).
    { eapply l_ext; [|exact HX1]. intros x _. cbn beta. rewrite Ev. reflexivity. }
    apply (is_RInt_gen_unique (V := R_CompleteNormedModule)) in HX'. apply (is_RInt_gen_unique (V := R_CompleteNormedModule)) in Mk. rewrite <- HX'. exact Mk. }
  destruct (gen_error _ _ _ _ lD lDa lDb lDc l_ab (lw a) f (tc f k) k (M / INR (fact k)) q mu) as [I [HI HJ]]; auto.
  - intros; left; apply lw_pos.
  - apply lw_cont.
  - intros x Hx. unfold lD in Hx. apply (ex_derive_continuous (V := R_NormedModule)). apply (HE 1%nat x); [lia|lra].
  - intros x Hx. assert (P : 0 <= x).
    { destruct Hx as [Hx|Hx]; [unfold lD in Hx; lra|]. apply in_map_iff in Hx. destruct Hx as [p [<- Hp]]. rewrite List.Forall_forall in HN. left. apply HN; auto. }
    eapply Rle_trans; [apply (taylor_0 f k M x HM)|].
    + intros j t Hj Ht. apply HE; auto. apply Rmult_le_pos; lra.
    + intros t Ht. apply HB. apply Rmult_le_pos; lra.
    + rewrite Rabs_pos_eq by auto. lra.
  - apply HX. rewrite tc_length. lia.
  - exists I. split; [exact HI|]. eapply Rle_trans; [exact HJ|]. right. unfold Rdiv. ring.
Qed.

(* ------------------------------------------------------------------ limits *)
Lemma hermite_limit c a : forall eps, 0 < eps -> exists N, forall m, (N <= m)%nat -> Rabs (c * a ^ (2 * m) / (4 ^ m * INR (fact m))) < eps.
Proof.
  intros eps He. assert (P := Rabs_pos c). destruct (cv_speed_pow_fact (a ^ 2 / 4) (eps / (Rabs c + 1))) as [N HN]; [apply Rdiv_lt_0_compat; lra|].
  exists N. intros m Hm. specialize (HN m Hm). unfold R_dist in HN. rewrite Rminus_0_r in HN.
  assert (P4 : 0 < 4 ^ m) by (apply pow_lt; lra). assert (F := INR_fact_lt_0 m).
  replace (c * a ^ (2 * m) / (4 ^ m * INR (fact m))) with (c * ((a ^ 2 / 4) ^ m / INR (fact m))).
  - rewrite Rabs_mult. set (y := Rabs (_ / _)) in *. assert (Hy : 0 <= y) by apply Rabs_pos.
    apply (Rmult_lt_compat_l (Rabs c + 1)) in HN; [|lra]. replace ((Rabs c + 1) * (eps / (Rabs c + 1))) with eps in HN by (field; lra).
    assert (Rabs c * y <= (Rabs c + 1) * y) by (apply Rmult_le_compat_r; lra). lra.
  - unfold Rdiv at 2. rewrite Rpow_mult_distr, <- pow_mult, pow_inv. field. lra.
Qed.
Lemma lnu_pos a I k : -1 < a -> 0 < I -> 0 < lnu a I k.
Proof. intros Ha HI. induction k as [|k IH]; cbn [lnu]; auto. apply Rmult_lt_0_compat; auto. assert (P := pos_INR k). lra. Qed.
Lemma laguerre_limit c a I b : -1 < a -> 0 < I -> 0 <= c -> 0 <= b < 1 -> forall eps, 0 < eps -> exists N, forall k, (N <= k)%nat -> c * b ^ k * lnu a I k / INR (fact k) < eps.
Proof.
  intros Ha HI Hc Hb eps He. set (t := fun k => c * b ^ k * lnu a I k / INR (fact k)).
  assert (T0 : forall k, 0 <= t k).
  { intros k. unfold t. apply Rmult_le_pos; [|left; apply Rinv_0_lt_compat, INR_fact_lt_0]. apply Rmult_le_pos; [apply Rmult_le_pos; [lra|apply pow_le; lra]|left; apply lnu_pos; auto]. }
  set (rho := (1 + b) / 2). assert (Hr : b < rho < 1) by (unfold rho; lra).
  assert (UB : exists K, b * Rabs a / (rho - b) <= INR K).
  { exists (Z.to_nat (up (Rabs (b * Rabs a / (rho - b))))). set (y := b * Rabs a / (rho - b)). destruct (archimed (Rabs y)) as [U _]. assert (Y := Rabs_pos y). assert (Y2 := Rle_abs y).
    rewrite INR_IZR_INZ, Z2Nat.id; [lra|]. apply le_IZR. lra. }
  destruct UB as [K HK].
  assert (Step : forall k, (K <= k)%nat -> t (S k) <= t k * rho).
  { intros k Hk. assert (Q : INR K <= INR k) by (apply le_INR; auto). assert (Pk := pos_INR k). assert (F := INR_fact_lt_0 k).
    assert (E : t (S k) = t k * (b * (a + INR k + 1) / (INR k + 1))).
    { unfold t. rewrite fact_simpl, mult_INR, S_INR. cbn [lnu pow]. field. lra. }
    rewrite E. apply Rmult_le_compat_l; auto.
    assert (H1 : b * Rabs a <= (rho - b) * INR k).
    { assert (X : b * Rabs a / (rho - b) <= INR k) by lra. apply (Rmult_le_compat_l (rho - b)) in X; [|lra]. replace ((rho - b) * (b * Rabs a / (rho - b))) with (b * Rabs a) in X by (field; lra). exact X. }
    assert (H2 : b * a <= b * Rabs a) by (apply Rmult_le_compat_l; [lra|apply Rle_abs]).
    apply (Rmult_le_reg_r (INR k + 1)); [lra|]. replace (b * (a + INR k + 1) / (INR k + 1) * (INR k + 1)) with (b * (a + INR k + 1)) by (field; lra). nra. }
  assert (Geo : forall j, t (K + j)%nat <= t K * rho ^ j).
  { induction j as [|j IH]; [rewrite Nat.add_0_r; cbn; lra|]. replace (K + S j)%nat with (S (K + j)) by lia. eapply Rle_trans; [apply Step; lia|].
    cbn [pow]. replace (t K * (rho * rho ^ j)) with (t K * rho ^ j * rho) by ring. apply Rmult_le_compat_r; [lra|exact IH]. }
  assert (TK := T0 K). destruct (pow_lt_1_zero rho) with (y := eps / (t K + 1)) as [N HN]; [rewrite Rabs_pos_eq; lra|apply Rdiv_lt_0_compat; lra|].
  exists (K + N)%nat. intros k Hk. specialize (HN (k - K)%nat ltac:(lia)). assert (G := Geo (k - K)%nat). replace (K + (k - K))%nat with k in G by lia. fold (t k).
  assert (Pp : 0 <= rho ^ (k - K)) by (apply pow_le; lra). rewrite Rabs_pos_eq in HN by auto.
  apply (Rmult_lt_compat_l (t K + 1)) in HN; [|lra]. replace ((t K + 1) * (eps / (t K + 1))) with eps in HN by (field; lra). lra.
Qed.
