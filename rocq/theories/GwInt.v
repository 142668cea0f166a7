(** The weighted integrals behind the classical recurrences, and the recurrences' orthogonality for them. *)
From Coq Require Import Reals List Arith ZArith Lia Lra Sorted.
From Coquelicot Require Import Coquelicot.
From Verif Require Import Spec Spec1 RsumLemmas AdaptModel PyBase UnModel C1Tools Interp C1Model C1Proofs GwSpec GwProofs GwExist GwModel GwRc GwRadau GwJacobi RadialInt GaussInt WeightSpec.
Import ListNotations.
Set Bullet Behavior "Strict Subproofs".
Open Scope R_scope.

(* ------------------------------------------------------------------ integrals up to the ends of an open interval *)
Section Gen.
Context (Fa Fb : (R -> Prop) -> Prop) (PFa : ProperFilter Fa) (PFb : ProperFilter Fb).
Context (D : R -> Prop) (Da : Fa D) (Db : Fb D) (Dc : forall x y z, D x -> D y -> x <= z <= y -> D z).

Lemma D_between x y z : D x -> D y -> Rmin x y <= z <= Rmax x y -> D z.
Proof.
  intros Hx Hy Hz. destruct (Rle_dec x y).
  - rewrite Rmin_left, Rmax_right in Hz by auto. apply (Dc x y); auto.
  - rewrite Rmin_right, Rmax_left in Hz by lra. apply (Dc y x); auto.
Qed.
Lemma gen_derive (F f : R -> R) la lb : (forall x, D x -> is_derive F x (f x)) -> (forall x, D x -> continuous f x) ->
  filterlim F Fa (locally la) -> filterlim F Fb (locally lb) -> is_RInt_gen f Fa Fb (lb - la).
Proof.
  intros HD HC HA HB. unfold is_RInt_gen.
  apply (filterlimi_lim_ext_loc (fun ab => F (snd ab) - F (fst ab))).
  - apply (Filter_prod _ _ _ D D Da Db). intros x y Hx Hy. cbn [fst snd].
    apply (is_RInt_derive (V := R_CompleteNormedModule) F f); intros z Hz; [apply HD|apply HC]; apply (D_between x y); auto.
  - apply (filterlim_comp_2 (F := filter_prod Fa Fb) (G := locally lb) (H := locally (- la)) (fun ab => F (snd ab)) (fun ab => - F (fst ab)) Rplus).
    + apply (filterlim_comp _ _ _ snd F _ Fb); [apply filterlim_snd|auto].
    + apply (filterlim_comp _ _ _ (fun ab => F (fst ab)) Ropp _ (locally la)).
      * apply (filterlim_comp _ _ _ fst F _ Fa); [apply filterlim_fst|auto].
      * apply (filterlim_opp (V := R_NormedModule) la).
    + apply (filterlim_plus (V := R_NormedModule) lb (- la)).
Qed.
Lemma gen_ext (f g : R -> R) l : (forall x, D x -> f x = g x) -> is_RInt_gen f Fa Fb l -> is_RInt_gen g Fa Fb l.
Proof.
  intros H. apply is_RInt_gen_ext. apply (Filter_prod _ _ _ D D Da Db). intros x y Hx Hy z Hz. cbn [fst snd] in Hz. apply H. apply (D_between x y); auto. lra.
Qed.
Lemma gen_lin (f g : R -> R) c d lf lg : is_RInt_gen f Fa Fb lf -> is_RInt_gen g Fa Fb lg -> is_RInt_gen (fun x => c * f x + d * g x) Fa Fb (c * lf + d * lg).
Proof. intros Hf Hg. apply (is_RInt_gen_plus (V := R_NormedModule) (fun x => c * f x) (fun x => d * g x)); apply (is_RInt_gen_scal (V := R_NormedModule)); auto. Qed.
Lemma gen_scal (f : R -> R) c lf : is_RInt_gen f Fa Fb lf -> is_RInt_gen (fun x => c * f x) Fa Fb (c * lf).
Proof. intros Hf. apply (is_RInt_gen_scal (V := R_NormedModule)); auto. Qed.
Lemma gen_0 : is_RInt_gen (fun _ => 0) Fa Fb 0.
Proof.
  assert (H : is_RInt_gen (fun _ => 0) Fa Fb (0 - 0)); [|rewrite Rminus_0_r in H; exact H]. apply (gen_derive (fun _ => 0)); [intros; apply (is_derive_const (V := R_NormedModule))| | |]; try (intros; apply continuous_const); apply filterlim_const.
Qed.
Lemma gen_Rsum {A} (f : A -> R -> R) (g : A -> R) l : (forall a, In a l -> is_RInt_gen (f a) Fa Fb (g a)) -> is_RInt_gen (fun x => Rsum (map (fun a => f a x) l)) Fa Fb (Rsum (map g l)).
Proof.
  induction l as [|a l IH]; intros H; [apply gen_0|]. cbn [map Rsum].
  apply (is_RInt_gen_plus (V := R_NormedModule) (f a)); [apply H; left; auto|apply IH; intros; apply H; right; auto].
Qed.
(** A positive function has a positive integral. *)
Lemma gen_pos (f : R -> R) u v l : u < v -> D u -> D v -> Fa (fun x => x <= u) -> Fb (fun y => v <= y) -> (forall x, D x -> 0 <= f x) -> (forall x, u < x < v -> 0 < f x) -> (forall x, D x -> continuous f x) ->
  is_RInt_gen f Fa Fb l -> 0 < l.
Proof.
  intros Huv Hu Hv HA HB Hn Hp HC H. set (c := RInt f u v).
  assert (Hc : 0 < c).
  { apply RInt_gt_0; auto; intros x Hx. apply HC; apply (Dc u v); auto; lra. }
  destruct (Rlt_dec 0 l); auto. exfalso.
  assert (HL : locally l (fun y => y < c)).
  { exists (mkposreal c Hc). intros y Hy. change (Rabs (y - l) < c) in Hy. apply Rabs_def2 in Hy. lra. }
  specialize (H _ HL). unfold filtermapi in H. destruct H as [Q1 Q2 HQ1 HQ2 HQ].
  destruct (filter_ex (F := Fa) _ (filter_and _ _ HQ1 (filter_and _ _ HA Da))) as [x [Qx [Hx Dx]]].
  destruct (filter_ex (F := Fb) _ (filter_and _ _ HQ2 (filter_and _ _ HB Db))) as [y [Qy [Hy Dy]]].
  destruct (HQ x y Qx Qy) as [I [HI HIc]]. cbn [fst snd] in HI.
  assert (EX : forall p q, D p -> D q -> p <= q -> ex_RInt f p q).
  { intros p q Dp Dq Hpq. apply (ex_RInt_continuous (V := R_CompleteNormedModule)). intros z Hz. apply HC. apply (D_between p q); auto. }
  assert (GE : forall p q, D p -> D q -> p <= q -> 0 <= RInt f p q).
  { intros p q Dp Dq Hpq. apply RInt_ge_0; auto. intros z Hz. apply Hn. apply (Dc p q); auto. lra. }
  apply (is_RInt_unique (V := R_CompleteNormedModule)) in HI.
  assert (E1 : RInt f x y = RInt f x u + RInt f u y) by (symmetry; apply (RInt_Chasles (V := R_CompleteNormedModule) f x u y); apply EX; auto; lra).
  assert (E2 : RInt f u y = RInt f u v + RInt f v y) by (symmetry; apply (RInt_Chasles (V := R_CompleteNormedModule) f u v y); apply EX; auto; lra).
  assert (G1 := GE x u Dx Hu Hx). assert (G2 := GE v y Hv Dy Hy). fold c in E2. lra.
Qed.
End Gen.

(* ------------------------------------------------------------------ real powers *)
Lemma Rpower_derive c x : 0 < x -> is_derive (fun t => Rpower t c) x (c * Rpower x (c - 1)).
Proof. intros H. apply is_derive_Reals. apply derivable_pt_lim_power. auto. Qed.
Lemma Rpower_cont c x : 0 < x -> continuous (fun t => Rpower t c) x.
Proof. intros H. apply (ex_derive_continuous (fun t => Rpower t c)). exists (c * Rpower x (c - 1)). apply Rpower_derive; auto. Qed.
Lemma Rpower_S c x : 0 < x -> Rpower x (c + 1) = Rpower x c * x.
Proof. intros H. rewrite Rpower_plus, Rpower_1; auto. Qed.
Lemma Rpower_lim0 c : 0 < c -> filterlim (fun t => Rpower t c) (at_right 0) (locally 0).
Proof.
  intros Hc. unfold Rpower. apply (filterlim_comp _ _ _ (fun t => c * ln t) exp _ (Rbar_locally m_infty)).
  - apply (filterlim_comp _ _ _ ln (Rmult c) _ (Rbar_locally m_infty)); [apply is_lim_ln_0|].
    intros P [M HM]. exists (M / c). intros x Hx. apply HM. apply (Rmult_lt_compat_l c) in Hx; auto. replace (c * (M / c)) with M in Hx by (field; lra). auto.
  - exact is_lim_exp_m.
Qed.
Lemma lim_1p : filterlim (fun x => 1 + x) (at_right (-1)) (at_right 0).
Proof.
  intros P [e He]. exists e. intros y Hy Hl. apply He; [|lra]. change (Rabs (1 + y - 0) < e). change (Rabs (y - -1) < e) in Hy. replace (1 + y - 0) with (y - -1) by ring. auto.
Qed.
Lemma lim_1m : filterlim (fun x => 1 - x) (at_left 1) (at_right 0).
Proof.
  intros P [e He]. exists e. intros y Hy Hl. apply He; [|lra]. change (Rabs (1 - y - 0) < e). change (Rabs (y - 1) < e) in Hy. replace (1 - y - 0) with (- (y - 1)) by ring. rewrite Rabs_Ropp. auto.
Qed.
Lemma lim_at_right (f : R -> R) (l : R) : filterlim f (locally l) (locally (f l)) -> filterlim f (at_right l) (locally (f l)).
Proof. intros H. eapply filterlim_filter_le_1; [|exact H]. apply filter_le_within. Qed.
Lemma lim_at_left (f : R -> R) (l : R) : filterlim f (locally l) (locally (f l)) -> filterlim f (at_left l) (locally (f l)).
Proof. intros H. eapply filterlim_filter_le_1; [|exact H]. apply filter_le_within. Qed.
Lemma lim_mult (F : (R -> Prop) -> Prop) (FF : Filter F) (f g : R -> R) (a b : R) : filterlim f F (locally a) -> filterlim g F (locally b) -> filterlim (fun x => f x * g x) F (locally (a * b)).
Proof.
  intros Hf Hg. apply (filterlim_comp_2 (F := F) (G := locally a) (H := locally b) f g Rmult); auto. apply (filterlim_mult (K := R_AbsRing) a b).
Qed.

(* ------------------------------------------------------------------ (1 - x)^a (1 + x)^b *)
Definition jD (x : R) : Prop := -1 < x < 1.
Definition jw (a b x : R) : R := Rpower (1 - x) a * Rpower (1 + x) b.
Lemma jDa : at_right (-1) jD.
Proof. exists (mkposreal 1 Rlt_0_1). intros y Hy Hl. change (Rabs (y - -1) < 1) in Hy. apply Rabs_def2 in Hy. unfold jD. lra. Qed.
Lemma jDb : at_left 1 jD.
Proof. exists (mkposreal 1 Rlt_0_1). intros y Hy Hl. change (Rabs (y - 1) < 1) in Hy. apply Rabs_def2 in Hy. unfold jD. lra. Qed.
Lemma jDc x y z : jD x -> jD y -> x <= z <= y -> jD z. Proof. unfold jD. lra. Qed.
Lemma j_ext (f g : R -> R) (l : R) : (forall x, jD x -> f x = g x) -> is_RInt_gen f (at_right (-1)) (at_left 1) l -> is_RInt_gen g (at_right (-1)) (at_left 1) l.
Proof. apply (gen_ext _ _ _ _ jD jDa jDb jDc). Qed.
Lemma jw_derive a b x : jD x -> is_derive (jw (a + 1) (b + 1)) x (-2 * (a + 1) * jw a b x + (a + b + 2) * jw (a + 1) b x).
Proof.
  intros [H1 H2]. unfold jw. assert (D1 := Rpower_derive (a + 1) (1 - x) ltac:(lra)). assert (D2 := Rpower_derive (b + 1) (1 + x) ltac:(lra)).
  replace (a + 1 - 1) with a in D1 by ring. replace (b + 1 - 1) with b in D2 by ring.
  replace (-2 * (a + 1) * (Rpower (1 - x) a * Rpower (1 + x) b) + (a + b + 2) * (Rpower (1 - x) (a + 1) * Rpower (1 + x) b))
    with (plus (mult (- 1 * ((a + 1) * Rpower (1 - x) a)) (Rpower (1 + x) (b + 1))) (mult (Rpower (1 - x) (a + 1)) (1 * ((b + 1) * Rpower (1 + x) b)))).
  - apply (is_derive_mult (fun x => Rpower (1 - x) (a + 1)) (fun x => Rpower (1 + x) (b + 1))).
    + apply (is_derive_comp (fun t => Rpower t (a + 1)) (fun x => 1 - x)); auto. auto_derive; auto; ring.
    + apply (is_derive_comp (fun t => Rpower t (b + 1)) (fun x => 1 + x)); auto. auto_derive; auto; ring.
    + intros; apply Rmult_comm.
  - unfold plus, mult; cbn. rewrite !Rpower_S by lra. ring.
Qed.
Lemma jw_cont a b x : jD x -> continuous (jw a b) x.
Proof.
  intros H. apply (ex_derive_continuous (jw a b)). assert (E := jw_derive (a - 1) (b - 1) x H). replace (a - 1 + 1) with a in E by ring. replace (b - 1 + 1) with b in E by ring. eexists. exact E.
Qed.
Lemma jw_pos a b x : 0 < jw a b x. Proof. apply Rmult_lt_0_compat; apply exp_pos. Qed.
Lemma jw_sym a b x : jw a b x = jw b a (- x).
Proof. unfold jw. rewrite Rmult_comm. f_equal; f_equal; ring. Qed.
Lemma jw_lim_r a b : 0 < a -> filterlim (jw a b) (at_left 1) (locally 0).
Proof.
  intros Ha. unfold jw. replace 0 with (0 * Rpower (1 + 1) b) by ring. apply lim_mult; [apply within_filter; apply locally_filter| |].
  - apply (filterlim_comp _ _ _ (fun x => 1 - x) (fun t => Rpower t a) _ (at_right 0)); [apply lim_1m|apply Rpower_lim0; auto].
  - apply (lim_at_left (fun x => Rpower (1 + x) b)). apply (continuous_comp (fun x => 1 + x) (fun t => Rpower t b)); [|apply Rpower_cont; lra]. apply (ex_derive_continuous (fun x => 1 + x)). auto_derive; auto.
Qed.
Lemma jw_lim_l a b : 0 < b -> filterlim (jw a b) (at_right (-1)) (locally 0).
Proof.
  intros Hb. unfold jw. replace 0 with (Rpower (1 - -1) a * 0) by ring. apply lim_mult; [apply within_filter; apply locally_filter| |].
  - apply (lim_at_right (fun x => Rpower (1 - x) a)). apply (continuous_comp (fun x => 1 - x) (fun t => Rpower t a)); [|apply Rpower_cont; lra]. apply (ex_derive_continuous (fun x => 1 - x)). auto_derive; auto.
  - apply (filterlim_comp _ _ _ (fun x => 1 + x) (fun t => Rpower t b) _ (at_right 0)); [apply lim_1p|apply Rpower_lim0; auto].
Qed.
(** Integration by parts. *)
Lemma jw_parts a b : -1 < a -> -1 < b -> is_RInt_gen (fun x => -2 * (a + 1) * jw a b x + (a + b + 2) * jw (a + 1) b x) (at_right (-1)) (at_left 1) 0.
Proof.
  intros Ha Hb. replace 0 with (0 - 0) by ring. apply (gen_derive _ _ _ _ jD jDa jDb jDc (jw (a + 1) (b + 1))).
  - intros x Hx. apply jw_derive; auto.
  - intros x Hx. apply (continuous_plus (fun x => -2 * (a + 1) * jw a b x) (fun x => (a + b + 2) * jw (a + 1) b x));
      apply (continuous_scal_r (K := R_AbsRing) (V := R_NormedModule)); apply jw_cont; auto.
  - apply jw_lim_l. lra.
  - apply jw_lim_r. lra.
Qed.
Lemma jw_up a b I : -1 < a -> -1 < b -> is_RInt_gen (jw a b) (at_right (-1)) (at_left 1) I ->
  is_RInt_gen (jw (a + 1) b) (at_right (-1)) (at_left 1) (2 * (a + 1) / (a + b + 2) * I).
Proof.
  intros Ha Hb H. assert (P := gen_lin _ _ _ _ _ _ (/ (a + b + 2)) (2 * (a + 1) / (a + b + 2)) _ _ (jw_parts a b Ha Hb) H).
  replace (2 * (a + 1) / (a + b + 2) * I) with (/ (a + b + 2) * 0 + 2 * (a + 1) / (a + b + 2) * I) by ring.
  eapply j_ext; [|exact P]. intros x Hx. cbn beta. field. lra.
Qed.
Lemma jw_down a b I : -1 < a -> -1 < b -> is_RInt_gen (jw (a + 1) b) (at_right (-1)) (at_left 1) I ->
  is_RInt_gen (jw a b) (at_right (-1)) (at_left 1) ((a + b + 2) / (2 * (a + 1)) * I).
Proof.
  intros Ha Hb H. assert (P := gen_lin _ _ _ _ _ _ (- / (2 * (a + 1))) ((a + b + 2) / (2 * (a + 1))) _ _ (jw_parts a b Ha Hb) H).
  replace ((a + b + 2) / (2 * (a + 1)) * I) with (- / (2 * (a + 1)) * 0 + (a + b + 2) / (2 * (a + 1)) * I) by ring.
  eapply j_ext; [|exact P]. intros x Hx. cbn beta. field. lra.
Qed.
Lemma jw_S_a a b x : jD x -> jw (a + 1) b x = jw a b x * (1 - x).
Proof. intros [H1 H2]. unfold jw. rewrite Rpower_S by lra. ring. Qed.
Lemma jw_S_b a b x : jD x -> jw a (b + 1) x = jw a b x * (1 + x).
Proof. intros [H1 H2]. unfold jw. rewrite Rpower_S by lra. ring. Qed.
Lemma jw_down_b a b I : -1 < a -> -1 < b -> is_RInt_gen (jw a (b + 1)) (at_right (-1)) (at_left 1) I ->
  is_RInt_gen (jw a b) (at_right (-1)) (at_left 1) ((a + b + 2) / (2 * (b + 1)) * I).
Proof.
  intros Ha Hb H. assert (P := gen_lin _ _ _ _ _ _ (/ (2 * (b + 1))) ((a + b + 2) / (2 * (b + 1))) _ _ (jw_parts a b Ha Hb) H).
  replace ((a + b + 2) / (2 * (b + 1)) * I) with (/ (2 * (b + 1)) * 0 + (a + b + 2) / (2 * (b + 1)) * I) by ring.
  eapply j_ext; [|exact P]. intros x Hx. cbn beta. rewrite jw_S_a, jw_S_b by auto. field. lra.
Qed.
Lemma jw_exists a b : -1 < a -> -1 < b -> exists I, is_RInt_gen (jw a b) (at_right (-1)) (at_left 1) I.
Proof.
  intros Ha Hb.
  destruct (C0_extension_lt (T := R_UniformSpace) (jw (a + 1) (b + 1)) 0 0 (-1) 1) as [g [Gc [Ge _]]].
  - lra.
  - intros c Hc. apply jw_cont. auto.
  - apply jw_lim_l. lra.
  - apply jw_lim_r. lra.
  - set (G := fun x => RInt g 0 x).
    assert (GD : forall x, is_derive G x (g x)).
    { intros x. apply (is_derive_RInt (V := R_NormedModule) g G 0 x); [|apply Gc].
      apply filter_forall. intros y. apply (RInt_correct (V := R_CompleteNormedModule)). apply (ex_RInt_continuous (V := R_CompleteNormedModule)). intros; apply Gc. }
    assert (GC : forall x, continuous G x) by (intros x; apply (ex_derive_continuous G); eexists; apply GD).
    assert (H : is_RInt_gen g (at_right (-1)) (at_left 1) (G 1 - G (-1))).
    { apply (gen_derive _ _ _ _ jD jDa jDb jDc G g); auto; [intros; apply Gc| |]; [apply lim_at_right; apply GC|apply lim_at_left; apply GC]. }
    apply (j_ext _ (jw (a + 1) (b + 1))) in H; [|intros x Hx; apply Ge; exact Hx].
    apply jw_down in H; try lra. apply jw_down_b in H; try lra. eexists. exact H.
Qed.
Lemma jw_int_pos a b I : is_RInt_gen (jw a b) (at_right (-1)) (at_left 1) I -> 0 < I.
Proof.
  apply (gen_pos _ _ _ _ jD jDa jDb jDc (jw a b) 0 (1 / 2)); unfold jD; try lra.
  - exists (mkposreal 1 Rlt_0_1). intros y Hy _. change (Rabs (y - -1) < 1) in Hy. apply Rabs_def2 in Hy. lra.
  - assert (P : 0 < 1 / 2) by lra. exists (mkposreal _ P). intros y Hy _. change (Rabs (y - 1) < 1 / 2) in Hy. apply Rabs_def2 in Hy. lra.
  - intros; left; apply jw_pos.
  - intros; apply jw_pos.
  - intros; apply jw_cont; auto.
Qed.
(** All moments from the first. *)
Fixpoint jnu (a b I : R) (m : nat) : R := match m with O => I | S m' => 2 * (a + INR m' + 1) / (a + b + INR m' + 2) * jnu a b I m' end.
Fixpoint jU (nu : nat -> R) (i m : nat) : R := match i with O => nu m | S i' => jU nu i' m - jU nu i' (S m) end.
Lemma jnu_int a b I m : -1 < a -> -1 < b -> is_RInt_gen (jw a b) (at_right (-1)) (at_left 1) I -> is_RInt_gen (jw (a + INR m) b) (at_right (-1)) (at_left 1) (jnu a b I m).
Proof.
  intros Ha Hb H. induction m as [|m IH].
  - change (INR 0) with 0. rewrite Rplus_0_r. auto.
  - assert (P := pos_INR m). apply jw_up in IH; try lra. rewrite S_INR. cbn [jnu].
    replace (a + (INR m + 1)) with (a + INR m + 1) by ring.
    replace (a + b + INR m + 2) with (a + INR m + b + 2) by ring. exact IH.
Qed.
Lemma jU_int a b I i : -1 < a -> -1 < b -> is_RInt_gen (jw a b) (at_right (-1)) (at_left 1) I -> forall m,
  is_RInt_gen (fun x => jw (a + INR m) b x * x ^ i) (at_right (-1)) (at_left 1) (jU (jnu a b I) i m).
Proof.
  intros Ha Hb H. induction i as [|i IH]; intros m.
  - eapply j_ext; [|apply jnu_int; eauto]. intros; cbn; ring.
  - cbn [jU]. assert (P := gen_lin _ _ _ _ _ _ 1 (-1) _ _ (IH m) (IH (S m))).
    replace (jU (jnu a b I) i m - jU (jnu a b I) i (S m)) with (1 * jU (jnu a b I) i m + -1 * jU (jnu a b I) i (S m)) by ring.
    eapply j_ext; [|exact P]. intros x Hx. cbn beta. rewrite S_INR. replace (a + (INR m + 1)) with (a + INR m + 1) by ring. rewrite jw_S_a by auto. cbn [pow]. ring.
Qed.
Theorem jacobi_good a b I : -1 < a -> -1 < b -> jacobi_int a b (fun _ => 1) I ->
  exists mu, good_rc (jacobi_rc a b I) mu /\ forall k, jacobi_int a b (fun x => x ^ k) (mu k).
Proof.
  intros Ha Hb H0. assert (H : is_RInt_gen (jw a b) (at_right (-1)) (at_left 1) I) by (eapply j_ext; [|exact H0]; intros; unfold jw; ring).
  exists (fun i => jU (jnu a b I) i 0). split.
  - split; [intros; apply jacobi_beta_pos; auto|]. split; [reflexivity|]. split; [exact (jw_int_pos a b I H)|].
    intros n. apply (jacobi_orthogonal a b Ha Hb (jU (jnu a b I))); [reflexivity|].
    intros m. reflexivity.
  - intros k. assert (P := jU_int a b I k Ha Hb H 0). unfold jacobi_int. eapply j_ext; [|exact P]. intros x _. cbn beta. change (INR 0) with 0. rewrite Rplus_0_r. reflexivity.
Qed.
(** From moments to polynomials. *)
Lemma gen_peval Fa Fb (PFa : ProperFilter Fa) (PFb : ProperFilter Fb) D (Da : Fa D) (Db : Fb D) (Dc : forall x y z, D x -> D y -> x <= z <= y -> D z)
  (w : R -> R) mu d q c : (forall k, is_RInt_gen (fun x => w x * x ^ k) Fa Fb (mu k)) -> exact1_mu d mu q -> (length c <= S d)%nat ->
  is_RInt_gen (fun x => w x * peval c x) Fa Fb (apply1 q (peval c)).
Proof.
  intros HM HX HL.
  assert (E : apply1 q (peval c) = Rsum (map (fun i => nth i c 0 * mu i) (seq 0 (length c)))).
  { rewrite (apply1_ext' q (peval c) (fun x => Rsum (map (fun i => nth i c 0 * x ^ i) (seq 0 (length c))))) by (intros; apply peval_nth).
    rewrite apply1_sum. apply Rsum_map_ext. intros i Hi. apply in_seq in Hi. rewrite (apply1_scal q (nth i c 0) (fun x => x ^ i)). rewrite HX by lia. auto. }
  rewrite E. apply (gen_ext _ _ _ _ D Da Db Dc (fun x => Rsum (map (fun i => nth i c 0 * (w x * x ^ i)) (seq 0 (length c))))).
  - intros x _. rewrite peval_nth. rewrite <- Rsum_map_scal. apply Rsum_map_ext. intros; ring.
  - apply (gen_Rsum Fa Fb PFa PFb D Da Db Dc (fun i x => nth i c 0 * (w x * x ^ i)) (fun i => nth i c 0 * mu i)). intros i _. apply gen_scal; auto.
Qed.
