(** An n-point rule of degree 2n - 1 for a positive functional. *)
From Coq Require Import Reals List Arith ZArith Lia Lra Permutation.
From Coquelicot Require Import Coquelicot.
From Verif Require Import Spec Spec1 RsumLemmas C1Tools WeightSpec GwInt GwInt2 GwBound LineProofs GaussShapeSpec.
Import ListNotations.
Set Bullet Behavior "Strict Subproofs".
Open Scope R_scope.

(** prod (x - y) *)
Definition pprod (l : list R) : list R := fold_right (fun y c => pmul_lin (- y) 1 c) [1] l.
Lemma pprod_cons y l x : peval (pprod (y :: l)) x = (x - y) * peval (pprod l) x.
Proof. cbn [pprod fold_right]. fold (pprod l). rewrite peval_pmul_lin. ring. Qed.
Lemma pprod_length l : (length (pprod l) <= S (length l))%nat.
Proof. induction l as [|y l IH]; [cbn; lia|]. cbn [pprod fold_right length]. fold (pprod l). assert (A := pmul_lin_length (- y) 1 (pprod l)). lia. Qed.
Lemma pprod_app l l' x : peval (pprod (l ++ l')) x = peval (pprod l) x * peval (pprod l') x.
Proof. induction l as [|y l IH]; [change (pprod []) with [1]; cbn [app peval]; ring|]. cbn [app]. rewrite !pprod_cons, IH. ring. Qed.
Lemma pprod_0 l x : In x l -> peval (pprod l) x = 0.
Proof. induction l as [|y l IH]; [intros []|]. intros [-> | H]; rewrite pprod_cons; [ring|rewrite IH by auto; ring]. Qed.
Lemma pprod_n0 l x : peval (pprod l) x = 0 -> In x l.
Proof. induction l as [|y l IH]; [cbn; lra|]. rewrite pprod_cons. intros H. apply Rmult_integral in H. destruct H; [left; lra|right; auto]. Qed.
Lemma pprod_gap l x x' : (forall y, In y l -> y <= x \/ x' <= y) -> x < x' -> 0 <= peval (pprod l) x * peval (pprod l) x'.
Proof.
  intros H Hx. induction l as [|y l IH]; [cbn; lra|]. rewrite !pprod_cons. specialize (IH ltac:(intros; apply H; right; auto)).
  replace ((x - y) * peval (pprod l) x * ((x' - y) * peval (pprod l) x')) with ((x - y) * (x' - y) * (peval (pprod l) x * peval (pprod l) x')) by ring.
  apply Rmult_le_pos; auto. destruct (H y ltac:(left; auto)); nra.
Qed.
Lemma apply1_perm q q' f : Permutation q q' -> apply1 q f = apply1 q' f.
Proof. intros. unfold apply1. apply Rsum_map_perm; auto. Qed.
Lemma apply1_one w x q f : (forall y, In y (map snd q) -> f y = 0) -> apply1 ((w, x) :: q) f = w * f x.
Proof. intros H. assert (E := apply1_0 q f H). unfold apply1 in *. cbn [map Rsum fst snd]. rewrite E. ring. Qed.
Lemma apply1_two w x w' x' q f : (forall y, In y (map snd q) -> f y = 0) -> apply1 ((w, x) :: (w', x') :: q) f = w * f x + w' * f x'.
Proof. intros H. assert (E := apply1_0 q f H). unfold apply1 in *. cbn [map Rsum fst snd]. rewrite E. ring. Qed.
Lemma in_perm {A} (a : A) l : In a l -> exists l', Permutation l (a :: l').
Proof. intros H. apply in_split in H. destruct H as (l1 & l2 & ->). exists (l1 ++ l2). apply Permutation_sym, Permutation_middle. Qed.

Section Shape.
Context (int : (R -> R) -> R -> Prop) (D : R -> Prop).
Context (Iu : forall f I I', int f I -> int f I' -> I = I').
Context (Ip : forall c l I, (forall x, D x -> 0 <= peval c x) -> (forall x, D x -> ~ In x l -> 0 < peval c x) -> int (peval c) I -> 0 < I).

Lemma shape_one q n w x q' : length q = n -> exact_for int n q -> Permutation q ((w, x) :: q') -> 0 < w /\ ~ In x (map snd q').
Proof.
  intros L X P. assert (L' := Permutation_length P). cbn [length] in L'. set (l := map snd q').
  assert (Lc : (length (psq l) <= 2 * n)%nat) by (assert (A := psq_length l); unfold l in A at 2; rewrite map_length in A; lia).
  specialize (X (psq l) Lc). apply (Ip (psq l) l) in X; [|intros; apply psq_ge|intros; apply psq_pos; auto].
  rewrite (apply1_perm _ _ _ P), apply1_one in X by (intros; apply psq_0; auto).
  assert (G := psq_ge l x). split.
  - destruct (Rlt_dec 0 w); auto. exfalso. nra.
  - intros Hin. rewrite psq_0 in X by auto. lra.
Qed.
Lemma shape_inside q n w x u v : length q = n -> exact_for int n q -> (forall y, D y -> 0 < u + v * y) -> In (w, x) q -> 0 < u + v * x.
Proof.
  intros L X HD Hin. destruct (in_perm _ _ Hin) as [q' P]. destruct (shape_one q n w x q' L X P) as [Hw _].
  assert (L' := Permutation_length P). cbn [length] in L'. set (l := map snd q'). set (c := pmul_lin u v (psq l)).
  assert (Lc : (length c <= 2 * n)%nat) by (assert (B := pmul_lin_length u v (psq l)); assert (A := psq_length l); unfold l in A at 2; rewrite map_length in A; unfold c; lia).
  assert (X1 := X c Lc). apply (Ip c l) in X1.
  - rewrite (apply1_perm _ _ _ P), apply1_one in X1 by (intros; unfold c; rewrite peval_pmul_lin, psq_0 by auto; ring).
    unfold c in X1. rewrite peval_pmul_lin in X1. assert (G := psq_ge l x). destruct (Rlt_dec 0 (u + v * x)); auto. exfalso.
    assert (w * ((u + v * x) * peval (psq l) x) <= 0); [|lra]. assert (0 <= w * (- (u + v * x) * peval (psq l) x)) by (apply Rmult_le_pos; [lra|apply Rmult_le_pos; lra]). lra.
  - intros y Hy. unfold c. rewrite peval_pmul_lin. apply Rmult_le_pos; [left; auto|apply psq_ge].
  - intros y Hy Hn. unfold c. rewrite peval_pmul_lin. apply Rmult_lt_0_compat; [auto|apply psq_pos; auto].
Qed.
Lemma shape_weight q n w x : length q = n -> exact_for int n q -> In (w, x) q -> 0 < w.
Proof. intros L X H. destruct (in_perm _ _ H) as [q' P]. exact (proj1 (shape_one q n w x q' L X P)). Qed.
Lemma shape_nodup q n : length q = n -> exact_for int n q -> NoDup (map snd q).
Proof.
  intros L X. assert (H : forall q1 q2, q = q1 ++ q2 -> NoDup (map snd q2)).
  { intros q1 q2. revert q1. induction q2 as [|[w x] q2 IH]; intros q1 E; [constructor|]. cbn [map snd]. constructor.
    - assert (P : Permutation q ((w, x) :: (q1 ++ q2))) by (rewrite E; apply Permutation_sym, Permutation_middle).
      destruct (shape_one q n w x _ L X P) as [_ N]. intros Hin. apply N. rewrite map_app. apply in_or_app. auto.
    - apply (IH (q1 ++ [(w, x)])). rewrite E, <- app_assoc. reflexivity. }
  apply (H [] q). reflexivity.
Qed.
Lemma shape_nodes q q' n w x : length q = n -> exact_for int n q -> length q' = n -> exact_for int n q' -> In (w, x) q' -> In x (map snd q).
Proof.
  intros L X L' X' Hin. destruct (in_perm _ _ Hin) as [r P]. destruct (shape_one q' n w x r L' X' P) as [Hw Hn].
  assert (Lr := Permutation_length P). cbn [length] in Lr. set (c := pprod (map snd q ++ map snd r)).
  assert (Lc : (length c <= 2 * n)%nat) by (assert (A := pprod_length (map snd q ++ map snd r)); rewrite app_length, !map_length in A; unfold c; lia).
  assert (E := Iu _ _ _ (X c Lc) (X' c Lc)). rewrite (apply1_0 q) in E by (intros y Hy; unfold c; rewrite pprod_app, (pprod_0 (map snd q)) by auto; ring).
  rewrite (apply1_perm _ _ _ P), apply1_one in E by (intros y Hy; unfold c; rewrite pprod_app, (pprod_0 (map snd r)) by auto; ring).
  unfold c in E. rewrite pprod_app in E. symmetry in E. apply Rmult_integral in E. destruct E as [E|E]; [lra|]. apply Rmult_integral in E. destruct E as [E|E]; [apply pprod_n0; auto|].
  exfalso. apply Hn. apply pprod_n0. auto.
Qed.
Lemma shape_same_half q q' n w x : length q = n -> exact_for int n q -> length q' = n -> exact_for int n q' -> In (w, x) q -> In (w, x) q'.
Proof.
  intros L X L' X' Hin. assert (Hx := shape_nodes q' q n w x L' X' L X Hin). apply in_map_iff in Hx. destruct Hx as [[w' x'] [Ex Hin']]. cbn [snd] in Ex. subst x'.
  destruct (in_perm _ _ Hin) as [r P]. destruct (in_perm _ _ Hin') as [r' P']. destruct (shape_one q n w x r L X P) as [Hw Hn]. destruct (shape_one q' n w' x r' L' X' P') as [Hw' Hn'].
  assert (Lr := Permutation_length P). cbn [length] in Lr. set (c := pprod (map snd r)).
  assert (Lc : (length c <= 2 * n)%nat) by (assert (A := pprod_length (map snd r)); rewrite map_length in A; unfold c; lia).
  assert (E := Iu _ _ _ (X c Lc) (X' c Lc)).
  rewrite (apply1_perm _ _ _ P), apply1_one in E by (intros y Hy; apply pprod_0; auto).
  rewrite (apply1_perm _ _ _ P'), apply1_one in E.
  - assert (N : peval c x <> 0) by (intros Z; apply Hn; apply pprod_n0; auto). apply Rmult_eq_reg_r in E; auto. subst w'. auto.
  - intros y Hy. apply pprod_0. assert (Hy' := Hy). apply in_map_iff in Hy. destruct Hy as [[v z] [Ez Hz]]. cbn [snd] in Ez. subst z.
    assert (Q : In y (map snd q)) by (apply (shape_nodes q q' n v y L X L' X'); apply (Permutation_in _ (Permutation_sym P')); right; auto).
    apply (Permutation_in _ (Permutation_map snd P)) in Q. cbn [map snd] in Q. destruct Q as [-> | Q]; auto. contradiction.
Qed.
Lemma shape_same q q' n : length q = n -> exact_for int n q -> length q' = n -> exact_for int n q' -> same_rule q q'.
Proof. intros L X L' X' w x. split; apply (shape_same_half _ _ n); auto. Qed.
Lemma shape_mirror q n : (forall c I, int (peval (pcompose 0 (-1) c)) I -> int (peval c) I) -> length q = n -> exact_for int n q -> mirrored q.
Proof.
  intros Ir L X w x H. set (q' := map (fun p => (fst p, - snd p)) q).
  assert (X' : exact_for int n q').
  { intros c Hc. apply Ir. replace (apply1 q' (peval c)) with (apply1 q (peval (pcompose 0 (-1) c))); [apply X; pose proof (pcompose_length 0 (-1) c); lia|].
    unfold apply1, q'. rewrite map_map. apply Rsum_map_ext. intros [v y] _. cbn [fst snd]. rewrite peval_pcompose. do 2 f_equal. ring. }
  assert (S := shape_same q q' n L X ltac:(unfold q'; rewrite map_length; auto) X').
  apply S. unfold q'. apply in_map_iff. exists (w, x). auto.
Qed.
Lemma shape_interlace q q' n : length q = n -> exact_for int n q -> length q' = S n -> exact_for int (S n) q' -> interlaces q q'.
Proof.
  intros L X L' X' x x' Hx Hx' Hlt Hgap.
  set (P := fun z => peval (pprod (map snd q)) z).
  assert (ND := shape_nodup q' (S n) L' X').
  assert (Two : forall a b, In a (map snd q') -> In b (map snd q') -> a <> b -> exists u v l, 0 < u /\ 0 < v /\ (forall z, In z l -> In z (map snd q') /\ z <> a /\ z <> b) /\ u * (P a * peval (pprod l) a) + v * (P b * peval (pprod l) b) = 0).
  { intros a b Ha Hb Hab. apply in_map_iff in Ha. apply in_map_iff in Hb. destruct Ha as [[u a'] [Ea Ha]]. destruct Hb as [[v b'] [Eb Hb]]. cbn [snd] in *. subst a' b'.
    destruct (in_perm _ _ Ha) as [r Pr]. assert (Hb' : In (v, b) r). { apply (Permutation_in _ Pr) in Hb. destruct Hb as [E|]; auto. injection E. intros. congruence. }
    destruct (in_perm _ _ Hb') as [r' Pr']. assert (PP : Permutation q' ((u, a) :: (v, b) :: r')) by (eapply Permutation_trans; [exact Pr|]; apply perm_skip; auto).
    assert (Lr := Permutation_length PP). cbn [length] in Lr. exists u, v, (map snd r').
    split; [apply (shape_weight q' (S n) u a); auto|]. split; [apply (shape_weight q' (S n) v b); auto|]. split.
    - intros z Hz. assert (PM := Permutation_map snd PP). cbn [map snd] in PM. assert (ND' := Permutation_NoDup PM ND). inversion_clear ND' as [|? ? N1 N2]. inversion_clear N2 as [|? ? N3 N4]. split; [|split].
      + apply (Permutation_in _ (Permutation_sym PM)). right. right. auto.
      + intros ->. apply N1. right. auto.
      + intros ->. apply N3. auto.
    - set (c := pprod (map snd q ++ map snd r')).
      assert (Lc : (length c <= 2 * n)%nat) by (assert (A := pprod_length (map snd q ++ map snd r')); rewrite app_length, !map_length in A; unfold c; lia).
      assert (E := Iu _ _ _ (X c Lc) (X' c ltac:(lia))). rewrite (apply1_0 q) in E by (intros y Hy; unfold c; rewrite pprod_app, (pprod_0 (map snd q)) by auto; ring).
      rewrite (apply1_perm _ _ _ PP), apply1_two in E by (intros y Hy; unfold c; rewrite pprod_app, (pprod_0 (map snd r')) by auto; ring).
      unfold c in E. rewrite !pprod_app in E. fold (P a) (P b) in E. lra. }
  assert (NZ : P x <> 0).
  { intros Z. assert (All : incl (map snd q') (map snd q)).
    { intros b Hb. destruct (Req_dec x b) as [<- | Hne]; [apply pprod_n0; exact Z|]. destruct (Two x b Hx Hb Hne) as (u & v & l & Hu & Hv & Hl & E).
      rewrite Z in E. replace (u * (0 * peval (pprod l) x) + v * (P b * peval (pprod l) b)) with (v * (P b * peval (pprod l) b)) in E by ring.
      apply Rmult_integral in E. destruct E as [E|E]; [lra|]. apply Rmult_integral in E. destruct E as [E|E]; [apply pprod_n0; exact E|].
      apply pprod_n0 in E. destruct (Hl b E) as (_ & _ & N). contradiction. }
    assert (Q := NoDup_incl_length ND All). rewrite !map_length in Q. lia. }
  destruct (Two x x' Hx Hx' ltac:(lra)) as (u & v & l & Hu & Hv & Hl & E).
  assert (G : 0 < peval (pprod l) x * peval (pprod l) x').
  { destruct (pprod_gap l x x') as [G|G]; auto.
    - intros y Hy. destruct (Hl y Hy) as (Hy' & _ & _). destruct (Rle_dec y x); auto. destruct (Rle_dec x' y); auto. exfalso. apply (Hgap y Hy'). lra.
    - exfalso. symmetry in G. apply Rmult_integral in G. destruct G as [G|G]; apply pprod_n0 in G; destruct (Hl _ G) as (_ & N1 & N2); congruence. }
  assert (Dec : forall y, {x < y < x'} + {~ x < y < x'}) by (intros y; destruct (Rlt_dec x y); [destruct (Rlt_dec y x')|]; [left; lra|right; lra|right; lra]).
  destruct (Exists_dec (fun y => x < y < x') (map snd q) Dec) as [Ex|Nx].
  - apply Exists_exists in Ex. exact Ex.
  - exfalso. assert (GP : 0 <= P x * P x').
    { apply pprod_gap; auto. intros y Hy. destruct (Rle_dec y x); auto. destruct (Rle_dec x' y); auto. exfalso. apply Nx. apply Exists_exists. exists y. split; auto. lra. }
    assert (E2 : u * (P x * P x) * (peval (pprod l) x * peval (pprod l) x) + v * ((P x * P x') * (peval (pprod l) x * peval (pprod l) x')) = 0).
    { replace (u * (P x * P x) * (peval (pprod l) x * peval (pprod l) x) + v * ((P x * P x') * (peval (pprod l) x * peval (pprod l) x')))
        with ((P x * peval (pprod l) x) * (u * (P x * peval (pprod l) x) + v * (P x' * peval (pprod l) x'))) by ring. rewrite E. ring. }
    assert (NL : peval (pprod l) x <> 0) by (intros Z; rewrite Z in G; lra).
    assert (0 < P x * P x) by nra. assert (0 < peval (pprod l) x * peval (pprod l) x) by nra.
    assert (0 < u * (P x * P x) * (peval (pprod l) x * peval (pprod l) x)) by (apply Rmult_lt_0_compat; [apply Rmult_lt_0_compat|]; auto).
    assert (0 <= v * ((P x * P x') * (peval (pprod l) x * peval (pprod l) x'))) by (apply Rmult_le_pos; [lra|apply Rmult_le_pos; lra]). lra.
Qed.
End Shape.

(* ------------------------------------------------------------------ the classical functionals *)
Lemma hermite_pos_poly c l I : (forall x, True -> 0 <= peval c x) -> (forall x, True -> ~ In x l -> 0 < peval c x) -> hermite_int (peval c) I -> 0 < I.
Proof.
  intros H1 H2 H. destruct (avoid l 1 2 ltac:(lra)) as [u [v [Hu [Huv [Hv Ha]]]]].
  apply (gen_pos _ _ _ _ hD hDa hDb hDc (fun x => exp (- x ^ 2) * peval c x) u v); unfold hD; auto.
  - exists u. intros; lra.
  - exists v. intros; lra.
  - intros x Hx. apply Rmult_le_pos; [left; apply exp_pos|apply H1; auto].
  - intros x Hx. apply Rmult_lt_0_compat; [apply exp_pos|apply H2; auto]. intros Q. apply (Ha x Q). auto.
  - intros x Hx. apply (continuous_mult (K := R_AbsRing) (fun y => exp (- y ^ 2)) (peval c)); [|apply peval_continuous]. apply (ex_derive_continuous (V := R_NormedModule)). auto_derive. auto.
Qed.
Lemma legendre_pos_poly c l (I : R) : (forall x, -1 < x < 1 -> 0 <= peval c x) -> (forall x, -1 < x < 1 -> ~ In x l -> 0 < peval c x) -> is_RInt (peval c) (-1) 1 I -> 0 < I.
Proof.
  intros H1 H2 H. destruct (avoid l (-1 / 2) (1 / 2) ltac:(lra)) as [u [v [Hu [Huv [Hv Ha]]]]].
  apply (is_RInt_unique (V := R_CompleteNormedModule)) in H.
  assert (EX : forall p q, ex_RInt (peval c) p q) by (intros; apply (ex_RInt_continuous (V := R_CompleteNormedModule)); intros; apply peval_continuous).
  assert (E1 := RInt_Chasles (V := R_CompleteNormedModule) (peval c) (-1) u 1 (EX _ _) (EX _ _)). assert (E2 := RInt_Chasles (V := R_CompleteNormedModule) (peval c) u v 1 (EX _ _) (EX _ _)).
  assert (G1 : 0 <= RInt (peval c) (-1) u) by (apply RInt_ge_0; [lra|auto|intros; apply H1; lra]).
  assert (G2 : 0 <= RInt (peval c) v 1) by (apply RInt_ge_0; [lra|auto|intros; apply H1; lra]).
  assert (G3 : 0 < RInt (peval c) u v) by (apply RInt_gt_0; [lra| |intros; apply peval_continuous]; intros x Hx; apply H2; [lra|]; intros Q; apply (Ha x Q); auto).
  rewrite <- H. change (RInt (peval c) (-1) u + RInt (peval c) u 1 = RInt (peval c) (-1) 1) in E1. change (RInt (peval c) u v + RInt (peval c) v 1 = RInt (peval c) u 1) in E2. lra.
Qed.
Lemma is_RInt_mirror (f : R -> R) x y (I : R) : is_RInt f (- y) (- x) I -> is_RInt (fun z => f (- z)) x y I.
Proof.
  intros H. apply (is_RInt_swap (V := R_NormedModule)) in H. apply (is_RInt_comp_opp (V := R_NormedModule)) in H. apply (is_RInt_opp (V := R_NormedModule)) in H.
  rewrite opp_opp in H. eapply (is_RInt_ext (V := R_NormedModule)); [|exact H]. intros z _. cbn beta. apply opp_opp.
Qed.
Lemma gen_mirror (Fa Fb : (R -> Prop) -> Prop) (f : R -> R) (l : R) : (forall A : R -> Prop, Fa A -> Fb (fun x => A (- x))) -> (forall A : R -> Prop, Fb A -> Fa (fun x => A (- x))) ->
  is_RInt_gen f Fa Fb l -> is_RInt_gen (fun x => f (- x)) Fa Fb l.
Proof.
  intros H1 H2 H P HP. specialize (H P HP). unfold filtermapi in *. destruct H as [A B FA FB HAB].
  apply (Filter_prod _ _ _ (fun x => B (- x)) (fun y => A (- y))); [apply H2; auto|apply H1; auto|]. intros x y Hx Hy. cbn [fst snd].
  destruct (HAB (- y) (- x) Hy Hx) as [I [HI HPI]]. exists I. split; auto. apply is_RInt_mirror. exact HI.
Qed.
Lemma infty_mirror1 (A : R -> Prop) : Rbar_locally m_infty A -> Rbar_locally p_infty (fun x => A (- x)).
Proof. intros [M H]. exists (- M). intros x Hx. apply H. lra. Qed.
Lemma infty_mirror2 (A : R -> Prop) : Rbar_locally p_infty A -> Rbar_locally m_infty (fun x => A (- x)).
Proof. intros [M H]. exists (- M). intros x Hx. apply H. lra. Qed.
Lemma one_mirror1 (A : R -> Prop) : at_right (-1) A -> at_left 1 (fun x => A (- x)).
Proof. intros [e H]. exists e. intros x Hx Hl. change (Rabs (x - 1) < e) in Hx. apply H; [|lra]. change (Rabs (- x - -1) < e). replace (- x - -1) with (- (x - 1)) by ring. rewrite Rabs_Ropp. exact Hx. Qed.
Lemma one_mirror2 (A : R -> Prop) : at_left 1 A -> at_right (-1) (fun x => A (- x)).
Proof. intros [e H]. exists e. intros x Hx Hl. change (Rabs (x - -1) < e) in Hx. apply H; [|lra]. change (Rabs (- x - 1) < e). replace (- x - 1) with (- (x - -1)) by ring. rewrite Rabs_Ropp. exact Hx. Qed.
Lemma hermite_mirror c I : hermite_int (peval (pcompose 0 (-1) c)) I -> hermite_int (peval c) I.
Proof.
  intros H. unfold hermite_int in *. assert (H' := gen_mirror _ _ (fun x => exp (- x ^ 2) * peval (pcompose 0 (-1) c) x) I infty_mirror1 infty_mirror2 H).
  refine (h_ext (fun x => exp (- (- x) ^ 2) * peval (pcompose 0 (-1) c) (- x)) (fun x => exp (- x ^ 2) * peval c x) I _ H').
  intros x. cbn beta. rewrite peval_pcompose. f_equal; f_equal; ring.
Qed.
Lemma jacobi_mirror a c I : jacobi_int a a (peval (pcompose 0 (-1) c)) I -> jacobi_int a a (peval c) I.
Proof.
  intros H. apply (gen_mirror _ _ _ _ one_mirror1 one_mirror2) in H. eapply j_ext; [|exact H]. intros x _. cbn beta. rewrite peval_pcompose.
  replace (0 + -1 * - x) with x by ring. replace (1 - - x) with (1 + x) by ring. replace (1 + - x) with (1 - x) by ring. ring.
Qed.
Lemma legendre_mirror c (I : R) : is_RInt (peval (pcompose 0 (-1) c)) (-1) 1 I -> is_RInt (peval c) (-1) 1 I.
Proof.
  intros H. eapply (is_RInt_ext (V := R_NormedModule)); [|apply (is_RInt_mirror (peval (pcompose 0 (-1) c)) (-1) 1 I)].
  - intros x _. cbn beta. rewrite peval_pcompose. f_equal. ring.
  - replace (- (1)) with (-1) by ring. replace (- (-1)) with 1 by ring. exact H.
Qed.
Lemma jacobi_unique a b f I I' : jacobi_int a b f I -> jacobi_int a b f I' -> I = I'.
Proof. exact (gen_unique _ _ (Proper_StrongProper _ (at_right_proper_filter (-1))) (Proper_StrongProper _ (at_left_proper_filter 1)) _ I I'). Qed.
Lemma laguerre_unique a f I I' : laguerre_int a f I -> laguerre_int a f I' -> I = I'.
Proof. exact (gen_unique _ _ (Proper_StrongProper _ (at_right_proper_filter 0)) (Proper_StrongProper _ (Rbar_locally_filter p_infty)) _ I I'). Qed.
Lemma hermite_unique f I I' : hermite_int f I -> hermite_int f I' -> I = I'.
Proof. exact (gen_unique _ _ (Proper_StrongProper _ (Rbar_locally_filter m_infty)) (Proper_StrongProper _ (Rbar_locally_filter p_infty)) _ I I'). Qed.
