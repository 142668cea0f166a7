(** Triangle areas, red refinement and the adaptive triangle integrator. *)
From Coq Require Import Reals List Arith Bool Lia Lra Permutation.
From Verif Require Import Spec RsumLemmas CombModel PyBase AdaptModel AdaptProofs GeomModel.
Import ListNotations.
Open Scope R_scope.

(* ------------------------------------------------------------------ vectors *)
Lemma vdot_nil_l q : vdot [] q = 0.
Proof. reflexivity. Qed.
Lemma vdot_cons a p b q : vdot (a :: p) (b :: q) = a * b + vdot p q.
Proof. reflexivity. Qed.
Lemma vsub_cons a p b q : vsub (a :: p) (b :: q) = (a - b) :: vsub p q.
Proof. reflexivity. Qed.
Lemma vadd_cons a p b q : vadd (a :: p) (b :: q) = (a + b) :: vadd p q.
Proof. reflexivity. Qed.
Lemma vadd_length p q : length p = length q -> length (vadd p q) = length p.
Proof. intros H. unfold vadd. rewrite map_length, combine_length. lia. Qed.
Lemma vscale_length c p : length (vscale c p) = length p.
Proof. apply map_length. Qed.
Lemma vmid_length p q : length p = length q -> length (vmid p q) = length p.
Proof. intros H. unfold vmid. rewrite vscale_length, vadd_length; auto. Qed.

Definition sqd (p q : point) : R := vdot (vsub p q) (vsub p q).
Lemma sqd_refl p : sqd p p = 0.
Proof. induction p as [|a p IH]; [reflexivity|]. unfold sqd in *. rewrite vsub_cons, vdot_cons, IH. ring. Qed.
Lemma sqd_sym p : forall q, sqd p q = sqd q p.
Proof.
  induction p as [|a p IH]; intros [|b q]; try reflexivity. unfold sqd in *. rewrite !vsub_cons, !vdot_cons, IH. ring.
Qed.
Lemma sqd_nonneg p : forall q, 0 <= sqd p q.
Proof.
  induction p as [|a p IH]; intros [|b q]; unfold sqd in *; cbn; try lra. fold (vsub p q). 
  change (Rsum (map (fun e => fst e * snd e) (List.combine (vsub p q) (vsub p q)))) with (vdot (vsub p q) (vsub p q)).
  specialize (IH q). pose proof (Rle_0_sqr (a - b)). unfold Rsqr in *. lra.
Qed.
Lemma cauchy_schwarz p : forall q, vdot p q * vdot p q <= vdot p p * vdot q q.
Proof.
  induction p as [|a p IH]; intros [|b q]; try (cbn; lra). 
  rewrite !vdot_cons. specialize (IH q).
  assert (Hp : 0 <= vdot p p) by (apply Rsum_nonneg; intros x Hx; apply in_map_iff in Hx; destruct Hx as [[u v] [<- H]];
     clear -H; revert H; induction p as [|c p IHp]; cbn; [tauto|]; intros [E|H]; [injection E as <- <-; cbn; nra|auto]).
  assert (Hq : 0 <= vdot q q) by (apply Rsum_nonneg; intros x Hx; apply in_map_iff in Hx; destruct Hx as [[u v] [<- H]];
     clear -H; revert H; induction q as [|c q IHp]; cbn; [tauto|]; intros [E|H]; [injection E as <- <-; cbn; nra|auto]).
  set (x := vdot p q) in *. set (P := vdot p p) in *. set (Q := vdot q q) in *.
  assert (2 * (a * b) * x <= a * a * Q + b * b * P).
  { destruct (Req_dec P 0) as [EP|EP].
    - assert (x = 0) by nra. subst x. rewrite H. nra.
    - assert (0 < P) by lra. 
      assert (0 <= (b * P - a * x) ^ 2 ) by (apply pow2_ge_0).
      assert (E : 0 <= P * (b * b * P - 2 * (a * b) * x + a * a * Q)) by nra.
      apply (Rmult_le_reg_l P); auto. nra. }
  nra.
Qed.

(* ------------------------------------------------------------------ areas *)
Lemma det4_cm a b c : det 4 (cm_matrix [a; b; c]) =
  let x := sqd a b in let y := sqd a c in let z := sqd b c in
  x * x + y * y + z * z - 2 * x * y - 2 * x * z - 2 * y * z.
Proof.
  unfold cm_matrix. cbn [map]. fold (sqd a b). fold (sqd a c). fold (sqd b c). fold (sqd b a). fold (sqd c a). fold (sqd c b).
  fold (sqd a a). fold (sqd b b). fold (sqd c c). rewrite !sqd_refl, (sqd_sym b a), (sqd_sym c a), (sqd_sym c b).
  set (x := sqd a b). set (y := sqd a c). set (z := sqd b c).
  cbn [det map seq drop_nth firstn skipn app nth Rsum pow]. unfold drop_nth. cbn [det map seq firstn skipn app nth Rsum pow]. ring.
Qed.
(** Squared distances in terms of inner products of edges. *)
Lemma sqd_edges a : forall b c, length b = length a -> length c = length a ->
  sqd b c = sqd a b + sqd a c - 2 * vdot (vsub a b) (vsub a c).
Proof.
  induction a as [|u a IH]; intros [|v b] [|w c] Hb Hc; try discriminate; [unfold sqd, vdot; cbn; ring|].
  injection Hb as Hb. injection Hc as Hc. unfold sqd in *. rewrite !vsub_cons, !vdot_cons, (IH b c) by auto. ring.
Qed.
Definition tri_ok (d : nat) (t : triangle) : Prop :=
  let '(a, b, c) := t in length a = d /\ length b = d /\ length c = d.
(** The radicand is the squared area: 16 area^2 = 4 (|u|^2 |v|^2 - (u.v)^2). *)
Lemma tri_radicand d a b c : tri_ok d (a, b, c) ->
  (-1) ^ 3 / 2 ^ 2 / INR (fact 2) ^ 2 * det 4 (cm_matrix (tri_list (a, b, c))) =
  (sqd a b * sqd a c - vdot (vsub a b) (vsub a c) * vdot (vsub a b) (vsub a c)) / 4.
Proof.
  intros [Ha [Hb Hc]]. cbn [tri_list]. rewrite det4_cm. cbv zeta. rewrite (sqd_edges a b c) by lia.
  cbn [fact Nat.mul Nat.add INR pow]. field.
Qed.
Lemma tri_radicand_nonneg d a b c : tri_ok d (a, b, c) ->
  0 <= (-1) ^ 3 / 2 ^ 2 / INR (fact 2) ^ 2 * det 4 (cm_matrix (tri_list (a, b, c))).
Proof.
  intros H. rewrite (tri_radicand d) by auto. pose proof (cauchy_schwarz (vsub a b) (vsub a c)) as C. unfold sqd. lra.
Qed.
Lemma get_vol_triangle d t : tri_ok d t -> get_vol (tri_list t) = Some (tri_area t).
Proof.
  destruct t as [[a b] c]. intros H. unfold get_vol, tri_area. cbn [tri_list length Nat.sub Nat.add].
  unfold rsqrt. destruct (Rle_dec _ _) as [|N]; auto. exfalso. apply N. exact (tri_radicand_nonneg d a b c H).
Qed.
Lemma tri_area_nonneg t : 0 <= tri_area t.
Proof. apply sqrt_pos. Qed.
(** In the plane the area is half the absolute cross product. *)
Lemma tri_area_plane x0 y0 x1 y1 x2 y2 :
  tri_area ([x0; y0], [x1; y1], [x2; y2]) = Rabs ((x1 - x0) * (y2 - y0) - (x2 - x0) * (y1 - y0)) / 2.
Proof.
  unfold tri_area. rewrite (tri_radicand 2) by (cbn; auto).
  unfold sqd, vdot, vsub. cbn [List.combine map fst snd Rsum].
  match goal with |- sqrt ?r = _ => replace r with (Rsqr (((x1 - x0) * (y2 - y0) - (x2 - x0) * (y1 - y0)) / 2)) by (unfold Rsqr; field) end.
  rewrite sqrt_Rsqr_abs. unfold Rdiv. rewrite Rabs_mult, (Rabs_right (/ 2)) by lra. auto.
Qed.

(** Edge lengths of the children are half those of the parent. *)
Lemma mid_sqd1 a : forall b c, length b = length a -> length c = length a -> sqd (vmid a b) (vmid a c) = sqd b c / 4.
Proof.
  induction a as [|u a IH]; intros [|v b] [|w c] Hb Hc; try discriminate; [unfold sqd, vdot; cbn; field|].
  injection Hb as Hb. injection Hc as Hc. specialize (IH b c Hb Hc). unfold sqd, vmid, vscale in *. rewrite !vadd_cons. cbn [map].
  rewrite !vsub_cons, !vdot_cons, IH. lra.
Qed.
Lemma vmid_sym a : forall b, vmid a b = vmid b a.
Proof.
  induction a as [|u a IH]; intros [|v b]; try reflexivity. unfold vmid, vscale in *. rewrite !vadd_cons. cbn [map].
  rewrite IH. f_equal. lra.
Qed.
Lemma mid_sqd2 a : forall b, length b = length a -> sqd a (vmid a b) = sqd a b / 4.
Proof.
  induction a as [|u a IH]; intros [|v b] Hb; try discriminate; [unfold sqd, vdot; cbn; field|].
  injection Hb as Hb. specialize (IH b Hb). unfold sqd, vmid, vscale in *. rewrite !vadd_cons. cbn [map].
  rewrite !vsub_cons, !vdot_cons, IH. lra.
Qed.
Lemma child_ok d i t : tri_ok d t -> tri_ok d (child i t).
Proof.
  destruct t as [[a b] c]. intros [Ha [Hb Hc]]. destruct i as [|[|[|i]]]; cbn; rewrite ?vmid_length; auto; lia.
Qed.
Lemma sqrt_div16 x : sqrt (x / 16) = sqrt x / 4.
Proof.
  destruct (Rle_dec 0 x) as [H|H].
  - unfold Rdiv. rewrite sqrt_mult by lra. replace (/ 16) with (Rsqr (/ 4)) by (unfold Rsqr; field).
    rewrite sqrt_Rsqr by lra. auto.
  - rewrite !sqrt_neg_0 by lra. field.
Qed.
Theorem child_area d i t : tri_ok d t -> tri_area (child i t) = tri_area t / 4.
Proof.
  destruct t as [[a b] c]. intros [Ha [Hb Hc]]. unfold tri_area. rewrite <- sqrt_div16. f_equal.
  assert (Hm : forall p q, length p = d -> length q = d -> length (vmid p q) = d) by (intros; rewrite vmid_length; lia).
  destruct i as [|[|[|i]]]; cbn [child tri_list]; rewrite !det4_cm; cbv zeta; cbn [fact Nat.mul Nat.add INR pow].
  - rewrite (vmid_sym c a), (mid_sqd2 a c), (mid_sqd2 a b), (mid_sqd1 a c b), (sqd_sym c b) by lia. field.
  - rewrite (vmid_sym a b), (mid_sqd2 b a), (mid_sqd2 b c), (mid_sqd1 b a c), (sqd_sym b a) by lia. field.
  - rewrite (vmid_sym b c), (mid_sqd2 c b), (mid_sqd2 c a), (mid_sqd1 c b a), (sqd_sym c b), (sqd_sym c a), (sqd_sym b a) by lia. field.
  - rewrite (vmid_sym b c), (mid_sqd1 c b a) by lia. rewrite (vmid_sym c b), (vmid_sym a b), (mid_sqd1 b c a) by lia.
    rewrite (vmid_sym c a), (vmid_sym b a), (mid_sqd1 a c b) by lia. rewrite (sqd_sym b a), (sqd_sym c a), (sqd_sym c b). field.
Qed.

(* ------------------------------------------------------------------ geometric tiling *)
(** The point with barycentric coordinates (u, v, w). *)
Definition bary (t : triangle) (u v w : R) : point :=
  let '(a, b, c) := t in vadd (vadd (vscale u a) (vscale v b)) (vscale w c).
Definition bary_coords (u v w : R) : Prop := 0 <= u /\ 0 <= v /\ 0 <= w /\ u + v + w = 1.
Definition in_triangle (t : triangle) (p : point) : Prop := exists u v w, bary_coords u v w /\ p = bary t u v w.

Lemma bary_child d i t u v w : tri_ok d t ->
  bary (child i t) u v w =
  match i with
  | 0%nat => bary t (u + v / 2 + w / 2) (w / 2) (v / 2)
  | 1%nat => bary t (v / 2) (u + v / 2 + w / 2) (w / 2)
  | 2%nat => bary t (w / 2) (v / 2) (u + v / 2 + w / 2)
  | _ => bary t (v / 2 + w / 2) (u / 2 + w / 2) (u / 2 + v / 2)
  end.
Proof.
  destruct t as [[a b] c]. intros [Ha [Hb Hc]].
  assert (Hb' : length b = length a) by lia. assert (Hc' : length c = length a) by lia. clear Ha Hb Hc d.
  revert b c Hb' Hc'. induction a as [|x a IH]; intros [|y b] [|z c] Hb Hc; try discriminate.
  - destruct i as [|[|[|i]]]; reflexivity.
  - injection Hb as Hb. injection Hc as Hc. specialize (IH b c Hb Hc).
    destruct i as [|[|[|i]]]; unfold child, bary, vmid, vscale in *; rewrite !vadd_cons; cbn [map]; rewrite !vadd_cons; cbn [map];
      rewrite ?vadd_cons; rewrite IH; f_equal; lra.
Qed.
(** Every point of the triangle lies in one of its four children and vice versa. *)
Theorem children_cover d t p : tri_ok d t -> (in_triangle t p <-> exists i, (i < 4)%nat /\ in_triangle (child i t) p).
Proof.
  intros H. split.
  - intros [u [v [w [[Hu [Hv [Hw Hs]]] ->]]]].
    destruct (Rle_dec (1/2) u) as [Eu|Eu]; [|destruct (Rle_dec (1/2) v) as [Ev|Ev]; [|destruct (Rle_dec (1/2) w) as [Ew|Ew]]].
    + exists 0%nat. split; [lia|]. exists (2 * u - 1), (2 * w), (2 * v). split; [unfold bary_coords; lra|].
      rewrite (bary_child d) by auto. f_equal; lra.
    + exists 1%nat. split; [lia|]. exists (2 * v - 1), (2 * u), (2 * w). split; [unfold bary_coords; lra|].
      rewrite (bary_child d) by auto. f_equal; lra.
    + exists 2%nat. split; [lia|]. exists (2 * w - 1), (2 * v), (2 * u). split; [unfold bary_coords; lra|].
      rewrite (bary_child d) by auto. f_equal; lra.
    + exists 3%nat. split; [lia|]. exists (1 - 2 * u), (1 - 2 * v), (1 - 2 * w). split; [unfold bary_coords; lra|].
      rewrite (bary_child d) by auto. f_equal; lra.
  - intros [i [_ [u [v [w [[Hu [Hv [Hw Hs]]] ->]]]]]]. rewrite (bary_child d) by auto.
    destruct i as [|[|[|i]]]; eexists; eexists; eexists; (split; [|reflexivity]); unfold bary_coords; lra.
Qed.
(** The interiors of the children are disjoint: in a non-degenerate triangle (barycentric coordinates are
    unique) no point has positive coordinates in two children. *)
Theorem children_disjoint d t i j u v w u' v' w' : tri_ok d t ->
  (forall u v w u' v' w', u + v + w = 1 -> u' + v' + w' = 1 -> bary t u v w = bary t u' v' w' -> u = u' /\ v = v' /\ w = w') ->
  (i < j < 4)%nat -> 0 < u -> 0 < v -> 0 < w -> u + v + w = 1 -> 0 < u' -> 0 < v' -> 0 < w' -> u' + v' + w' = 1 ->
  bary (child i t) u v w <> bary (child j t) u' v' w'.
Proof.
  intros H Hu Hij H1 H2 H3 H4 H5 H6 H7 H8 E. rewrite !(bary_child d) in E by auto.
  destruct i as [|[|[|[|i]]]], j as [|[|[|[|j]]]]; try lia;
    match type of E with bary _ ?a1 ?a2 ?a3 = bary _ ?b1 ?b2 ?b3 =>
      assert (Q := Hu a1 a2 a3 b1 b2 b3 ltac:(lra) ltac:(lra) E); destruct Q as [Q1 [Q2 Q3]]; lra end.
Qed.

(* ------------------------------------------------------------------ the loop *)
(** [refines t l]: the triangles l arise from t by repeatedly replacing a triangle by its four children. *)
Inductive refines : list triangle -> list triangle -> Prop :=
| refines_refl l l' : Permutation l l' -> refines l l'
| refines_step l t rest l' : Permutation l (t :: rest) ->
    refines (child 0 t :: child 1 t :: child 2 t :: child 3 t :: rest) l' -> refines l l'.

Lemma refines_trans l1 l2 l3 : refines l1 l2 -> refines l2 l3 -> refines l1 l3.
Proof.
  induction 1 as [l l' Hp|l t rest l' Hp H IH]; intros H3.
  - inversion H3 as [? ? Hq|? t rest ? Hq Hr]; subst.
    + apply refines_refl. transitivity l'; auto.
    + apply (refines_step _ t rest); auto. transitivity l'; auto.
  - apply (refines_step _ t rest); auto.
Qed.
Lemma refines_perm_r l1 l2 l3 : refines l1 l2 -> Permutation l2 l3 -> refines l1 l3.
Proof. intros H1 H2. apply (refines_trans _ l2); auto. apply refines_refl. auto. Qed.
Lemma refines_subdivide bad : forall acc, refines (acc ++ bad) (acc ++ subdivide bad).
Proof.
  induction bad as [|t bad IH]; intros acc; [apply refines_refl; auto|].
  apply (refines_step _ t (acc ++ bad)); [symmetry; apply Permutation_middle|].
  apply (refines_perm_r _ _ _ (IH (child 0 t :: child 1 t :: child 2 t :: child 3 t :: acc))).
  unfold subdivide. cbn [map app].
  set (A := map (child 0) bad). set (B := map (child 1) bad). set (C := map (child 2) bad). set (D := map (child 3) bad).
  rewrite <- !Permutation_middle. apply Permutation_refl'. reflexivity.
Qed.
Lemma refines_ok d l l' : refines l l' -> Forall (tri_ok d) l -> Forall (tri_ok d) l'.
Proof.
  induction 1 as [l l' Hp|l t rest l' Hp H IH]; intros Hf.
  - rewrite Forall_forall in *. intros x Hx. apply Hf. apply (Permutation_in x (Permutation_sym Hp)). auto.
  - apply IH. rewrite Forall_forall in *.
    assert (Ht : tri_ok d t) by (apply Hf; apply (Permutation_in _ (Permutation_sym Hp)); left; auto).
    intros x [<-|[<-|[<-|[<-|Hx]]]]; try (apply child_ok; auto).
    apply Hf. apply (Permutation_in _ (Permutation_sym Hp)). right. auto.
Qed.
Lemma refines_area d l l' : refines l l' -> Forall (tri_ok d) l -> Rsum (map tri_area l') = Rsum (map tri_area l).
Proof.
  induction 1 as [l l' Hp|l t rest l' Hp H IH]; intros Hf.
  - apply Rsum_map_perm. symmetry. auto.
  - assert (Ht : tri_ok d t) by (rewrite Forall_forall in Hf; apply Hf; apply (Permutation_in _ (Permutation_sym Hp)); left; auto).
    rewrite IH.
    + rewrite (Rsum_map_perm tri_area l (t :: rest) Hp). cbn [map Rsum]. rewrite !(child_area d) by auto. field.
    + apply (refines_ok d (t :: rest)); [|rewrite Forall_forall in *; intros x Hx; apply Hf; apply (Permutation_in _ (Permutation_sym Hp)); auto].
      apply (refines_step _ t rest); auto. apply refines_refl. auto.
Qed.

Section Loop.
Context (m : nat) (val1 val2 : triangle -> nat -> R) (eps : R).
Notation loop := (t2_loop m val1 val2 eps).
Notation err := (t2_error val1 val2).

Lemma t2_loop_returned total ma ts0 fuel : forall bad qs ge v e acc,
  refines ts0 (acc ++ bad) ->
  (forall j, qs j = t2_sum val1 acc j) -> (forall j, ge j = t2_sum err acc j) ->
  (forall t, In t acc -> t2_good m val1 val2 eps total t = true) ->
  loop fuel total ma bad qs ge = T2Returned v e ->
  exists l, refines ts0 l /\ (forall j, v j = t2_sum val1 l j) /\ (forall j, e j = t2_sum err l j) /\
    (forall t, In t l -> t2_good m val1 val2 eps total t = true).
Proof.
  induction fuel as [|fuel IH]; intros bad qs ge v e acc Ht Hv He Hg H; cbn in H; [discriminate|].
  destruct bad as [|t0 bad0] eqn:Eb.
  - injection H as <- <-. rewrite app_nil_r in Ht. exists acc. auto.
  - rewrite <- Eb in *. destruct (forallb _ _); [|discriminate].
    set (ts := subdivide bad) in *. set (p := t2_good m val1 val2 eps total) in *.
    apply (IH _ _ _ _ _ (acc ++ filter p ts)) in H; auto.
    + rewrite <- app_assoc. eapply refines_perm_r; [eapply refines_trans; [exact Ht|apply refines_subdivide]|].
      apply Permutation_app_head. apply partition_perm.
    + intros j. rewrite Hv. unfold t2_sum. rewrite map_app, Rsum_app. auto.
    + intros j. rewrite He. unfold t2_sum. rewrite map_app, Rsum_app. auto.
    + intros t Hin. apply in_app_or in Hin. destruct Hin as [Hin|Hin]; auto. apply filter_In in Hin. tauto.
Qed.
Theorem t2_returned fuel ts mn v e : t2_integrate_adaptive m val1 val2 eps fuel ts mn = T2Returned v e ->
  exists l, refines ts l /\ (forall j, v j = t2_sum val1 l j) /\ (forall j, e j = t2_sum err l j) /\
    (forall t, In t l -> t2_good m val1 val2 eps (Rsum (map tri_area ts)) t = true).
Proof.
  unfold t2_integrate_adaptive. intros H.
  eapply t2_loop_returned in H; [exact H| |reflexivity|reflexivity|].
  - apply refines_refl. apply partition_perm.
  - intros t Ht. apply filter_In in Ht. tauto.
Qed.

(** The returned error is below eps. *)
Theorem t2_tolerance d fuel ts mn v e j : (j < m)%nat -> ts <> [] -> Forall (tri_ok d) ts ->
  t2_integrate_adaptive m val1 val2 eps fuel ts mn = T2Returned v e -> e j < eps.
Proof.
  intros Hj Hne Hok H. destruct (t2_returned _ _ _ _ _ H) as [l [Hr [_ [He Hg]]]]. rewrite He.
  set (total := Rsum (map tri_area ts)) in *.
  assert (Hl : l <> []).
  { intros ->. clear -Hr Hne. remember [] as l0. revert Heql0 Hne. induction Hr as [l l' Hp|l t rest l' Hp Hr IH]; intros -> Hne.
    - apply Permutation_sym, Permutation_nil in Hp. auto.
    - apply IH; auto. discriminate. }
  assert (Hb : forall t, In t l -> total <> 0 /\ err t j < eps * tri_area t / total).
  { intros t Ht. specialize (Hg t Ht). unfold t2_good in Hg. rewrite forallb_forall in Hg.
    specialize (Hg j ltac:(apply in_seq; lia)). destruct (Req_EM_T total 0); [discriminate|]. split; auto. apply Rltb_true. auto. }
  assert (Ht0 : total <> 0) by (destruct l as [|t l]; [congruence|]; apply (Hb t); left; auto).
  assert (Hs : Rsum (map (fun t => eps * tri_area t / total) l) = eps).
  { rewrite (Rsum_map_ext _ (fun t => (eps / total) * tri_area t)) by (intros; field; auto).
    rewrite Rsum_map_scal, (refines_area d ts l) by auto. fold total. field. auto. }
  rewrite <- Hs. apply Rsum_lt; auto. intros t Ht. apply Hb. auto.
Qed.

Lemma t2_terminates_loop d total ma k : forall fuel bad qs ge A,
  (k < fuel)%nat -> Forall (tri_ok d) bad -> (forall t, In t bad -> tri_area t <= A) -> A / 4 ^ (S k) <= ma ->
  loop (S fuel) total ma bad qs ge <> T2StillRunning.
Proof.
  induction k as [|k IH]; intros fuel bad qs ge A Hf Hok HA Hm; cbn [t2_loop];
    destruct bad as [|t0 bad0] eqn:Eb; try discriminate; rewrite <- Eb in *;
    destruct (forallb _ _) eqn:Ee; try discriminate;
    assert (Hsub : forall t, In t (subdivide bad) -> tri_area t <= A / 4 /\ tri_ok d t)
      by (intros t Ht; rewrite Forall_forall in Hok; unfold subdivide in Ht;
          repeat (apply in_app_or in Ht; destruct Ht as [Ht|Ht]); apply in_map_iff in Ht; destruct Ht as [x [<- Hx]];
          (split; [rewrite (child_area d) by auto; specialize (HA x Hx); lra|apply child_ok; auto])).
  - exfalso. rewrite forallb_forall in Ee. specialize (Ee (child 0 t0)).
    assert (Hin : In (child 0 t0) (subdivide bad)) by (rewrite Eb; left; auto).
    specialize (Ee Hin). apply Rltb_true in Ee. apply Hsub in Hin. cbn [pow] in Hm. lra.
  - destruct fuel; [lia|]. apply (IH fuel _ _ _ (A / 4)); [lia| | |].
    + apply Forall_forall. intros t Ht. apply filter_In in Ht. apply Hsub. tauto.
    + intros t Ht. apply filter_In in Ht. apply Hsub. tauto.
    + replace (A / 4 / 4 ^ S k) with (A / 4 ^ S (S k)); auto. cbn [pow]. field. apply pow_nonzero. lra.
Qed.
Lemma area_le_total ts t : In t ts -> tri_area t <= Rsum (map tri_area ts).
Proof.
  induction ts as [|x ts IH]; cbn; [tauto|].
  assert (0 <= Rsum (map tri_area ts)) by (apply Rsum_nonneg; intros y Hy; apply in_map_iff in Hy; destruct Hy as [z [<- _]]; apply tri_area_nonneg).
  pose proof (tri_area_nonneg x). intros [<-|H']; [lra|]. specialize (IH H'). lra.
Qed.
(** With the default minimum area the integrator stops after at most ten rounds. *)
Theorem t2_terminates d fuel ts : (11 < fuel)%nat -> Forall (tri_ok d) ts ->
  t2_integrate_adaptive m val1 val2 eps fuel ts None <> T2StillRunning.
Proof.
  intros Hf Hok. unfold t2_integrate_adaptive. destruct fuel; [lia|].
  apply (t2_terminates_loop d _ _ 9 fuel _ _ _ (Rsum (map tri_area ts))); [lia| | |].
  - apply Forall_forall. intros t Ht. apply filter_In in Ht. rewrite Forall_forall in Hok. apply Hok. tauto.
  - intros t Ht. apply filter_In in Ht. apply area_le_total. tauto.
  - right. replace (0.25) with (/ 4) by lra. rewrite pow_inv. auto.
Qed.
Theorem t2_terminates_min d fuel ts ma k : (S k < fuel)%nat -> Forall (tri_ok d) ts ->
  Rsum (map tri_area ts) <= ma * 4 ^ (S k) ->
  t2_integrate_adaptive m val1 val2 eps fuel ts (Some ma) <> T2StillRunning.
Proof.
  intros Hf Hok Hk. unfold t2_integrate_adaptive. destruct fuel; [lia|].
  apply (t2_terminates_loop d _ _ k fuel _ _ _ (Rsum (map tri_area ts))); [lia| | |].
  - apply Forall_forall. intros t Ht. apply filter_In in Ht. rewrite Forall_forall in Hok. apply Hok. tauto.
  - intros t Ht. apply filter_In in Ht. apply area_le_total. tauto.
  - assert (0 < 4 ^ S k) by (apply pow_lt; lra). apply (Rmult_le_reg_r (4 ^ S k)); auto. unfold Rdiv.
    rewrite Rmult_assoc, Rinv_l by lra. lra.
Qed.
End Loop.
