(** C92: the order of convergence in several dimensions.  If the integrand has partial derivatives of the order d + 1 that are at most M,
    a scheme of degree d makes an error of at most
      volume of the domain * (1 + sum |w_i|) * M (n h)^(d+1) / (d+1)!
    when the domain is cut into parts of size h (boxes: h/2 in place of h; balls and spheres: not cut, h the radius).
    [has_partials], [partials_bounded] are defined in OrderSpec.v, the meshes in MeshSpec.v. *)
From Coq Require Import Reals List Arith ZArith Lia Lra Permutation.
From Coq Require Import ClassicalEpsilon.
From Coquelicot Require Import Coquelicot.
From Verif Require Import Spec Spec1 RsumLemmas IntegralSpec IntegralProofs IntegralProofs2 IntegralPoly PyBase CubeModel CubeProofs OrbitModel
  GeomModel GeomProofs RoundModel RoundSpec SphereSpec SphereInt RadialInt SimplexVol SimplexInt TnModel2 PolyFun ConvSpec ConvNdSpec WeierNd IterInt ConvNdExt ConvNdProofs ConvNdGeom ConvNdFam C1Model S2Model T2Model PropCube PropRound PropGw PropConvNd MeshSpec MeshProofs MeshSimplex MeshCut PropMesh OrderSpec OrderProofs.
Import ListNotations.
Set Bullet Behavior "Strict Subproofs".
Open Scope R_scope.
Local Notation length := List.length.

(** *** segments stay in the domain *)
Lemma convex_box lim : forall c x t, in_box lim c -> in_box lim x -> 0 <= t <= 1 -> in_box lim (between t c x).
Proof.
  unfold in_box, between. induction lim as [|[a b] lim IH]; intros c x t Hc Hx Ht; inversion Hc as [|? u ? c' Hu Hc']; inversion Hx as [|? v ? x' Hv Hx']; subst; cbn [List.combine map]; constructor; [|apply IH; auto].
  cbn [fst snd] in *. assert (0 <= t * (v - a)) by (apply Rmult_le_pos; lra). assert (0 <= (1 - t) * (u - a)) by (apply Rmult_le_pos; lra). assert (0 <= t * (b - v)) by (apply Rmult_le_pos; lra). assert (0 <= (1 - t) * (b - u)) by (apply Rmult_le_pos; lra). lra.
Qed.
Lemma bary_between n l l' t : in_bary n l -> in_bary n l' -> 0 <= t <= 1 -> in_bary n (between t l l').
Proof.
  intros (L & F & S) (L' & F' & S') Ht. split; [unfold between; rewrite map_length, combine_length; lia|]. assert (LL : length l = length l') by lia. clear L L'. replace 1 with ((1 - t) * Rsum l + t * Rsum l') by (rewrite S, S'; ring). clear S S'. unfold between. revert l' LL F'.
  induction F as [|a l Ha F IH]; intros [|b l'] LL F'; try discriminate; cbn [List.combine map Rsum fst snd]; [split; [constructor|ring]|]. inversion F'; subst. destruct (IH l') as [I1 I2]; [cbn in LL; lia|assumption|]. split; [|rewrite I2; ring].
  constructor; [|exact I1]. apply Rplus_le_le_0_compat; apply Rmult_le_pos; lra.
Qed.
Lemma between_map {A} (f g : A -> R) t (l : list A) : between t (map f l) (map g l) = map (fun i => (1 - t) * f i + t * g i) l.
Proof. unfold between. induction l as [|a l IH]; [reflexivity|]. cbn [map List.combine fst snd]. rewrite IH. reflexivity. Qed.
Lemma convex_simplex n V c x t : in_simplex n V c -> in_simplex n V x -> 0 <= t <= 1 -> in_simplex n V (between t c x).
Proof.
  intros (l & Hl & ->) (l' & Hl' & ->) Ht. exists (between t l l'). split; [apply bary_between; auto|]. rewrite between_map. apply map_ext. intros i.
  assert (LL : length l = length l') by (destruct Hl, Hl'; congruence). clear Hl Hl'. revert l' V LL. unfold between. induction l as [|a l IH]; intros [|b l'] V LL; try discriminate; [cbn; ring|]. destruct V as [|v V]; [cbn; ring|]. cbn [List.combine map Rsum fst snd]. rewrite <- IH by (cbn in LL; lia). ring.
Qed.
Lemma dist2_between c : forall x t, length c = length x -> dist2 c (between t c x) = t ^ 2 * dist2 c x.
Proof. unfold dist2, between. induction c as [|a c IH]; intros [|b x] t L; try discriminate; cbn [List.combine map Rsum fst snd]; [ring|]. rewrite IH by (cbn in L; lia). ring. Qed.
Lemma dist2_ge0 c : forall x, 0 <= dist2 c x.
Proof. unfold dist2. induction c as [|a c IH]; intros [|b x]; cbn [List.combine map Rsum fst snd]; try lra. specialize (IH x). pose proof (pow2_ge_0 (b - a)). lra. Qed.
Lemma ball_segment c r x t : in_ball_at c r x -> 0 <= t <= 1 -> in_ball_at c r (between t c x).
Proof.
  intros [L H] Ht. split; [unfold between; rewrite map_length, combine_length; lia|]. rewrite dist2_between by congruence. pose proof (dist2_ge0 c x). assert (t ^ 2 <= 1) by (cbn; nra). nra.
Qed.
Lemma ball_coord c r : 0 <= r -> forall x, length x = length c -> dist2 c x <= r ^ 2 -> forall i, (i < length c)%nat -> Rabs (nth i x 0 - nth i c 0) <= r.
Proof.
  intros Hr. induction c as [|a c IH]; intros [|b x] L H i Hi; try discriminate; cbn in Hi; [lia|]. unfold dist2 in H. cbn [List.combine map Rsum fst snd] in H. fold (dist2 c x) in H. pose proof (dist2_ge0 c x). pose proof (pow2_ge_0 (b - a)). destruct i as [|i].
  - cbn [nth]. apply Rsqr_le_abs_0 in H || idtac. assert (Q : Rsqr (b - a) <= Rsqr r) by (unfold Rsqr; lra). apply Rsqr_le_abs_0 in Q. rewrite (Rabs_right r) in Q by lra. exact Q.
  - cbn [nth]. apply IH; [cbn in L; lia|lra|lia].
Qed.
Definition middle (lim : list (R * R)) : point := map (fun e => (fst e + snd e) / 2) lim.
Lemma middle_in lim : limits_ok lim -> in_box lim (middle lim).
Proof. intros H. unfold middle, in_box. induction H; cbn [map]; constructor; auto. lra. Qed.
Lemma middle_coord h lim : forall x, 0 <= h -> box_size_below h lim -> in_box lim x -> forall i, (i < length lim)%nat -> Rabs (nth i x 0 - nth i (middle lim) 0) <= h / 2.
Proof.
  unfold middle. induction lim as [|[a b] lim IH]; intros x Hh B Hx i Hi; cbn in Hi; [lia|]. inversion Hx as [|? u ? x' Hu Hx']; subst. inversion B as [|? ? Hb B']; subst. cbn [fst snd] in *. destruct i as [|i]; cbn [map nth fst snd]; [apply Rabs_le; lra|]. apply IH; auto. lia.
Qed.

(** *** meshes of boxes *)
Theorem C92_boxes : forall lim m q F d M h, lim <> [] -> List.Forall (fun e => fst e < snd e) lim ->
  exact (length lim) d (fun k => cube_mean (length lim) (mono k)) q -> List.Forall (fun wp => in_cube (length lim) (snd wp)) q ->
  continuous_in (in_box lim) (F []) -> has_partials (length lim) (S d) (in_box lim) F -> partials_bounded (length lim) (S d) (in_box lim) F M -> 0 <= M ->
  0 < h -> boxes_of lim m -> List.Forall (box_size_below h) m ->
  exists vs, mapM (fun c => cn_integrate (length lim) 0 q (F []) (ncube_points c)) m = Some vs /\
    Rabs (Rsum vs - box_int lim (F [])) <= Rprod (map (fun e => snd e - fst e) lim) * (1 + weights_abs q) * (M * (INR (length lim) * (h / 2)) ^ S d / INR (fact (S d))).
Proof.
  intros lim m q F d M h Hn S X Q C P PB HM Hh B Sz. assert (L : limits_ok lim) by (eapply Forall_impl; [|exact S]; cbn; intros; lra). destruct (box_size lim m B L) as [_ FB].
  apply (C91_boxes_error lim m q (F []) d); auto. intros c Hc. rewrite Forall_forall in FB, Sz. destruct (FB c Hc) as (Lc & Oc & Ic). specialize (Sz c Hc). assert (M0 : in_box lim (middle c)) by (apply Ic, middle_in; exact Oc).
  destruct (taylor_nd (length lim) d (in_box lim) F M (h / 2) (middle c)) as (p & Hp & T); auto; [lra|unfold middle; rewrite map_length; exact Lc|]. exists p. split; [exact Hp|]. intros x Hx. apply T.
  - apply Ic in Hx. symmetry. clear - Hx. induction Hx; cbn; congruence.
  - apply Ic. exact Hx.
  - intros t Ht. apply convex_box; auto.
  - intros i Hi. apply (middle_coord h c); auto; [lra|]. rewrite Lc. exact Hi.
Qed.
Print Assumptions C92_boxes.
(** *** meshes of simplices *)
Theorem C92_simplices : forall n V m q F d M h, length V = (n + 1)%nat -> List.Forall (fun v : point => length v = n) V ->
  exact (n + 1) d (fun k => simplex_mean n (mono k)) q -> List.Forall (fun wp => in_bary n (snd wp)) q ->
  continuous_in (in_simplex n V) (F []) -> has_partials n (S d) (in_simplex n V) F -> partials_bounded n (S d) (in_simplex n V) F M -> 0 <= M ->
  0 < h -> simplices_of V m -> List.Forall (simplex_size_below h) m ->
  exists vs, mapM (tn_integrate n q (F [])) m = Some vs /\
    Rabs (Rsum vs - simplex_integral n V (F [])) <= Rabs (det n (edges V)) / INR (fact n) * (1 + weights_abs q) * (M * (INR n * h) ^ S d / INR (fact (S d))).
Proof.
  intros n V m q F d M h LV FV X Q C P PB HM Hh B Sz. destruct (mesh_simplices n V m B (conj LV FV)) as (_ & FB & _).
  apply (C91_simplices_error n V m q (F []) d); auto. intros c Hc. rewrite Forall_forall in FB, Sz. destruct (FB c Hc) as (Oc & Ic). specialize (Sz c Hc). destruct (vertex_in n c Oc) as (x0 & I0).
  destruct (taylor_nd n d (in_simplex n V) F M h x0) as (p & Hp & T); auto; [lra|apply (in_simplex_len n c); exact I0|]. exists p. split; [exact Hp|]. intros x Hx. apply T.
  - apply (in_simplex_len n c). exact Hx.
  - apply Ic. exact Hx.
  - intros t Ht. apply convex_simplex; auto.
  - intros i Hi. left. apply nth_close; [apply (simplex_close n h c); auto|]. rewrite (in_simplex_len n c x Hx). exact Hi.
Qed.
Print Assumptions C92_simplices.
(** *** one call for a ball or a sphere; for the sphere the derivatives are those of an extension of the integrand to the ball *)
Theorem C92_ball : forall c r q F d M, c <> [] -> 0 <= r ->
  exact (length c) d (fun k => ball_mean (length c) (mono k)) q -> List.Forall (fun wp => in_ball (length c) (snd wp)) q ->
  continuous_in (in_ball_at c r) (F []) -> has_partials (length c) (S d) (in_ball_at c r) F -> partials_bounded (length c) (S d) (in_ball_at c r) F M -> 0 <= M ->
  Rabs (sn_integrate (length c) q (F []) c r - ball_int_at c r (F [])) <= ball_int (length c) r (fun _ => 1) * (1 + weights_abs q) * (M * (INR (length c) * r) ^ S d / INR (fact (S d))).
Proof.
  intros c r q F d M Hc Hr X Q C P PB HM. assert (C0 : in_ball_at c r c) by (split; [reflexivity|]; replace (dist2 c c) with 0; [apply pow2_ge_0|]; clear; unfold dist2; induction c; cbn [List.combine map Rsum fst snd]; [reflexivity|rewrite <- IHc; ring]).
  destruct (taylor_nd (length c) d (in_ball_at c r) F M r c) as (p & Hp & T); auto. apply (C84_ball_error c r q (F []) d p); auto. intros x Hx. apply T; auto; [apply Hx|intros; apply ball_segment; auto|]. destruct Hx. apply ball_coord; auto.
Qed.
Print Assumptions C92_ball.
Theorem C92_sphere : forall c r q F d M, c <> [] -> 0 <= r ->
  exact (length c) d (fun k => sphere_mean (length c) (mono k)) q -> List.Forall (fun wp => on_sphere (length c) (snd wp)) q ->
  continuous_in (on_sphere_at c r) (F []) -> has_partials (length c) (S d) (in_ball_at c r) F -> partials_bounded (length c) (S d) (in_ball_at c r) F M -> 0 <= M ->
  Rabs (un_integrate (length c) q (F []) c r - sphere_int_at c r (F [])) <= sphere_int_at c r (fun _ => 1) * (1 + weights_abs q) * (M * (INR (length c) * r) ^ S d / INR (fact (S d))).
Proof.
  intros c r q F d M Hc Hr X Q C P PB HM. assert (C0 : in_ball_at c r c) by (split; [reflexivity|]; replace (dist2 c c) with 0; [apply pow2_ge_0|]; clear; unfold dist2; induction c; cbn [List.combine map Rsum fst snd]; [reflexivity|rewrite <- IHc; ring]).
  destruct (taylor_nd (length c) d (in_ball_at c r) F M r c) as (p & Hp & T); auto. apply (C84_sphere_error c r q (F []) d p); auto. intros x [Lx Dx]. assert (Hx : in_ball_at c r x) by (split; [exact Lx|lra]).
  apply T; auto; [intros; apply ball_segment; auto|]. apply ball_coord; auto. lra.
Qed.
Print Assumptions C92_sphere.

(** *** exp(x + y): all partial derivatives are exp(x + y) *)
Definition expsum (w : list nat) (x : point) : R := exp (nth 0 x 0 + nth 1 x 0).
Lemma expsum_partials r (D : point -> Prop) : (forall x, D x -> length x = 2%nat) -> has_partials 2 r D expsum.
Proof.
  intros HD w _ _ c x Hc Hx t _. apply HD in Hc, Hx. destruct c as [|c0 [|c1 [|? ?]]]; try discriminate. destruct x as [|x0 [|x1 [|? ?]]]; try discriminate. unfold expsum, between. cbn [List.combine map fst snd nth seq Rsum].
  auto_derive; [exact I|]. change (1 + - t) with (1 - t). ring.
Qed.
Lemma expsum_cont (D : point -> Prop) : (forall x, D x -> length x = 2%nat) -> continuous_in D (expsum []).
Proof.
  intros HD x Hx eps He. apply HD in Hx. destruct x as [|x0 [|x1 [|? ?]]]; try discriminate. unfold expsum. cbn [nth].
  assert (C : continuity_pt exp (x0 + x1)) by (apply derivable_continuous_pt, derivable_pt_exp). destruct (C eps He) as (al & Hal & H). exists (al / 2). split; [lra|]. intros y Hy Hc. apply HD in Hy. destruct y as [|y0 [|y1 [|? ?]]]; try discriminate. cbn [nth].
  inversion Hc as [|? ? ? ? H0 Hc']; subst. inversion Hc' as [|? ? ? ? H1 _]; subst. destruct (Req_dec (y0 + y1) (x0 + x1)) as [E|E]; [rewrite E; replace (exp (x0 + x1) - exp (x0 + x1)) with 0 by ring; rewrite Rabs_R0; exact He|].
  apply (H (y0 + y1)). split; [split; [exact I|auto]|]. unfold dist; cbn. unfold R_dist. replace (y0 + y1 - (x0 + x1)) with ((y0 - x0) + (y1 - x1)) by ring. eapply Rle_lt_trans; [apply Rabs_triang|]. lra.
Qed.
Lemma box2 x : in_box [(0, 1); (-1, 2)] x -> length x = 2%nat /\ nth 0 x 0 + nth 1 x 0 <= 3.
Proof. intros Hx. inversion Hx as [|? a ? ? Ha H]; subst; inversion H as [|? b ? ? Hb H']; subst; inversion H'; subst. cbn in *. split; [reflexivity|lra]. Qed.
Example C92_case_boxes : exists q, weights_abs q = 1 /\ forall h, 0 < h -> exists m vs, boxes_of [(0, 1); (-1, 2)] m /\
  mapM (fun c => cn_integrate 2 0 q (expsum []) (ncube_points c)) m = Some vs /\ Rabs (Rsum vs - box_int [(0, 1); (-1, 2)] (expsum [])) <= exp 3 / 4 * h ^ 4.
Proof.
  destruct C84_ex_error as (q & X & Dq & W & _). exists q. split; [exact W|]. intros h Hh.
  assert (F : List.Forall (fun e => fst e < snd e) [(0, 1); (-1, 2)]) by (apply List.Forall_cons; [cbn; lra|apply List.Forall_cons; [cbn; lra|constructor]]).
  destruct (C91_boxes_refine [(0, 1); (-1, 2)] F h Hh) as (m & M & S). exists m.
  destruct (C92_boxes [(0, 1); (-1, 2)] m q expsum 3 (exp 3) h) as (vs & E & B); auto.
  - discriminate.
  - apply expsum_cont. intros x Hx. apply (box2 x Hx).
  - apply expsum_partials. intros x Hx. apply (box2 x Hx).
  - intros w _ _ x Hx. unfold expsum. destruct (box2 x Hx) as [_ B]. rewrite Rabs_right by (left; apply exp_pos). destruct (Rle_lt_or_eq_dec _ _ B) as [B'|B']; [left; apply exp_increasing; exact B'|rewrite B'; lra].
  - left. apply exp_pos.
  - exists vs. split; [exact M|]. split; [exact E|]. eapply Rle_trans; [exact B|]. rewrite W. cbn [map Rprod fst snd List.length]. replace (INR (fact 4)) with 24 by (cbn; ring). replace (INR 2) with 2 by (cbn; ring). right. field.
Qed.
Lemma exp_le x y : x <= y -> exp x <= exp y.
Proof. intros [H| ->]; [left; apply exp_increasing; exact H|lra]. Qed.
Lemma half_disk x : in_ball_at [0; 0] (1 / 2) x -> length x = 2%nat /\ nth 0 x 0 + nth 1 x 0 <= 1.
Proof.
  intros [L H]. split; [exact L|]. assert (B := ball_coord [0; 0] (1 / 2) ltac:(lra) x L H). assert (B0 := B 0%nat ltac:(cbn; lia)). assert (B1 := B 1%nat ltac:(cbn; lia)). cbn [nth] in B0, B1. apply Rabs_le_between in B0, B1. lra.
Qed.
Lemma expsum_half r : partials_bounded 2 r (in_ball_at [0; 0] (1 / 2)) expsum (exp 1).
Proof. intros w _ _ x Hx. unfold expsum. destruct (half_disk x Hx) as [_ B]. rewrite Rabs_right by (left; apply exp_pos). apply exp_le. exact B. Qed.
(** The error decreases like 1 / (d+1)! on a disk of radius 1/2 and on its boundary ... *)
Example C92_case_ball : exists W, forall d, exists q, exact 2 d (fun k => ball_mean 2 (mono k)) q /\
  Rabs (sn_integrate 2 q (expsum []) [0; 0] (1 / 2) - ball_int_at [0; 0] (1 / 2) (expsum [])) <= ball_int 2 (1 / 2) (fun _ => 1) * W * (exp 1 / INR (fact (S d))).
Proof.
  destruct PropS2S3.C57_leggauss_exists as (lg & HL). destruct (lether_growing lg HL) as (W & G). exists (1 + W). intros d. destruct (G d) as (N & HN). destruct (HN N (le_n N)) as (q & _ & X & Q & HW). exists q. split; [exact X|].
  eapply Rle_trans; [apply (C92_ball [0; 0] (1 / 2) q expsum d (exp 1)); auto|].
  - discriminate.
  - lra.
  - apply expsum_cont. intros x Hx. apply (half_disk x Hx).
  - apply expsum_partials. intros x Hx. apply (half_disk x Hx).
  - apply expsum_half.
  - left. apply exp_pos.
  - cbn [List.length]. replace (INR 2 * (1 / 2)) with 1 by (cbn; field). rewrite pow1, Rmult_1_r. destruct (ball_values [0; 0] (1 / 2) [] (fun _ => 0) ltac:(discriminate) ltac:(lra)) as (_ & _ & P); [intros x _ eps He; exists 1; split; [lra|]; intros; rewrite Rminus_0_r, Rabs_R0; exact He|].
    apply Rmult_le_compat_r; [apply Rlt_le, Rdiv_lt_0_compat; [apply exp_pos|apply lt_0_INR, lt_O_fact]|]. apply Rmult_le_compat_l; [exact P|lra].
Qed.
Example C92_case_sphere : exists W, forall d, exists q, exact 2 d (fun k => sphere_mean 2 (mono k)) q /\
  Rabs (un_integrate 2 q (expsum []) [0; 0] (1 / 2) - sphere_int_at [0; 0] (1 / 2) (expsum [])) <= sphere_int_at [0; 0] (1 / 2) (fun _ => 1) * W * (exp 1 / INR (fact (S d))).
Proof.
  destruct krylov_growing as (W & G). exists (1 + W). intros d. destruct (G d) as (N & HN). destruct (HN N (le_n N)) as (q & _ & X & Q & HW). exists q. split; [exact X|].
  eapply Rle_trans; [apply (C92_sphere [0; 0] (1 / 2) q expsum d (exp 1)); auto|].
  - discriminate.
  - lra.
  - apply expsum_cont. intros x [L _]. exact L.
  - apply expsum_partials. intros x Hx. apply (half_disk x Hx).
  - apply expsum_half.
  - left. apply exp_pos.
  - cbn [List.length]. replace (INR 2 * (1 / 2)) with 1 by (cbn; field). rewrite pow1, Rmult_1_r. destruct (sphere_values [0; 0] (1 / 2) [] (fun _ => 0) ltac:(discriminate) ltac:(lra)) as (_ & _ & P).
    apply Rmult_le_compat_r; [apply Rlt_le, Rdiv_lt_0_compat; [apply exp_pos|apply lt_0_INR, lt_O_fact]|]. apply Rmult_le_compat_l; [exact P|lra].
Qed.
(** ... and like h^(d+1) on meshes of a triangle. *)
Lemma triangle_3 x : in_simplex 2 [[0; 0]; [2; 1]; [1; 2]] x -> length x = 2%nat /\ nth 0 x 0 + nth 1 x 0 <= 3.
Proof.
  intros (l & (L & F & S) & ->). split; [reflexivity|]. destruct l as [|a [|b [|c [|? ?]]]]; try discriminate. inversion F as [|? ? Ha F1]; subst. inversion F1 as [|? ? Hb F2]; subst. inversion F2 as [|? ? Hc F3]; subst. cbn [List.combine map Rsum fst snd nth seq] in *. lra.
Qed.
Example C92_case_simplices : exists W, forall d, exists q, exact 3 d (fun k => simplex_mean 2 (mono k)) q /\ forall h, 0 < h -> exists m vs, simplices_of [[0; 0]; [2; 1]; [1; 2]] m /\
  mapM (tn_integrate 2 q (expsum [])) m = Some vs /\ Rabs (Rsum vs - simplex_integral 2 [[0; 0]; [2; 1]; [1; 2]] (expsum [])) <= W * (2 * h) ^ S d / INR (fact (S d)).
Proof.
  destruct C33_solver_exists as (eigh & HE). destruct (t2_lether_growing eigh HE) as (W & G). set (V := [[0; 0]; [2; 1]; [1; 2]]). assert (F : List.Forall (fun v : point => length v = 2%nat) V) by repeat constructor.
  set (A := Rabs (det 2 (edges V)) / INR (fact 2)). assert (HA : 0 <= A) by (apply (simplex_values 2 V [] (fun _ => 0) eq_refl F)). exists (A * (1 + W) * exp 3). intros d. destruct (G d) as (N & HN). destruct (HN N (le_n N)) as (q & _ & X & Q & HW). exists q. split; [exact X|]. intros h Hh.
  destruct (C91_simplices_refine 2 V eq_refl F h Hh) as (m & M & S). exists m. destruct (C92_simplices 2 V m q expsum d (exp 3) h) as (vs & E & B); auto.
  - apply expsum_cont. intros x Hx. apply (triangle_3 x Hx).
  - apply expsum_partials. intros x Hx. apply (triangle_3 x Hx).
  - intros w _ _ x Hx. unfold expsum. destruct (triangle_3 x Hx) as [_ B]. rewrite Rabs_right by (left; apply exp_pos). apply exp_le. exact B.
  - left. apply exp_pos.
  - exists vs. split; [exact M|]. split; [exact E|]. eapply Rle_trans; [exact B|]. fold A. change (INR 2) with 2. set (K := (2 * h) ^ Datatypes.S d / INR (fact (Datatypes.S d))).
    assert (HK : 0 <= K) by (apply Rlt_le, Rdiv_lt_0_compat; [apply pow_lt; lra|apply lt_0_INR, lt_O_fact]). replace (exp 3 * (2 * h) ^ Datatypes.S d / INR (fact (Datatypes.S d))) with (exp 3 * K) by (unfold K, Rdiv; ring). replace (A * (1 + W) * exp 3 * (2 * h) ^ Datatypes.S d / INR (fact (Datatypes.S d))) with (A * (1 + W) * (exp 3 * K)) by (unfold K, Rdiv; ring).
    apply Rmult_le_compat_r; [apply Rmult_le_pos; [left; apply exp_pos|exact HK]|]. apply Rmult_le_compat_l; [exact HA|lra].
Qed.
