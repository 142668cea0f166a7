(** C91: summing scheme.integrate over the cells of a mesh.
    MeshSpec.v: [boxes_of lim m] ([m] lists the boxes that result from the box [lim] by cutting it, and its parts, along the axes again and again),
    [simplices_of V m] (the same for simplices, which are cut at a point of an edge), [box_size_below h], [simplex_size_below h] (the sizes of cells).
    ConvNdSpec.v: [continuous_in D f], [in_box], [in_simplex], [in_cube], [in_bary], [weights_abs q] (sum of the |w_i|).
    [cn_integrate n 0 q f (ncube_points c)] and [tn_integrate n q f c] model the calls scheme.integrate(f, cell). *)
From Coq Require Import Reals List Arith ZArith Lia Lra Permutation.
From Coq Require Import ClassicalEpsilon.
From Coquelicot Require Import Coquelicot.
From Verif Require Import Spec Spec1 RsumLemmas IntegralSpec IntegralProofs IntegralProofs2 IntegralPoly PyBase CubeModel CubeProofs OrbitModel
  GeomModel GeomProofs SimplexVol SimplexInt TnModel2 PolyFun ConvSpec ConvNdSpec WeierNd IterInt ConvNdExt ConvNdProofs ConvNdGeom PropCube PropConvNd MeshSpec MeshProofs MeshSimplex MeshCut MeshFine.
Import ListNotations.
Set Bullet Behavior "Strict Subproofs".
Open Scope R_scope.
Local Notation length := List.length.

(** *** adding up *)
Lemma mesh_total {A} (m : list A) (call : A -> option R) (I vol : A -> R) K : (forall c, In c m -> exists v, call c = Some v /\ Rabs (v - I c) <= vol c * K) ->
  exists vs, mapM call m = Some vs /\ Rabs (Rsum vs - Rsum (map I m)) <= Rsum (map vol m) * K.
Proof.
  induction m as [|c m IH]; intros H; [exists []; split; [reflexivity|]; cbn; rewrite Rminus_0_r, Rabs_R0; lra|].
  destruct (H c (or_introl eq_refl)) as (v & Ev & Hv). destruct IH as (vs & Evs & Hvs); [intros; apply H; now right|]. exists (v :: vs). cbn [mapM]. rewrite Ev, Evs. split; [reflexivity|]. cbn [map Rsum].
  replace (v + Rsum vs - (I c + Rsum (map I m))) with ((v - I c) + (Rsum vs - Rsum (map I m))) by ring. eapply Rle_trans; [apply Rabs_triang|]. lra.
Qed.
(** *** Errors: if on each cell a polynomial of degree at most d is within e of the integrand, the sum is within (volume) * (1 + sum |w_i|) * e of the
    integral over the whole box; in particular it is exact for integrands that are such a polynomial on each cell. *)
Theorem C91_boxes_error : forall lim m q f d e, lim <> [] -> List.Forall (fun e => fst e < snd e) lim -> boxes_of lim m ->
  exact (length lim) d (fun k => cube_mean (length lim) (mono k)) q -> List.Forall (fun wp => in_cube (length lim) (snd wp)) q -> continuous_in (in_box lim) f ->
  (forall c, In c m -> exists p, mp_ok (length lim) d p /\ forall x, in_box c x -> Rabs (f x - mpeval p x) <= e) ->
  exists vs, mapM (fun c => cn_integrate (length lim) 0 q f (ncube_points c)) m = Some vs /\
    Rabs (Rsum vs - box_int lim f) <= Rprod (map (fun e => snd e - fst e) lim) * (1 + weights_abs q) * e.
Proof.
  intros lim m q f d e Hn S B X Q C H. assert (L : limits_ok lim) by (eapply Forall_impl; [|exact S]; cbn; intros; lra). destruct (box_size lim m B L) as [V F].
  destruct (mesh_total m (fun c => cn_integrate (length lim) 0 q f (ncube_points c)) (fun c => box_int c f) box_vol ((1 + weights_abs q) * e)) as (vs & Ev & Hv).
  - intros c Hc. rewrite Forall_forall in F. destruct (F c Hc) as (Lc & Oc & Ic). destruct (H c Hc) as (p & Hp & Hx). rewrite <- Lc in *. destruct (C84_box_error c q f d p e) as (v & E & G); auto.
    + intros ->. destruct lim; [congruence|discriminate].
    + apply (continuous_sub _ (in_box lim)); auto.
    + exists v. split; [exact E|]. rewrite <- Rmult_assoc. exact G.
  - exists vs. split; [exact Ev|]. rewrite V, (box_sum lim m f B S C) in Hv. rewrite <- Rmult_assoc in Hv. exact Hv.
Qed.
Print Assumptions C91_boxes_error.
Theorem C91_simplices_error : forall n V m q f d e, length V = (n + 1)%nat -> List.Forall (fun v : point => length v = n) V -> simplices_of V m ->
  exact (n + 1) d (fun k => simplex_mean n (mono k)) q -> List.Forall (fun wp => in_bary n (snd wp)) q -> continuous_in (in_simplex n V) f ->
  (forall c, In c m -> exists p, mp_ok n d p /\ forall x, in_simplex n c x -> Rabs (f x - mpeval p x) <= e) ->
  exists vs, mapM (tn_integrate n q f) m = Some vs /\
    Rabs (Rsum vs - simplex_integral n V f) <= Rabs (det n (edges V)) / INR (fact n) * (1 + weights_abs q) * e.
Proof.
  intros n V m q f d e LV FV B X Q C H. destruct (mesh_simplices n V m B (conj LV FV)) as (W & F & I).
  destruct (mesh_total m (tn_integrate n q f) (fun c => simplex_integral n c f) (simplex_vol n) ((1 + weights_abs q) * e)) as (vs & Ev & Hv).
  - intros c Hc. rewrite Forall_forall in F. destruct (F c Hc) as ((Lc & Oc) & Ic). destruct (H c Hc) as (p & Hp & Hx). destruct (C84_simplex_error n c q f d p e) as (v & E & G); auto.
    + apply (continuous_sub _ (in_simplex n V)); auto.
    + exists v. split; [exact E|]. rewrite <- Rmult_assoc. exact G.
  - exists vs. split; [exact Ev|]. rewrite W, (I f C) in Hv. rewrite <- Rmult_assoc in Hv. exact Hv.
Qed.
Print Assumptions C91_simplices_error.

(** *** uniform continuity *)
Lemma close_sym d x y : close d x y -> close d y x.
Proof. intros H. induction H; constructor; auto. rewrite Rabs_minus_sym. assumption. Qed.
Lemma box_uniform lim f : List.Forall (fun e => fst e < snd e) lim -> continuous_in (in_box lim) f -> forall eps, 0 < eps -> exists h, 0 < h /\
  forall x y, in_box lim x -> in_box lim y -> close h x y -> Rabs (f x - f y) < eps.
Proof.
  intros S C eps He. assert (L : limits_ok lim) by (eapply Forall_impl; [|exact S]; cbn; intros; lra).
  destruct (continuous_ucont _ _ (box_cont lim f L C) eps He) as (d & Hd & U).
  assert (W : exists w, 0 < w /\ List.Forall (fun e => w <= (snd e - fst e) / 2) lim).
  { clear - S. induction S as [|[a b] lim Hab S (w & Hw & F)]; [exists 1; split; [lra|constructor]|]. cbn [fst snd] in *. exists (Rmin w ((b - a) / 2)). split; [apply Rmin_pos; lra|]. constructor; [apply Rmin_r|]. eapply Forall_impl; [|exact F]. cbn. intros e He. eapply Rle_trans; [apply Rmin_l|exact He]. }
  destruct W as (w & Hw & FW). exists (d * w). split; [apply Rmult_lt_0_compat; auto|]. intros x y Hx Hy Hc.
  set (un := fun x : point => map (fun ex : R * R * R => (snd ex - (fst (fst ex) + snd (fst ex)) / 2) / ((snd (fst ex) - fst (fst ex)) / 2)) (List.combine lim x)).
  assert (G : in_cube (length lim) (un x) /\ box_map lim (un x) = x /\ in_cube (length lim) (un y) /\ box_map lim (un y) = y /\ close d (un x) (un y)).
  { unfold un. clear - S FW Hx Hy Hc Hd Hw. revert x y Hx Hy Hc. induction S as [|[a b] lim Hab S IH]; intros x y Hx Hy Hc; inversion Hx as [|? t ? x' Ht Hx']; inversion Hy as [|? s ? y' Hs Hy']; subst; cbn [fst snd] in *.
    - repeat split; constructor.
    - inversion Hc as [|? ? ? ? Hts Hc']; subst. inversion FW as [|? ? Wab FW']; subst. cbn [fst snd] in Wab. destruct (IH FW' x' y' Hx' Hy' Hc') as ([L1 Q1] & E1 & [L2 Q2] & E2 & K). unfold box_map in *. cbn [List.combine map fst snd length].
      assert (R1 : forall z, a <= z <= b -> -1 <= (z - (a + b) / 2) / ((b - a) / 2) <= 1).
      { intros z Hz. split; (apply Rmult_le_reg_r with ((b - a) / 2); [lra|]); replace ((z - (a + b) / 2) / ((b - a) / 2) * ((b - a) / 2)) with (z - (a + b) / 2) by (field; lra); lra. }
      repeat split; try (cbn [length] in *; congruence); try (constructor; auto; fail); try (f_equal; [field; lra|assumption]). constructor; [|exact K].
      replace ((t - (a + b) / 2) / ((b - a) / 2) - (s - (a + b) / 2) / ((b - a) / 2)) with ((t - s) / ((b - a) / 2)) by (field; lra). unfold Rdiv at 1. rewrite Rabs_mult, (Rabs_right (/ _)) by (left; apply Rinv_0_lt_compat; lra).
      apply Rmult_lt_reg_r with ((b - a) / 2); [lra|]. rewrite Rmult_assoc, Rinv_l, Rmult_1_r by lra. eapply Rlt_le_trans; [exact Hts|]. apply Rmult_le_compat_l; lra. }
  destruct G as (Q1 & E1 & Q2 & E2 & K). rewrite <- E1, <- E2. apply U; auto.
Qed.
Lemma const_poly n d c : mp_ok n d [(c, repeat 0%nat n)] /\ forall x, mpeval [(c, repeat 0%nat n)] x = c.
Proof. split; [constructor; [|constructor]; cbn [snd]; rewrite repeat_length, tdeg_zero; split; [reflexivity|lia]|]. intros x. unfold mpeval. cbn [map Rsum fst snd]. rewrite mono_zero. ring. Qed.
Lemma box_close h lim : forall x y, box_size_below h lim -> in_box lim x -> in_box lim y -> close h x y.
Proof.
  induction lim as [|[a b] lim IH]; intros x y B Hx Hy; inversion Hx as [|? t ? x' Ht Hx']; inversion Hy as [|? s ? y' Hs Hy']; subst; [constructor|]. inversion B as [|? ? Hab B']; subst. cbn [fst snd] in *. constructor; [|apply IH; auto]. apply Rabs_def1; lra.
Qed.
Lemma small_factor eps B : 0 < eps -> 0 <= B -> 0 < eps / (B + 1) /\ B * (eps / (B + 1)) < eps.
Proof.
  intros He HB. assert (0 < eps / (B + 1)) by (apply Rdiv_lt_0_compat; lra). split; [assumption|]. replace eps with ((B + 1) * (eps / (B + 1))) at 2 by (field; lra). lra.
Qed.
(** *** Convergence: with any scheme that is exact for constants the sums tend to the integral as the cells shrink. *)
Theorem C91_boxes : forall lim q f, lim <> [] -> List.Forall (fun e => fst e < snd e) lim ->
  exact (length lim) 0 (fun k => cube_mean (length lim) (mono k)) q -> List.Forall (fun wp => in_cube (length lim) (snd wp)) q -> continuous_in (in_box lim) f ->
  forall eps, 0 < eps -> exists h, 0 < h /\ forall m, boxes_of lim m -> List.Forall (box_size_below h) m ->
  exists vs, mapM (fun c => cn_integrate (length lim) 0 q f (ncube_points c)) m = Some vs /\ Rabs (Rsum vs - box_int lim f) < eps.
Proof.
  intros lim q f Hn S X Q C eps He. assert (L : limits_ok lim) by (eapply Forall_impl; [|exact S]; cbn; intros; lra). set (K := Rprod (map (fun e => snd e - fst e) lim) * (1 + weights_abs q)).
  assert (HK : 0 <= K) by (unfold K; apply Rmult_le_pos; [apply (box_vol_ge0 lim L)|pose proof (weights_abs_ge0 q); lra]). destruct (small_factor eps K He HK) as [E0 E1].
  destruct (box_uniform lim f S C _ E0) as (h & Hh & U). exists h. split; [exact Hh|]. intros m B Sz. destruct (box_size lim m B L) as [_ F].
  destruct (C91_boxes_error lim m q f 0 (eps / (K + 1)) Hn S B X Q C) as (vs & Ev & Hv).
  - intros c Hc. rewrite Forall_forall in F, Sz. destruct (F c Hc) as (Lc & Oc & Ic). specialize (Sz c Hc). set (x0 := map fst c). assert (I0 : in_box c x0) by (unfold x0; clear - Oc; induction Oc; constructor; auto; lra).
    destruct (const_poly (length lim) 0 (f x0)) as [P0 P1]. exists [(f x0, repeat 0%nat (length lim))]. split; [exact P0|]. intros x Hx. rewrite P1. left. apply U; auto. apply (box_close h c); auto.
  - exists vs. split; [exact Ev|]. fold K in Hv. lra.
Qed.
Print Assumptions C91_boxes.
Lemma comb_between (V : list point) k lo hi : forall l, length l = length V -> List.Forall (fun t => 0 <= t) l -> (forall v, In v V -> lo <= nth k v 0 <= hi) ->
  Rsum l * lo <= Rsum (map (fun lv => fst lv * nth k (snd lv) 0) (List.combine l V)) <= Rsum l * hi.
Proof.
  induction V as [|v V IH]; intros [|t l] H F B; try discriminate; [cbn; lra|]. inversion F; subst. cbn [List.combine map Rsum fst snd]. pose proof (B v (or_introl eq_refl)). destruct (IH l) as [I1 I2]; [cbn in H; lia|assumption|intros w Hw; apply B; now right|].
  assert (t * lo <= t * nth k v 0 <= t * hi) by (split; apply Rmult_le_compat_l; lra). rewrite !Rmult_plus_distr_r. lra.
Qed.
Lemma nth_close h x : forall y k, close h x y -> (k < length x)%nat -> Rabs (nth k x 0 - nth k y 0) < h.
Proof. intros y k H. revert k. induction H as [|a b x y Hab H IH]; intros [|k] L; cbn in *; try lia; auto. apply IH. lia. Qed.
Lemma close_nth h x : forall y, length x = length y -> (forall k, (k < length x)%nat -> Rabs (nth k x 0 - nth k y 0) < h) -> close h x y.
Proof. induction x as [|a x IH]; intros [|b y] L H; try discriminate; [constructor|]. constructor; [apply (H 0%nat); cbn; lia|]. apply IH; [cbn in L; lia|]. intros k Hk. apply (H (S k)). cbn. lia. Qed.
Lemma in_simplex_len n V x : in_simplex n V x -> length x = n.
Proof. intros (l & _ & ->). rewrite map_length, seq_length. reflexivity. Qed.
Lemma in_simplex_nth n V x k : in_simplex n V x -> (k < n)%nat -> exists l, in_bary n l /\ nth k x 0 = Rsum (map (fun lv => fst lv * nth k (snd lv) 0) (List.combine l V)).
Proof. intros (l & B & ->) Hk. exists l. split; [exact B|]. rewrite (CubeProofs.nth_map_seq _ n 0 k Hk). reflexivity. Qed.
(** the largest and the smallest of the k-th coordinates of the vertices *)
Lemma extreme (V : list point) k : V <> [] -> exists a b, In a V /\ In b V /\ forall v, In v V -> nth k a 0 <= nth k v 0 <= nth k b 0.
Proof.
  induction V as [|v V IH]; intros H; [congruence|]. destruct V as [|w V]; [exists v, v; repeat split; try (now left); destruct H0 as [<-|[]]; lra|].
  destruct IH as (a & b & Ha & Hb & K); [discriminate|]. exists (if Rle_dec (nth k v 0) (nth k a 0) then v else a), (if Rle_dec (nth k b 0) (nth k v 0) then v else b).
  split; [destruct (Rle_dec _ _); [now left|now right]|]. split; [destruct (Rle_dec (nth k b 0) _); [now left|now right]|].
  pose proof (K a Ha). pose proof (K b Hb). intros u [<-|Hu]; [|pose proof (K u Hu)]; destruct (Rle_dec (nth k v 0) (nth k a 0)), (Rle_dec (nth k b 0) (nth k v 0)); lra.
Qed.
Lemma simplex_close n h V x y : simplex_ok n V -> simplex_size_below h V -> in_simplex n V x -> in_simplex n V y -> close h x y.
Proof.
  intros [LV FV] Sz Hx Hy. pose proof (in_simplex_len n V x Hx) as Lx. pose proof (in_simplex_len n V y Hy) as Ly. apply close_nth; [congruence|]. intros k Hk. rewrite Lx in Hk.
  destruct (in_simplex_nth n V x k Hx Hk) as (l & (L1 & F1 & S1) & ->). destruct (in_simplex_nth n V y k Hy Hk) as (l' & (L2 & F2 & S2) & ->).
  destruct (extreme V k) as (a & b & Ha & Hb & K); [destruct V; [cbn in LV; lia|discriminate]|].
  pose proof (comb_between V k (nth k a 0) (nth k b 0) l ltac:(lia) F1 K) as C1. pose proof (comb_between V k (nth k a 0) (nth k b 0) l' ltac:(lia) F2 K) as C2. rewrite S1 in C1. rewrite S2 in C2.
  rewrite Forall_forall in FV. pose proof (nth_close h b a k (Sz b a Hb Ha) ltac:(rewrite (FV b Hb); exact Hk)) as D. apply Rabs_def2 in D. apply Rabs_def1; lra.
Qed.
Lemma image_uniform n (D : point -> Prop) f phi : (forall x, in_cube n x -> D (phi x)) -> map_cont (in_cube n) phi -> (forall z, D z -> exists x, in_cube n x /\ phi x = z) -> continuous_in D f ->
  forall eps, 0 < eps -> exists h, 0 < h /\ forall y z, D y -> D z -> close h y z -> Rabs (f y - f z) < eps.
Proof.
  intros P M Sj C eps He.
  assert (CH : forall t : Tn n R, {d : posreal | in_cube n (nt n t) -> forall x z, in_cube n x -> D z -> close d x (nt n t) -> close d (phi x) z -> Rabs (f (phi x) - f z) < eps}).
  { intros t. apply constructive_indefinite_description. destruct (excluded_middle_informative (in_cube n (nt n t))) as [H|H].
    - destruct (C _ (P _ H) (eps / 2) ltac:(lra)) as (d & Hd & K). destruct (M _ H (d / 2) ltac:(lra)) as (d' & Hd' & K'). assert (Hd2 : 0 < Rmin d' (d / 2)) by (apply Rmin_pos; lra). exists (mkposreal _ Hd2). cbn. intros _ x z Hx Hz Hc Hc'.
      assert (A : close (d / 2) (phi x) (phi (nt n t))) by (apply K'; [exact Hx|]; eapply close_le; [apply Rmin_l|exact Hc]).
      assert (B : close d z (phi (nt n t))) by (replace d with (d / 2 + d / 2) by field; eapply close_trans; [apply close_sym; eapply close_le; [apply Rmin_r|exact Hc']|exact A]).
      pose proof (K _ (P _ Hx) (close_le (d / 2) d _ _ ltac:(lra) A)) as K1. pose proof (K _ Hz B) as K2.
      replace (f (phi x) - f z) with ((f (phi x) - f (phi (nt n t))) + - (f z - f (phi (nt n t)))) by ring. eapply Rle_lt_trans; [apply Rabs_triang|]. rewrite Rabs_Ropp. lra.
    - exists (mkposreal 1 Rlt_0_1). intros K. contradiction. }
  destruct (compactness_value n (tn n (repeat (-1) n)) (tn n (repeat 1 n)) (fun t => proj1_sig (CH t))) as (d & Dv). exists d. split; [apply cond_pos|]. intros y z Hy Hz Hc.
  destruct (Sj y Hy) as (x & Hx & <-). destruct (Rlt_dec (Rabs (f (phi x) - f z)) eps) as [L|L]; [exact L|exfalso]. apply (Dv (tn n x)); [apply tn_bounded; auto|]. intros (t & Bt & Ct & Dt). apply L.
  destruct (CH t) as (e & He2). cbn [proj1_sig] in *. apply He2; auto; [apply bounded_nt; auto|apply close_nt; auto; apply Hx|eapply close_le; [|exact Hc]; exact Dt].
Qed.
Lemma simplex_uniform n V f : simplex_ok n V -> continuous_in (in_simplex n V) f -> forall eps, 0 < eps -> exists h, 0 < h /\
  forall x y, in_simplex n V x -> in_simplex n V y -> close h x y -> Rabs (f x - f y) < eps.
Proof.
  intros O C. apply (image_uniform n (in_simplex n V) f (fun x => bary_map V ((1 - Rsum (to_simplex x)) :: to_simplex x))); [| | |exact C].
  - intros x Hx. apply bary_map_in; [apply O|apply O|]. apply in_bary_simplex, to_simplex_in. exact Hx.
  - assert (MC : map_cont (in_unit_simplex n) (fun x => bary_map V ((1 - Rsum x) :: x))).
    { intros x Hx eps He. destruct (bary_map_cont (S n) V (in_bary n) (bary_cube n) _ (in_bary_simplex n x Hx) eps He) as (d & Hd & K). destruct (bary_cont n x Hx d Hd) as (d' & Hd' & K'). exists d'. split; [exact Hd'|]. intros y Hy Hc. apply K; [apply in_bary_simplex; exact Hy|apply K'; auto]. }
    intros x Hx eps He. destruct (MC _ (to_simplex_in n x Hx) eps He) as (d & Hd & K). destruct (to_simplex_cont n x Hx d Hd) as (d' & Hd' & K'). exists d'. split; [exact Hd'|]. intros y Hy Hc. apply K; [apply to_simplex_in; exact Hy|apply K'; auto].
  - intros z Hz. apply (in_simplex_map n V z O) in Hz. destruct Hz as (l & B & ->). destruct (bary_tl n l B) as (Ht & E). exists (tl l). split; [apply in_unit_simplex_cube; exact Ht|]. rewrite (to_simplex_id n) by exact Ht. rewrite <- E. reflexivity.
Qed.
Lemma vertex_in n V : simplex_ok n V -> exists x, in_simplex n V x.
Proof.
  intros O. exists (bary_map V (1 :: repeat 0 n)). apply bary_map_in; [apply O|apply O|]. split; [cbn; rewrite repeat_length; reflexivity|]. split; [constructor; [lra|]; clear; induction n; cbn; constructor; auto; lra|]. cbn [Rsum]. replace (Rsum (repeat 0 n)) with 0; [ring|]. clear. induction n; cbn; lra.
Qed.
Theorem C91_simplices : forall n V q f, length V = (n + 1)%nat -> List.Forall (fun v : point => length v = n) V ->
  exact (n + 1) 0 (fun k => simplex_mean n (mono k)) q -> List.Forall (fun wp => in_bary n (snd wp)) q -> continuous_in (in_simplex n V) f ->
  forall eps, 0 < eps -> exists h, 0 < h /\ forall m, simplices_of V m -> List.Forall (simplex_size_below h) m ->
  exists vs, mapM (tn_integrate n q f) m = Some vs /\ Rabs (Rsum vs - simplex_integral n V f) < eps.
Proof.
  intros n V q f LV FV X Q C eps He. assert (O : simplex_ok n V) by (split; assumption). set (K := Rabs (det n (edges V)) / INR (fact n) * (1 + weights_abs q)).
  assert (HK : 0 <= K) by (unfold K; apply Rmult_le_pos; [apply (simplex_values n V [] f LV FV)|pose proof (weights_abs_ge0 q); lra]). destruct (small_factor eps K He HK) as [E0 E1].
  destruct (simplex_uniform n V f O C _ E0) as (h & Hh & U). exists h. split; [exact Hh|]. intros m B Sz. destruct (mesh_simplices n V m B O) as (_ & F & _).
  destruct (C91_simplices_error n V m q f 0 (eps / (K + 1)) LV FV B X Q C) as (vs & Ev & Hv).
  - intros c Hc. rewrite Forall_forall in F, Sz. destruct (F c Hc) as (Oc & Ic). specialize (Sz c Hc). destruct (vertex_in n c Oc) as (x0 & I0).
    destruct (const_poly n 0 (f x0)) as [P0 P1]. exists [(f x0, repeat 0%nat n)]. split; [exact P0|]. intros x Hx. rewrite P1. left. apply U; auto. apply (simplex_close n h c); auto.
  - exists vs. split; [exact Ev|]. fold K in Hv. lra.
Qed.
Print Assumptions C91_simplices.

(** *** Such meshes exist: every box and every simplex can be cut into cells that are as small as one likes, so refining reaches every accuracy. *)
Theorem C91_boxes_refine : forall lim, List.Forall (fun e => fst e < snd e) lim -> forall h, 0 < h -> exists m, boxes_of lim m /\ List.Forall (box_size_below h) m.
Proof.
  intros lim S h Hh. apply (fine_boxes h lim Hh ltac:(eapply Forall_impl; [|exact S]; cbn; intros; lra) []). constructor.
Qed.
Print Assumptions C91_boxes_refine.
Theorem C91_simplices_refine : forall n V, length V = (n + 1)%nat -> List.Forall (fun v : point => length v = n) V ->
  forall h, 0 < h -> exists m, simplices_of V m /\ List.Forall (simplex_size_below h) m.
Proof.
  intros n V LV FV h Hh. destruct (bounded2 V) as (S & HS & W). assert (H2 : 0 < h ^ 2) by (apply pow_lt; lra).
  destruct (pow_lt_1_zero (7 / 8) ltac:(rewrite Rabs_right; lra) (h ^ 2 / (S + 1)) ltac:(apply Rdiv_lt_0_compat; lra)) as (k & Hk). specialize (Hk k (le_n k)). rewrite Rabs_right in Hk by (apply Rle_ge, pow_le; lra).
  apply (fine_simplices n h k Hh S V (conj LV FV) HS W). apply (Rmult_lt_compat_r (S + 1)) in Hk; [|lra]. replace (h ^ 2 / (S + 1) * (S + 1)) with (h ^ 2) in Hk by (field; lra).
  assert (0 <= (7 / 8) ^ k) by (apply pow_le; lra). lra.
Qed.
Print Assumptions C91_simplices_refine.

(** *** A concrete case: the centroid of a triangle and the midpoint of a rectangle, |x - y|. *)
Definition centroid_rule : rule := [(1, [1 / 3; 1 / 3; 1 / 3])].
Definition midpoint_rule : rule := [(1, [0; 0])].
Lemma zero_multi k : (tdeg k <= 0)%nat -> forall x, mono k x = 1.
Proof. unfold tdeg. induction k as [|a k IH]; intros H [|y x]; try reflexivity. change (list_sum (a :: k)) with (a + list_sum k)%nat in H. assert (a = 0)%nat by lia; subst. cbn [mono]. rewrite IH by lia. cbn. ring. Qed.
Lemma centroid_exact : exact 3 0 (fun k => simplex_mean 2 (mono k)) centroid_rule.
Proof.
  split; [repeat constructor|]. intros k _ H. unfold apply, centroid_rule. cbn [map Rsum fst snd]. rewrite (zero_multi k H). rewrite (simplex_mean_fext 2 (mono k) (fun _ => 1)) by (intros; apply zero_multi; exact H).
  unfold simplex_mean. rewrite simplex_int_1. ring.
Qed.
Lemma midpoint_exact : exact 2 0 (fun k => cube_mean 2 (mono k)) midpoint_rule.
Proof.
  split; [repeat constructor|]. intros k _ H. unfold apply, midpoint_rule. cbn [map Rsum fst snd]. rewrite (zero_multi k H). unfold cube_mean. rewrite (cube_int_ext 2 _ (fun _ => 1)) by (intros; apply zero_multi; exact H). rewrite cube_int_1. field.
Qed.
Example C91_case_simplices : forall eps, 0 < eps -> exists m vs, simplices_of [[0; 0]; [4; 1]; [2; 3]] m /\
  mapM (tn_integrate 2 centroid_rule absdiff) m = Some vs /\ Rabs (Rsum vs - simplex_integral 2 [[0; 0]; [4; 1]; [2; 3]] absdiff) < eps.
Proof.
  intros eps He. assert (F : List.Forall (fun v : point => length v = 2%nat) [[0; 0]; [4; 1]; [2; 3]]) by repeat constructor.
  assert (Q : List.Forall (fun wp : R * point => in_bary 2 (snd wp)) centroid_rule) by (repeat constructor; cbn; lra).
  assert (C : continuous_in (in_simplex 2 [[0; 0]; [4; 1]; [2; 3]]) absdiff) by (apply absdiff_continuous; intros x (l & _ & ->); reflexivity).
  destruct (C91_simplices 2 [[0; 0]; [4; 1]; [2; 3]] centroid_rule absdiff eq_refl F centroid_exact Q C eps He) as (h & Hh & H).
  destruct (C91_simplices_refine 2 [[0; 0]; [4; 1]; [2; 3]] eq_refl F h Hh) as (m & M & S). destruct (H m M S) as (vs & E & B). exists m, vs. auto.
Qed.
Example C91_case_boxes : forall eps, 0 < eps -> exists m vs, boxes_of [(0, 1); (-1, 2)] m /\
  mapM (fun c => cn_integrate 2 0 midpoint_rule absdiff (ncube_points c)) m = Some vs /\ Rabs (Rsum vs - box_int [(0, 1); (-1, 2)] absdiff) < eps.
Proof.
  intros eps He. assert (F : List.Forall (fun e => fst e < snd e) [(0, 1); (-1, 2)]) by (apply List.Forall_cons; [cbn; lra|apply List.Forall_cons; [cbn; lra|constructor]]).
  assert (Q : List.Forall (fun wp : R * point => in_cube 2 (snd wp)) midpoint_rule) by (repeat constructor; cbn; lra).
  assert (C : continuous_in (in_box [(0, 1); (-1, 2)]) absdiff) by (apply absdiff_continuous; intros x Hx; unfold in_box in Hx; inversion Hx as [|? ? ? ? _ H E1 E2]; subst; inversion H as [|? ? ? ? _ H' E1 E2]; subst; inversion H'; subst; reflexivity).
  destruct (C91_boxes [(0, 1); (-1, 2)] midpoint_rule absdiff ltac:(discriminate) F midpoint_exact Q C eps He) as (h & Hh & H).
  destruct (C91_boxes_refine [(0, 1); (-1, 2)] F h Hh) as (m & M & S). destruct (H m M S) as (vs & E & B). exists m, vs. auto.
Qed.
(** two triangles: one cut at the middle of an edge *)
Example C91_case_cut : simplices_of [[0; 0]; [4; 1]; [2; 3]] ([[[0; 0]; between (1 / 2) [0; 0] [4; 1]; [2; 3]]] ++ [[between (1 / 2) [0; 0] [4; 1]; [4; 1]; [2; 3]]]) /\ between (1 / 2) [0; 0] [4; 1] = [2; 1 / 2].
Proof. split; [apply (simplex_cut _ _ _ (1 / 2)); [lra|constructor|constructor]|]. unfold between. cbn [List.combine map fst snd]. f_equal; [field|f_equal; field]. Qed.
