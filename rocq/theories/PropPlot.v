(** C88: what plot() and show() draw.  [shows measure total place q ds] (PlotSpec.v): the drawing ds has one mark for each point of the scheme q,
    in the place of the point, whose area, diameter or volume is the share |w| / sum(w) of [total], blue for positive and red for negative
    weights.  [None]: the call raises, or a radius is not a number. *)
From Coq Require Import Reals List Arith Bool String Lia Lra.
From Verif Require Import Spec RsumLemmas PyBase GeomModel SimplexVol SimplexInt CubeModel CubeProofs PyraModel ShapeModel NdModel NdProofs2 E23Model PlotSpec PlotModel.
Import ListNotations.
Set Bullet Behavior "Strict Subproofs".
Open Scope R_scope.
Local Notation length := List.length.

Definition of_dim (dim : nat) (q : rule) : Prop := List.Forall (fun wp => length (snd wp) = dim) q.
Definition weights (q : rule) : list R := map fst q.

(** *** Proofs *)
Lemma combine_map {A B C} (f : A -> B) (g : A -> C) l : List.combine (map f l) (map g l) = map (fun x => (f x, g x)) l.
Proof. induction l as [|x l IH]; cbn; [|rewrite IH]; reflexivity. Qed.
Lemma opt_all_ext {A B} (f : A -> option B) g l : (forall x, In x l -> f x = Some (g x)) -> opt_all (map f l) = Some (map g l).
Proof. exact (CubeProofs.opt_all_map f g l). Qed.
Lemma opt_all_none {A B} (f : A -> option B) l x : In x l -> f x = None -> opt_all (map f l) = None.
Proof. induction l as [|y l IH]; [contradiction|]. intros [->|H] E; cbn; [rewrite E; reflexivity|]. destruct (f y); auto. cbn. rewrite IH; auto. Qed.
Lemma two (p : point) : length p = 2%nat -> exists x y, p = [x; y].
Proof. destruct p as [|x [|y [|]]]; cbn; try lia. intros _. eauto. Qed.
Lemma three (p : point) : length p = 3%nat -> exists x y z, p = [x; y; z].
Proof. destruct p as [|x [|y [|z [|]]]]; cbn; try lia. intros _. eauto. Qed.
Lemma helpers_ok (place : point -> point) (r : R -> R) (q : rule) : (forall wp, In wp q -> length (place (snd wp)) = 2%nat) ->
  plot_disks_helpers (map (fun wp => place (snd wp)) q) (map r (map fst q)) (map mpl_color (map fst q))
  = Some (map (fun wp => mk_mark (place (snd wp)) (r (fst wp)) (mpl_color (fst wp))) q).
Proof.
  intros H. unfold plot_disks_helpers. rewrite !map_map, !combine_map, map_map. apply opt_all_ext. intros wp Hi. destruct (two _ (H wp Hi)) as (x & y & ->). reflexivity.
Qed.
Lemma share_pos w s t : 0 < s -> 0 <= t -> 0 <= Rabs w / s * t.
Proof. intros. apply Rmult_le_pos; auto. apply Rmult_le_pos; [apply Rabs_pos|]. apply Rlt_le, Rinv_0_lt_compat; auto. Qed.
Lemma shows_map measure total place q (r : R -> R) c : (forall w, 0 <= r w /\ measure (r w) = Rabs w / Rsum (map fst q) * total) ->
  (forall w, (0 < w -> c w = blue) /\ (w < 0 -> c w = red)) ->
  shows measure total place q (map (fun wp => mk_mark (place (snd wp)) (r (fst wp)) (c (fst wp))) q).
Proof.
  intros Hr Hc. unfold shows. generalize (Rsum (map fst q)), Hr. clear Hr. intros s Hr. induction q as [|wp q IH]; constructor; auto. cbn. destruct (Hr (fst wp)), (Hc (fst wp)). repeat split; auto.
Qed.
Lemma mpl_color_ok w : (0 < w -> mpl_color w = blue) /\ (w < 0 -> mpl_color w = red).
Proof. unfold mpl_color. destruct (Rle_dec 0 w); split; intros; auto; lra. Qed.
Lemma rdiv_ok a b : 0 < b -> rdiv a b = Some (a / b).
Proof. intros. unfold rdiv. destruct (Req_EM_T b 0); auto; lra. Qed.
Lemma disks_ok place q total : 0 < Rsum (weights q) -> 0 <= total -> (forall wp, In wp q -> length (place (snd wp)) = 2%nat) ->
  exists ds, plot_disks (map (fun wp => place (snd wp)) q) (weights q) total = Some ds /\ shows disk_area total place q ds.
Proof.
  intros P T H. unfold plot_disks, weights in *. set (s := Rsum (map fst q)) in *.
  rewrite (opt_all_ext _ (fun w => sqrt (Rabs w / s * total / PI))).
  - cbn [bind]. rewrite helpers_ok by auto. eexists. split; [reflexivity|]. apply (shows_map disk_area total place q (fun w => sqrt (Rabs w / s * total / PI))); [|apply mpl_color_ok].
    intros w. split; [apply sqrt_pos|]. unfold disk_area. fold s. rewrite pow2_sqrt; [field; split; [lra|apply PI_neq0]|]. apply Rmult_le_pos; [apply share_pos; auto|apply Rlt_le, Rinv_0_lt_compat, PI_RGT_0].
  - intros w _. rewrite rdiv_ok by auto. cbn [bind]. unfold rsqrt. destruct (Rle_dec 0 _) as [|N]; auto. exfalso. apply N. apply Rmult_le_pos; [apply share_pos; auto|apply Rlt_le, Rinv_0_lt_compat, PI_RGT_0].
Qed.
Lemma rows_points dim (ps : list point) : List.Forall (fun p => length p = dim) ps -> rows (nd_points dim ps) = ps.
Proof.
  intros H. unfold rows, nd_points. cbn [nd_shape nd_at nth]. transitivity (map (fun i => nth i ps []) (seq 0 (length ps))).
  - apply map_ext_in. intros i Hi. apply in_seq in Hi. rewrite List.Forall_forall in H. specialize (H (nth i ps []) (nth_In _ _ (proj2 Hi))). rewrite <- H.
    clear H. induction (nth i ps []) as [|x p IH]; cbn [length seq map nth]; [reflexivity|]. f_equal. rewrite <- seq_shift, map_map. exact IH.
  - clear H. induction ps as [|p ps IH]; cbn [length seq map nth]; [reflexivity|]. f_equal. rewrite <- seq_shift, map_map. exact IH.
Qed.
Lemma rows_TT a : List.length (nd_shape a) = 2%nat -> rows (nd_T (nd_T a)) = rows a.
Proof. intros H. unfold rows, nd_T. cbn [nd_shape nd_at]. rewrite rev_involutive. apply map_ext. intros i. apply map_ext. intros j. cbn [rev app]. reflexivity. Qed.
Lemma rows_of_dim dim q : of_dim dim q -> rows (nd_T (points_of dim q)) = map (fun wp => snd wp) q.
Proof.
  intros H. unfold points_of. rewrite rows_TT by reflexivity. apply rows_points. unfold of_dim in H. rewrite List.Forall_forall in *. intros p Hp. apply in_map_iff in Hp. destruct Hp as (wp & <- & Hw). auto.
Qed.
Lemma cbrt_ok x : 0 <= x -> 0 <= cbrt x /\ cbrt x ^ 3 = x.
Proof.
  intros H. unfold cbrt. destruct (Req_EM_T x 0) as [->|N]; [split; [lra|ring]|]. destruct (Rlt_dec 0 x) as [P|]; [|lra]. split; [apply Rlt_le, exp_pos|].
  rewrite <- Rpower_pow by apply exp_pos. rewrite Rpower_mult. replace (/ 3 * INR 3) with 1 by (cbn; field). apply Rpower_1; auto.
Qed.
Lemma radii_ok ws volume : 0 < Rsum ws -> ball_radii ws volume = Some (map (fun w => cbrt (Rabs w / Rsum ws * volume / (4.0 / 3.0 * PI))) ws).
Proof. intros P. unfold ball_radii. apply opt_all_ext. intros w _. rewrite rdiv_ok by auto. reflexivity. Qed.
Lemma ball_share w s v : 0 < s -> 0 <= v -> let r := cbrt (Rabs w / s * v / (4.0 / 3.0 * PI)) in 0 <= r /\ ball_volume r = Rabs w / s * v.
Proof.
  intros P V r. destruct (cbrt_ok (Rabs w / s * v / (4.0 / 3.0 * PI))) as [A B].
  - apply Rmult_le_pos; [apply share_pos; auto|]. apply Rlt_le, Rinv_0_lt_compat. pose proof PI_RGT_0. lra.
  - split; [exact A|]. unfold ball_volume, r. rewrite B. replace (4.0 / 3.0) with (4 / 3) by lra. field. pose proof PI_RGT_0. lra.
Qed.
Lemma mpl_ok place q volume : 0 < Rsum (weights q) -> 0 <= volume -> (forall wp, In wp q -> length (place (snd wp)) = 3%nat) ->
  exists ds, show_mpl (nd_points 3 (map (fun wp => place (snd wp)) q)) (weights q) volume = Some ds /\ shows ball_volume volume place q ds.
Proof.
  intros P V H. unfold show_mpl, weights in *. set (s := Rsum (map fst q)) in *. rewrite radii_ok by auto. cbn [bind]. rewrite rows_points.
  2:{ rewrite List.Forall_forall. intros p Hp. apply in_map_iff in Hp. destruct Hp as (wp & <- & Hw). auto. }
  fold s. rewrite !map_map, !combine_map, map_map.
  eexists. split; [apply (opt_all_ext _ (fun wp => mk_mark (place (snd wp)) (cbrt (Rabs (fst wp) / s * volume / (4.0 / 3.0 * PI))) (mpl_color (fst wp))))|].
  - intros wp Hw. destruct (three _ (H wp Hw)) as (x & y & z & ->). reflexivity.
  - apply (shows_map ball_volume volume place q (fun w => cbrt (Rabs w / s * volume / (4.0 / 3.0 * PI))) mpl_color); [|apply mpl_color_ok]. intros w. fold s. apply ball_share; auto.
Qed.
Lemma vtk_ok q volume : 0 < Rsum (weights q) -> 0 <= volume -> of_dim 3 q ->
  exists ds, show_vtk (points_of 3 q) (weights q) volume = Some ds /\ shows ball_volume volume (fun p => p) q ds.
Proof.
  intros P V H. unfold show_vtk, weights in *. set (s := Rsum (map fst q)) in *. rewrite radii_ok by auto. cbn [bind]. rewrite rows_of_dim by auto. fold s. rewrite map_map, !combine_map, map_map.
  eexists. split; [apply (opt_all_ext _ (fun wp => mk_mark (snd wp) (cbrt (Rabs (fst wp) / s * volume / (4.0 / 3.0 * PI))) (if Rlt_dec 0 (fst wp) then blue else red)))|].
  - intros wp Hw. unfold of_dim in H. rewrite List.Forall_forall in H. specialize (H wp Hw). destruct wp as [w p]. cbn [fst snd] in *. destruct (three _ H) as (x & y & z & ->). reflexivity.
  - apply (shows_map ball_volume volume (fun p => p) q (fun w => cbrt (Rabs w / s * volume / (4.0 / 3.0 * PI))) (fun w => if Rlt_dec 0 w then blue else red)).
    + intros w. fold s. apply ball_share; auto.
    + intros w. destruct (Rlt_dec 0 w); split; intros; auto; lra.
Qed.
(** An array of n points of shape (n, 3) in vtk: three centres with n coordinates. *)
Lemma vtk_fails (ps : list point) ws volume : length ps = length ws -> ws <> [] -> length ws <> 3%nat -> show_vtk (nd_points 3 ps) ws volume = None.
Proof.
  intros L N T. unfold show_vtk. destruct (ball_radii ws volume) as [rs|] eqn:E; [|reflexivity]. cbn [bind].
  destruct ws as [|w ws]; [congruence|]. unfold ball_radii in E. cbn [map opt_all] in E.
  destruct rs as [|r rs]; [exfalso; destruct (let! d := rdiv (Rabs w) (Rsum (w :: ws)) in _); cbn [bind] in E; [|discriminate]; destruct (opt_all _); cbn in E; discriminate|].
  apply (opt_all_none _ _ (map (fun j => nd_at (nd_T (nd_points 3 ps)) [0%nat; j]) (seq 0 (length ps)), (w, r))).
  - unfold rows. cbn [nd_T nd_points nd_shape rev app nth seq map List.combine]. left. reflexivity.
  - rewrite map_length, seq_length. destruct (Nat.eqb_spec (length ps) 3) as [E3|]; [exfalso; apply T; lia|reflexivity].
Qed.
Lemma opt_all_length {A} (l : list (option A)) : forall r, opt_all l = Some r -> length r = length l.
Proof. induction l as [|[x|] l IH]; intros r E; cbn in E; [injection E as <-; auto| |discriminate]. destruct (opt_all l) as [y|]; [|discriminate]. cbn in E. injection E as <-. cbn. f_equal. apply IH. reflexivity. Qed.

(** *** The theorems *)
(** The measures add up to sum |w| / sum w times the total; to the total exactly if no weight is negative. *)
Theorem C88_total : forall measure total place q ds, shows measure total place q ds -> 0 < Rsum (weights q) -> 0 < total ->
  length ds = length q /\ map m_center ds = map (fun wp => place (snd wp)) q /\
  total_measure measure ds = Rsum (map Rabs (weights q)) / Rsum (weights q) * total /\
  (total_measure measure ds = total <-> List.Forall (fun wp => 0 <= fst wp) q).
Proof.
  intros measure total place q ds H P T. unfold weights in *.
  assert (E : total_measure measure ds = Rsum (map Rabs (map fst q)) / Rsum (map fst q) * total).
  { unfold shows, total_measure in *. revert H. set (s := Rsum (map fst q)) in *. clearbody s. intros H. induction H as [|wp d q ds (_ & _ & M & _) F IH]; cbn [map Rsum]; [field; lra|]. rewrite IH, M. field. lra. }
  assert (L : length ds = length q /\ map m_center ds = map (fun wp => place (snd wp)) q).
  { unfold shows in H. clear - H. generalize dependent (Rsum (map fst q)). intros s H. induction H as [|wp d q ds (C & _) F [IH1 IH2]]; cbn; auto. split; [lia|]. rewrite C, IH2. reflexivity. }
  destruct L as [L1 L2]. repeat split; auto; clear L1 L2 H.
  - intros Et. assert (A : Rsum (map Rabs (map fst q)) = Rsum (map fst q)).
    { rewrite E in Et. apply (Rmult_eq_reg_r total); [|lra]. apply (Rmult_eq_reg_r (/ Rsum (map fst q))); [|apply Rinv_neq_0_compat; lra]. replace (Rsum (map fst q) * total * / Rsum (map fst q)) with total by (field; lra). rewrite <- Et at 2. field. lra. }
    clear E Et P. revert A. enough (G : forall l : list R, Rsum l <= Rsum (map Rabs l) /\ (Rsum (map Rabs l) = Rsum l -> List.Forall (fun w => 0 <= w) l)).
    { intros A. destruct (G (map fst q)) as [_ G2]. specialize (G2 A). rewrite List.Forall_map in G2. exact G2. }
    induction l as [|w l [IH1 IH2]]; cbn [map Rsum]; [split; [lra|constructor]|]. pose proof (Rle_abs w). split; [lra|]. intros A. constructor; [|apply IH2; lra].
    assert (Rabs w = w) by lra. rewrite <- H0. apply Rabs_pos.
  - intros F. rewrite E. replace (Rsum (map Rabs (map fst q))) with (Rsum (map fst q)); [field; lra|]. f_equal. rewrite map_map. clear E P T. induction F as [|wp q Hw F IH]; cbn; [reflexivity|]. rewrite Rabs_pos_eq by auto. f_equal. exact IH.
Qed.
Print Assumptions C88_total.

(** Triangles: disks in the mapped points, whose areas are shares of the area of the triangle. *)
Theorem C88_triangle : forall q triangle, 0 < Rsum (weights q) -> length triangle = 3%nat -> List.Forall (fun p => length p = 2%nat) triangle ->
  exists ds, t2_plot q triangle = Some ds /\
    shows disk_area (Rabs (turn (nth 0 triangle []) (nth 1 triangle []) (nth 2 triangle [])) / 2) (bary_map triangle) q ds.
Proof.
  intros q tr P L F. unfold t2_plot. rewrite (get_vol_det 2) by auto. cbn [bind].
  destruct tr as [|a [|b [|c [|]]]]; cbn in L; try lia. inversion F as [|? ? La F1]; subst. inversion F1 as [|? ? Lb F2]; subst. inversion F2 as [|? ? Lc _]; subst.
  destruct (two _ La) as (a1 & a2 & ->), (two _ Lb) as (b1 & b2 & ->), (two _ Lc) as (c1 & c2 & ->).
  replace (Rabs (det 2 (edges [[a1; a2]; [b1; b2]; [c1; c2]])) / INR (fact 2)) with (Rabs (turn [a1; a2] [b1; b2] [c1; c2]) / 2).
  - cbn [nth]. apply disks_ok; [exact P| |].
    + apply Rmult_le_pos; [apply Rabs_pos|lra].
    + intros wp _. unfold bary_map. rewrite map_length, seq_length. reflexivity.
  - unfold turn, edges, det. cbn. f_equal. f_equal. ring.
Qed.
Print Assumptions C88_triangle.

(** The disk and the two weights on the plane: disks in the points, areas that are shares of pi, 2 pi, 2 pi. *)
Theorem C88_planar : forall q, of_dim 2 q -> 0 < Rsum (weights q) ->
  (exists ds, s2_plot q = Some ds /\ shows disk_area PI (fun p => p) q ds) /\
  (exists ds, e2r_plot q = Some ds /\ shows disk_area (2 * PI) (fun p => p) q ds) /\
  (exists ds, e2r2_plot q = Some ds /\ shows disk_area (2 * PI) (fun p => p) q ds).
Proof.
  intros q H P. unfold s2_plot, e2r_plot, e2r2_plot. rewrite rows_of_dim by auto. pose proof PI_RGT_0. unfold of_dim in H. rewrite List.Forall_forall in H.
  split; [|split]; apply (disks_ok (fun p => p)); auto; lra.
Qed.
Print Assumptions C88_planar.
(** For e2r this is the integral of the weight function exp(-|x|); for e2r2, whose integral is pi, the areas are twice as large as meant. *)
Theorem C88_plane_total_refuted : forall q, of_dim 2 q -> 0 < Rsum (weights q) -> List.Forall (fun wp => 0 <= fst wp) q -> Rsum (weights q) = 1 ->
  exists ds, e2r2_plot q = Some ds /\ total_measure disk_area ds = 2 * e2r2_integrate q (fun _ => 1) /\ e2r2_integrate q (fun _ => 1) = PI.
Proof.
  intros q H P F One. destruct (C88_planar q H P) as (_ & _ & ds & E & S). exists ds. split; [exact E|].
  assert (I : e2r2_integrate q (fun _ => 1) = PI).
  { unfold e2r2_integrate. replace (Rsum (map (fun wp : R * point => 1 * fst wp) q)) with (Rsum (weights q)); [rewrite One; ring|]. unfold weights. f_equal. apply map_ext. intros. ring. }
  split; [|exact I]. rewrite I. pose proof PI_RGT_0. apply (C88_total _ _ _ _ _ S P ltac:(lra)). exact F.
Qed.
Print Assumptions C88_plane_total_refuted.

(** The circle: the disks are centred at the points, and if all weights are equal the radii add up to pi, as the comment in the code says. *)
Theorem C88_circle : forall q, of_dim 2 q -> 0 < Rsum (weights q) ->
  exists ds, u2_plot q = Some ds /\ shows disk_area (PI ^ 3 / INR (length q)) (fun p => p) q ds /\
    (forall w, List.Forall (fun wp => fst wp = w) q -> Rsum (map m_size ds) = PI).
Proof.
  intros q H P. assert (N : 0 < INR (length q)) by (destruct q; [cbn in P; lra|apply lt_0_INR; cbn; lia]). pose proof PI_RGT_0 as PI0.
  assert (T : 0 <= PI ^ 3 / INR (length q)) by (apply Rmult_le_pos; [apply Rlt_le, pow_lt; auto|apply Rlt_le, Rinv_0_lt_compat; auto]).
  assert (R : rows (nd_points 2 (map snd q)) = map (fun wp => snd wp) q).
  { apply rows_points. unfold of_dim in H. rewrite List.Forall_forall in *. intros p Hp. apply in_map_iff in Hp. destruct Hp as (wp & <- & Hw). auto. }
  unfold u2_plot. rewrite R. destruct (disks_ok (fun p => p) q (PI ^ 3 / INR (length q))) as (ds & E & S); auto.
  { unfold of_dim in H. rewrite List.Forall_forall in H. auto. }
  exists ds. split; [exact E|]. split; [exact S|]. intros w F.
  assert (W : Rsum (weights q) = INR (length q) * w).
  { clear - F. unfold weights. induction F as [|wp q Hw F IH]; [cbn; ring|]. cbn [map Rsum]. change (length (wp :: q)) with (Datatypes.S (length q)). rewrite S_INR, IH, Hw. ring. }
  assert (Pw : 0 < w). { rewrite W in P. apply (Rmult_lt_reg_l (INR (length q))); auto. lra. }
  assert (A : List.Forall (fun d => m_size d = PI / INR (length q)) ds /\ length ds = length q).
  { unfold shows in S. unfold weights in W. rewrite W in S. clear - S F Pw N PI0. set (n := INR (length q)) in *. clearbody n. induction S as [|wp d q ds (_ & Hp & Hm & _) S IH]; [split; [constructor|reflexivity]|].
    inversion F as [|? ? Hw F']; subst. destruct (IH F') as [IH1 IH2]. split; [|cbn; lia]. constructor; auto. unfold disk_area in Hm. rewrite Rabs_pos_eq in Hm by lra.
    assert (Q : m_size d ^ 2 = (PI / n) ^ 2). { apply (Rmult_eq_reg_l PI); [|lra]. rewrite Hm. field. lra. }
    apply Rsqr_inj; auto; [apply Rmult_le_pos; [lra|apply Rlt_le, Rinv_0_lt_compat; auto]|]. unfold Rsqr. cbn in Q. lra. }
  destruct A as [A L]. assert (G : Rsum (map m_size ds) = INR (length ds) * (PI / INR (length q))).
  { clear - A. generalize dependent (PI / INR (length q)). intros c A. induction A as [|d ds Hd A IH]; [cbn; ring|]. cbn [map Rsum]. change (length (d :: ds)) with (Datatypes.S (length ds)). rewrite S_INR, IH, Hd. ring. }
  rewrite G, L. field. lra.
Qed.
Print Assumptions C88_circle.

(** Intervals, half line and line: the diameters are shares of the length of the interval, or of 1. *)
Theorem C88_line : forall q a b, of_dim 1 q -> 0 < Rsum (weights q) -> a <= b ->
  (exists ds, c1_plot q a b = Some ds /\ shows diameter (b - a) (fun p => [nth 0 p 0; 0]) q ds) /\
  (exists ds, e1_plot q = Some ds /\ shows diameter 1 (fun p => [nth 0 p 0; 0]) q ds).
Proof.
  intros q a b H P L.
  assert (G : forall t, 0 <= t -> exists ds, plot_disks_1d (map (fun wp => [nth 0 (snd wp) 0; 0]) q) (map fst q) t = Some ds /\ shows diameter t (fun p => [nth 0 p 0; 0]) q ds).
  { intros t T. unfold plot_disks_1d, weights in *. set (s := Rsum (map fst q)) in *. rewrite (opt_all_ext _ (fun w => 0.5 * Rabs w / s * t)) by (intros; rewrite rdiv_ok by auto; reflexivity). cbn [bind].
    rewrite (helpers_ok (fun p => [nth 0 p 0; 0]) (fun w => 0.5 * Rabs w / s * t)) by auto. eexists. split; [reflexivity|].
    apply (shows_map diameter t (fun p => [nth 0 p 0; 0]) q (fun w => 0.5 * Rabs w / s * t)); [|apply mpl_color_ok]. intros w. fold s. pose proof (share_pos w s t P T).
    replace (0.5 * Rabs w / s * t) with (Rabs w / s * t / 2) by (replace 0.5 with (/ 2) by lra; field; lra). unfold diameter. split; lra. }
  split; [apply G; lra|unfold e1_plot; replace 1.0 with 1 by lra; apply G; lra].
Qed.
Print Assumptions C88_line.
(** The disks stay in the points of the reference interval, whatever the interval that is drawn: on [2, 3] none of them lies on the interval. *)
Theorem C88_interval_refuted : forall q, of_dim 1 q -> 0 < Rsum (weights q) -> List.Forall (fun wp => -1 <= nth 0 (snd wp) 0 <= 1) q ->
  exists ds, c1_plot q 2 3 = Some ds /\ length ds = length q /\ List.Forall (fun d => ~ (2 <= nth 0 (m_center d) 0 <= 3)) ds.
Proof.
  intros q H P F. destruct (C88_line q 2 3 H P ltac:(lra)) as [(ds & E & S) _]. exists ds. split; [exact E|]. clear E H P. unfold shows in S. generalize dependent (Rsum (map fst q)). intros s S.
  induction S as [|wp d q ds (C & _) S IH]; [split; [reflexivity|constructor]|]. inversion F as [|? ? B F']; subst. destruct IH as [I1 I2]; auto. split; [cbn; lia|]. constructor; auto. rewrite C. change (~ (2 <= nth 0 (snd wp) 0 <= 3)). intros [B1 _]. destruct B as [_ B2]. apply (Rle_not_lt _ _ (Rle_trans _ _ _ B1 B2)). lra.
Qed.
Print Assumptions C88_interval_refuted.

(** The square: disks in the mapped points; the areas are shares of the sum of two triangles, which is the area of the quadrilateral
    if it is a parallelogram. *)
Theorem C88_quad : forall q p00 p01 p10 p11, of_dim 2 q -> 0 < Rsum (weights q) -> List.Forall (fun p => length p = 2%nat) [p00; p01; p10; p11] ->
  exists ds, c2_plot q [p00; p01; p10; p11] = Some ds /\
    shows disk_area ((Rabs (turn p00 p10 p01) + Rabs (turn p00 p01 p11)) / 2)
      (fun p => let x := nth 0 p 0 in let y := nth 1 p 0 in
                map (fun c => ((1 - x) * (1 - y) * nth c p00 0 + (1 - x) * (1 + y) * nth c p01 0 + (1 + x) * (1 - y) * nth c p10 0 + (1 + x) * (1 + y) * nth c p11 0) / 4) [0; 1]%nat) q ds.
Proof.
  intros q p00 p01 p10 p11 H P F. inversion F as [|? ? L0 F0]; subst. inversion F0 as [|? ? L1 F1]; subst. inversion F1 as [|? ? L2 F2]; subst. inversion F2 as [|? ? L3 _]; subst.
  destruct (two _ L0) as (a1 & a2 & ->), (two _ L1) as (b1 & b2 & ->), (two _ L2) as (c1 & c2 & ->), (two _ L3) as (d1 & d2 & ->). clear F F0 F1 F2 L0 L1 L2 L3.
  unfold c2_plot. cbn [nth]. set (place := fun p : point => _ : point).
  rewrite (opt_all_ext _ (fun wp => place (snd wp))).
  - cbn [bind]. rewrite (get_vol_det 2) by (try reflexivity; repeat constructor). cbn [bind]. rewrite (get_vol_det 2) by (try reflexivity; repeat constructor). cbn [bind].
    match goal with |- exists ds, plot_disks _ _ ?v = _ /\ _ => replace v with ((Rabs (turn [a1; a2] [c1; c2] [b1; b2]) + Rabs (turn [a1; a2] [b1; b2] [d1; d2])) / 2) end.
    + apply disks_ok; auto. apply Rmult_le_pos; [|lra]. apply Rplus_le_le_0_compat; apply Rabs_pos.
    + unfold turn, edges, det. cbn. rewrite Rdiv_plus_distr. f_equal; f_equal; f_equal; ring.
  - intros wp Hw. unfold of_dim in H. rewrite List.Forall_forall in H. specialize (H wp Hw). destruct wp as [w p]. cbn [fst snd] in *. destruct (two _ H) as (x & y & ->). unfold place. cbn. f_equal. repeat (apply (f_equal2 (@cons R)); [lra|]). reflexivity.
Qed.
Print Assumptions C88_quad.
Theorem C88_parallelogram : forall o1 o2 a1 a2 b1 b2, let p00 := [o1; o2] in let p10 := [o1 + a1; o2 + a2] in let p01 := [o1 + b1; o2 + b2] in let p11 := [o1 + a1 + b1; o2 + a2 + b2] in
  (Rabs (turn p00 p10 p01) + Rabs (turn p00 p01 p11)) / 2 = quad_area p00 p10 p11 p01 /\ quad_area p00 p10 p11 p01 = Rabs (a1 * b2 - a2 * b1).
Proof.
  intros. unfold quad_area, turn, p00, p10, p01, p11. cbn [nth].
  match goal with |- (Rabs ?a + Rabs ?b) / 2 = (Rabs ?c + Rabs ?d) / 2 /\ _ => replace a with (a1 * b2 - a2 * b1) by ring; replace b with (- (a1 * b2 - a2 * b1)) by ring; replace c with (a1 * b2 - a2 * b1) by ring; replace d with (a1 * b2 - a2 * b1) by ring end.
  rewrite !Rabs_Ropp. split; [reflexivity|lra].
Qed.
Print Assumptions C88_parallelogram.
(** In the quadrilateral (0, 0), (2, 0), (1, 2), (0, 1) of area 5/2 the areas are shares of 3/2. *)
Theorem C88_quad_refuted : exists p00 p01 p10 p11, quad_area p00 p10 p11 p01 = 5 / 2 /\
  forall q, of_dim 2 q -> 0 < Rsum (weights q) -> List.Forall (fun wp => 0 <= fst wp) q -> exists ds, c2_plot q [p00; p01; p10; p11] = Some ds /\ total_measure disk_area ds = 3 / 2.
Proof.
  exists [0; 0], [0; 1], [2; 0], [1; 2]. split; [unfold quad_area, turn; cbn [nth]; rewrite !Rabs_pos_eq by lra; lra|]. intros q H P F.
  destruct (C88_quad q [0; 0] [0; 1] [2; 0] [1; 2] H P) as (ds & E & S); [repeat constructor|]. exists ds. split; [exact E|].
  replace ((Rabs (turn [0; 0] [2; 0] [0; 1]) + Rabs (turn [0; 0] [0; 1] [1; 2])) / 2) with (3 / 2) in S.
  - apply (C88_total _ _ _ _ _ S P ltac:(lra)). exact F.
  - unfold turn. cbn [nth]. rewrite (Rabs_pos_eq ((2 - 0) * (1 - 0) - (0 - 0) * (0 - 0))) by lra. rewrite Rabs_left by lra. lra.
Qed.
Print Assumptions C88_quad_refuted.

(** The sphere: caps about the points with area 4 pi |w|; if a weight exceeds 1 in absolute value there is no such cap. *)
Theorem C88_sphere : forall q,
  (List.Forall (fun wp => Rabs (fst wp) <= 1) q -> exists ds, u3_plot q = Some ds /\
     Forall2 (fun wp d => m_center d = snd wp /\ 0 <= m_size d <= PI /\ cap_area (m_size d) = 4 * PI * Rabs (fst wp) /\
                          (0 < fst wp -> m_color d = blue) /\ (fst wp < 0 -> m_color d = red)) q ds) /\
  (Exists (fun wp => 1 < Rabs (fst wp)) q -> u3_plot q = None).
Proof.
  intros q. pose proof PI_RGT_0 as P. assert (X : forall w, 1.0 - Rabs (w * (4 * PI)) / (2 * PI) = 1 - 2 * Rabs w). { intros w. rewrite Rabs_mult, (Rabs_pos_eq (4 * PI)) by lra. replace 1.0 with 1 by lra. field. lra. }
  unfold u3_plot. split.
  - intros F. eexists. split; [apply (opt_all_ext _ (fun wp => mk_mark (snd wp) (acos (1 - 2 * Rabs (fst wp))) (mpl_color (fst wp * (4 * PI)))))|].
    + intros wp Hw. rewrite List.Forall_forall in F. specialize (F wp Hw). cbv zeta. rewrite X. pose proof (Rabs_pos (fst wp)). destruct (Rle_dec (-1) _); [|lra]. destruct (Rle_dec _ 1); [|lra]. reflexivity.
    + induction F as [|wp q Hw F IH]; [constructor|]. cbn [map]. constructor; auto. pose proof (Rabs_pos (fst wp)). cbn [m_center m_size m_color]. split; [reflexivity|]. split; [apply acos_bound|]. split.
      * unfold cap_area. rewrite cos_acos by lra. ring.
      * destruct (mpl_color_ok (fst wp * (4 * PI))) as [A B]. split; intros; [apply A; apply Rmult_lt_0_compat; lra|apply B].
        replace (fst wp * (4 * PI)) with (- ((- fst wp) * (4 * PI))) by ring. apply Ropp_lt_gt_0_contravar. apply Rmult_lt_0_compat; lra.
  - intros E. apply Exists_exists in E. destruct E as (wp & Hw & L). apply (opt_all_none _ _ wp Hw). cbv zeta. rewrite X. destruct (Rle_dec (-1) _); [lra|]. reflexivity.
Qed.
Print Assumptions C88_sphere.
(** The drawn surface: the points with polar angle t, turned to the point b, have distance 1.01 from the origin and the angle t with b. *)
Theorem C88_cap : forall b1 b2 b3 phi t, b1 ^ 2 + b2 ^ 2 + b3 ^ 2 = 1 ->
  let '(x, y, z) := cap_point (b1, b2, b3) phi t in x ^ 2 + y ^ 2 + z ^ 2 = 1.01 ^ 2 /\ x * b1 + y * b2 + z * b3 = 1.01 * cos t.
Proof.
  intros b1 b2 b3 phi t B. unfold cap_point. set (r := 1.01). cbv zeta. assert (SC : cos phi ^ 2 + sin phi ^ 2 = 1) by (pose proof (sin2_cos2 phi) as E; unfold Rsqr in E; cbn; lra).
  assert (ST : cos t ^ 2 + sin t ^ 2 = 1) by (pose proof (sin2_cos2 t) as E; unfold Rsqr in E; cbn; lra).
  set (u := cos phi * sin t) in *. set (v := sin phi * sin t) in *. assert (UV : u ^ 2 + v ^ 2 = 1 - cos t ^ 2) by (unfold u, v; replace ((cos phi * sin t) ^ 2 + (sin phi * sin t) ^ 2) with ((cos phi ^ 2 + sin phi ^ 2) * sin t ^ 2) by ring; rewrite SC; lra).
  set (c := cos t) in *. clearbody u v c. clear SC ST phi t.
  replace (0.0 * b1 + 0.0 * b2 + 1.0 * b3) with b3 by lra. replace (-1.0) with (-1) by lra.
  destruct (Req_EM_T b3 (-1)) as [E|N].
  - subst b3. assert (b1 = 0 /\ b2 = 0) as [-> ->] by (assert (b1 ^ 2 + b2 ^ 2 = 0) by lra; split; nra). split; [|ring]. replace ((- (r * u)) ^ 2 + (- (r * v)) ^ 2 + (- (r * (1 * c))) ^ 2) with (r ^ 2 * (u ^ 2 + v ^ 2 + c ^ 2)) by ring. rewrite UV. ring.
  - assert (D : 1 + b3 <> 0) by lra. unfold cross. replace 0.0 with 0 by lra. replace 1.0 with 1 by lra.
    (* b1^2 + b2^2 = (1 - b3) (1 + b3) *)
    assert (B2 : b1 ^ 2 + b2 ^ 2 = (1 - b3) * (1 + b3)) by lra.
    set (k := / (1 + b3)). assert (K : k * (1 + b3) = 1) by (unfold k; field; auto).
    unfold Rdiv. fold k.
    assert (K2 : k * (b1 ^ 2 + b2 ^ 2) = 1 - b3) by (rewrite B2; replace (k * ((1 - b3) * (1 + b3))) with ((k * (1 + b3)) * (1 - b3)) by ring; rewrite K; ring).
    clearbody k r.
    match goal with |- ?X ^ 2 + ?Y ^ 2 + ?Z ^ 2 = _ /\ _ =>
      replace X with (r * (u + b1 * c - k * b1 * (b1 * u + b2 * v))) by ring;
      replace Y with (r * (v + b2 * c - k * b2 * (b1 * u + b2 * v))) by ring;
      replace Z with (r * (b3 * c - (b1 * u + b2 * v))) by (replace b3 with (1 - k * (b1 ^ 2 + b2 ^ 2)) by lra; ring) end.
    set (s := b1 * u + b2 * v). split.
    + replace ((r * (u + b1 * c - k * b1 * s)) ^ 2 + (r * (v + b2 * c - k * b2 * s)) ^ 2 + (r * (b3 * c - s)) ^ 2)
        with (r ^ 2 * ((u ^ 2 + v ^ 2) + (b1 ^ 2 + b2 ^ 2 + b3 ^ 2) * c ^ 2 + 2 * c * s * (1 - k * (b1 ^ 2 + b2 ^ 2) - b3) - 2 * k * s ^ 2 + k * (k * (b1 ^ 2 + b2 ^ 2)) * s ^ 2 + s ^ 2)) by (unfold s; ring).
      rewrite UV, B, K2. replace (k * (1 - b3)) with (2 * k - 1) by lra. ring.
    + replace (r * (u + b1 * c - k * b1 * s) * b1 + r * (v + b2 * c - k * b2 * s) * b2 + r * (b3 * c - s) * b3)
        with (r * (s * (1 - k * (b1 ^ 2 + b2 ^ 2) - b3) + (b1 ^ 2 + b2 ^ 2 + b3 ^ 2) * c)) by (unfold s; ring).
      rewrite K2, B. ring.
Qed.
Print Assumptions C88_cap.

(** The ball and the two weights on space with backend "vtk". *)
Theorem C88_balls_vtk : forall q, of_dim 3 q -> 0 < Rsum (weights q) ->
  (exists ds, s3_show "vtk" q = Some ds /\ shows ball_volume (4 / 3 * PI) (fun p => p) q ds) /\
  (exists ds, e3r_show "vtk" q = Some ds /\ shows ball_volume (8 * PI) (fun p => p) q ds) /\
  (exists ds, e3r2_show "vtk" q = Some ds /\ shows ball_volume (8 * PI) (fun p => p) q ds).
Proof.
  intros q H P. pose proof PI_RGT_0. unfold s3_show, e3r_show, e3r2_show, backend_call. cbn [String.eqb Ascii.eqb Bool.eqb]. replace (4.0 / 3.0) with (4 / 3) by lra.
  split; [|split]; apply vtk_ok; auto; lra.
Qed.
Print Assumptions C88_balls_vtk.
(** Hexahedra, pyramids and wedges with backend "mpl". *)
Theorem C88_solids_mpl : forall q, of_dim 3 q -> 0 < Rsum (weights q) ->
  (forall hexa vol, length (hd [] hexa) = 3%nat -> cn_integrate 3 0 q (fun _ => 1) hexa = Some vol -> 0 <= vol ->
     exists ds, c3_show "mpl" q hexa = Some ds /\ shows ball_volume vol (fun p => match transform p hexa with Some x => x | None => [] end) q ds) /\
  (forall wedge, 0 <= w3_integrate q (fun _ => 1) wedge ->
     exists ds, w3_show "mpl" q wedge = Some ds /\ shows ball_volume (w3_integrate q (fun _ => 1) wedge) (fun p => w3_transform p wedge) q ds) /\
  (forall pyra, exists ds, p3_show "mpl" q pyra = Some ds /\ shows ball_volume 1 (fun p => p3_transform p pyra) q ds).
Proof.
  intros q H P. unfold of_dim in H. rewrite List.Forall_forall in H. split; [|split].
  - intros hexa vol L E V. unfold c3_show, backend_call. cbn [String.eqb Ascii.eqb Bool.eqb]. set (place := fun p => match transform p hexa with Some x => x | None => [] end).
    rewrite (opt_all_ext _ (fun wp => place (snd wp))).
    + cbn [bind]. rewrite E. cbn [bind]. apply (mpl_ok place); auto. intros wp Hw. unfold place. destruct (transform_some 3 (snd wp) hexa (H wp Hw) ltac:(lia)) as (x & -> & Lx). congruence.
    + intros wp Hw. unfold place. destruct (transform_some 3 (snd wp) hexa (H wp Hw) ltac:(lia)) as (x & -> & _). reflexivity.
  - intros wedge V. unfold w3_show, backend_call. cbn [String.eqb Ascii.eqb Bool.eqb]. apply (mpl_ok (fun p => w3_transform p wedge)); [exact P|exact V|]. intros; apply vlin_length.
  - intros pyra. unfold p3_show, backend_call. cbn [String.eqb Ascii.eqb Bool.eqb]. replace 1.0 with 1 by lra. apply (mpl_ok (fun p => p3_transform p pyra)); [exact P|lra|]. intros; apply vlin_length.
Qed.
Print Assumptions C88_solids_mpl.
(** With the other backend: hexahedra and wedges (whose default this is) and pyramids raise in vtk, unless there are exactly three points. *)
Theorem C88_vtk_refuted : forall q, q <> [] -> length q <> 3%nat ->
  (forall hexa, c3_show "vtk" q hexa = None) /\ (forall wedge, w3_show "vtk" q wedge = None) /\ (forall pyra, p3_show "vtk" q pyra = None).
Proof.
  intros q N L. assert (N' : map fst q <> []) by (destruct q; [congruence|discriminate]). assert (L' : length (map fst q) <> 3%nat) by (rewrite map_length; auto).
  split; [|split].
  - intros hexa. unfold c3_show, backend_call. cbn [String.eqb Ascii.eqb Bool.eqb]. destruct (opt_all _) as [xs|] eqn:E; [|reflexivity]. cbn [bind]. destruct (cn_integrate _ _ _ _ _); [|reflexivity]. cbn [bind].
    apply vtk_fails; auto. apply opt_all_length in E. rewrite E, !map_length. reflexivity.
  - intros. unfold w3_show, backend_call. cbn [String.eqb Ascii.eqb Bool.eqb]. apply vtk_fails; auto. rewrite !map_length. reflexivity.
  - intros. unfold p3_show, backend_call. cbn [String.eqb Ascii.eqb Bool.eqb]. apply vtk_fails; auto. rewrite !map_length. reflexivity.
Qed.
Print Assumptions C88_vtk_refuted.
(** The ball and the weights on space with backend "mpl": one or two points raise; from three points on, three balls are drawn, whose
    centres are made of the first, second and third coordinates of the first three points. *)
Theorem C88_mpl_refuted : forall q volume, of_dim 3 q -> 0 < Rsum (weights q) -> 
  ((length q < 3)%nat -> s3_show "mpl" q = None /\ e3r_show "mpl" q = None /\ e3r2_show "mpl" q = None) /\
  ((3 <= length q)%nat -> 0 <= volume -> exists ds, show_mpl (points_of 3 q) (weights q) volume = Some ds /\
     map m_center ds = map (fun c => map (fun k => nth c (snd (nth k q (0, []))) 0) [0; 1; 2]%nat) [0; 1; 2]%nat).
Proof.
  intros q volume H P. split.
  - intros L. assert (G : forall v, show_mpl (points_of 3 q) (map fst q) v = None).
    { intros v. unfold show_mpl. rewrite radii_ok by auto. cbn [bind]. destruct q as [|a [|b [|c q]]]; cbn in L; try lia; [cbn in P; lra| |]; reflexivity. }
    unfold s3_show, e3r_show, e3r2_show, backend_call. cbn [String.eqb Ascii.eqb Bool.eqb]. rewrite !G. auto.
  - intros L V. unfold show_mpl. rewrite radii_ok by auto. cbn [bind]. destruct q as [|[wa a] [|[wb b] [|[wc c] q]]]; cbn in L; try lia. eexists. split; [reflexivity|]. reflexivity.
Qed.
Print Assumptions C88_mpl_refuted.
(** Tetrahedra: show() raises for every scheme, whatever the backend. *)
Theorem C88_tetrahedron_refuted : forall q tet backend, length tet = 4%nat -> q <> [] -> t3_show backend q tet = None.
Proof.
  intros q tet backend L N. unfold t3_show, nd_matmul. cbn [nd_T points_of nd_points nd_shape rev app]. rewrite L, map_length. unfold guard. destruct (Nat.eqb_spec 4 (length q)) as [E|]; [|reflexivity]. cbn [bind].
  destruct (get_vol tet) as [vol|]; [|reflexivity]. cbn [bind]. unfold backend_call. destruct (String.eqb backend "mpl"); [reflexivity|]. destruct (String.eqb backend "vtk"); [|reflexivity].
  unfold show_vtk. destruct (ball_radii (map fst q) vol) as [rs|] eqn:R; [|reflexivity]. cbn [bind]. apply opt_all_length in R. rewrite !map_length in R.
  destruct q as [|[w p] q]; [congruence|]. destruct rs as [|r rs]; [cbn in R; lia|]. reflexivity.
Qed.
Print Assumptions C88_tetrahedron_refuted.
(** Pyramids: the volumes are shares of 1 whatever the pyramid; in the default pyramid, over the unit square with height 1, this is three times
    its volume. *)
Theorem C88_pyramid_total_refuted : forall q, of_dim 3 q -> 0 < Rsum (weights q) -> List.Forall (fun wp => 0 <= fst wp) q ->
  forall pyra, exists ds, p3_show "mpl" q pyra = Some ds /\ total_measure ball_volume ds = 1.
Proof.
  intros q H P F pyra. destruct (C88_solids_mpl q H P) as (_ & _ & G). destruct (G pyra) as (ds & E & S). exists ds. split; [exact E|]. apply (C88_total _ _ _ _ _ S P ltac:(lra)). exact F.
Qed.
Print Assumptions C88_pyramid_total_refuted.
(** Space with the weight exp(-|x|^2): shares of 8 pi, where the integral of the weight is pi^(3/2). *)
Theorem C88_space_total_refuted : forall q, of_dim 3 q -> Rsum (weights q) = 1 -> List.Forall (fun wp => 0 <= fst wp) q ->
  (exists ds, e3r_show "vtk" q = Some ds /\ total_measure ball_volume ds = e3r_integrate q (fun _ => 1)) /\
  (exists ds, e3r2_show "vtk" q = Some ds /\ total_measure ball_volume ds = 8 * PI /\ e3r2_integrate q (fun _ => 1) = sqrt PI ^ 3 /\ sqrt PI ^ 3 < 8 * PI).
Proof.
  intros q H One F. assert (P : 0 < Rsum (weights q)) by lra. pose proof PI_RGT_0. pose proof PI_4 as P4. destruct (C88_balls_vtk q H P) as (_ & (d1 & E1 & S1) & (d2 & E2 & S2)).
  assert (I : Rsum (map (fun wp : R * point => 1 * fst wp) q) = 1). { transitivity (Rsum (weights q)); [|exact One]. unfold weights. f_equal. apply map_ext. intros. ring. }
  split.
  - exists d1. split; [exact E1|]. unfold e3r_integrate. rewrite I, Rmult_1_r. apply (C88_total _ _ _ _ _ S1 P ltac:(lra)). exact F.
  - exists d2. split; [exact E2|]. split; [apply (C88_total _ _ _ _ _ S2 P ltac:(lra)); exact F|]. unfold e3r2_integrate. rewrite I. split; [ring|].
    assert (S4 : sqrt PI < 3). { replace 3 with (sqrt (3 * 3)) by (apply sqrt_square; lra). apply sqrt_lt_1; lra. }
    replace (sqrt PI ^ 3) with (sqrt PI * sqrt PI * sqrt PI) by ring. rewrite sqrt_sqrt by lra. rewrite (Rmult_comm 8). apply Rmult_lt_compat_l; lra.
Qed.
Print Assumptions C88_space_total_refuted.

(** The edges: each edge of the domain once. *)
Definition pairs_of {A} (l : list A) : list (A * A) := List.list_prod l l.
Definition nat2 : list (list nat) := [[0; 0]; [0; 1]; [1; 0]; [1; 1]]%nat.
Definition nat3 : list (list nat) := flat_map (fun l => [0%nat :: l; 1%nat :: l]) nat2.
Definition nat23 : list (list nat) := [[0; 0]; [0; 1]; [0; 2]; [1; 0]; [1; 1]; [1; 2]]%nat.
Definition joined {A} (edges : list (A * A)) (i j : A) : Prop := In (i, j) edges \/ In (j, i) edges.
Definition once {A} (edges : list (A * A)) : Prop := NoDup edges /\ forall i j, In (i, j) edges -> ~ In (j, i) edges.
Lemma in_dec_edges {A} (dec : forall x y : A, {x = y} + {x <> y}) (edges : list (A * A)) i j : {joined edges i j} + {~ joined edges i j}.
Proof.
  assert (D : forall x y : A * A, {x = y} + {x <> y}) by (intros; decide equality). unfold joined. destruct (in_dec D (i, j) edges); [left; auto|]. destruct (in_dec D (j, i) edges); [left; auto|]. right. intros [|]; auto.
Defined.
Lemma pair_dec {A} (dec : forall x y : A, {x = y} + {x <> y}) : forall x y : A * A, {x = y} + {x <> y}.
Proof. decide equality. Defined.
Fixpoint nodupb {A} (dec : forall x y : A, {x = y} + {x <> y}) (l : list A) : bool :=
  match l with [] => true | x :: l' => (if in_dec dec x l' then false else true) && nodupb dec l' end.
Lemma nodupb_ok {A} (dec : forall x y : A, {x = y} + {x <> y}) l : nodupb dec l = true -> NoDup l.
Proof. induction l as [|x l IH]; cbn; [constructor|]. destruct (in_dec dec x l); [discriminate|]. constructor; auto. Qed.
Lemma once_dec {A} (dec : forall x y : A, {x = y} + {x <> y}) (edges : list (A * A)) : nodupb (pair_dec dec) (edges ++ map (fun e => (snd e, fst e)) edges) = true -> once edges.
Proof.
  intros N. apply nodupb_ok in N. split.
  - revert N. generalize (map (fun e => (snd e, fst e)) edges). induction edges as [|e edges IH]; intros l N; [constructor|]. inversion N; subst. constructor; [intros I; apply H1; apply in_or_app; auto|]. eapply IH. exact H2.
  - intros i j I J. revert N I J. assert (G : forall l1 l2 (x : A * A), NoDup (l1 ++ l2) -> In x l1 -> In x l2 -> False).
    { induction l1 as [|y l1 IH]; intros l2 x N I J; [contradiction|]. inversion N; subst. destruct I as [->|I]; [apply H1; apply in_or_app; auto|eapply IH; eauto]. }
    intros N I J. apply (G _ _ (i, j) N I). apply in_map_iff. exists (j, i). auto.
Qed.
Theorem C88_edges :
  (once c2_edges /\ forall i j, In i nat2 -> In j nat2 -> (joined c2_edges i j <-> differ i j = 1%nat)) /\
  (once c3_edges /\ forall i j, In i nat3 -> In j nat3 -> (joined c3_edges i j <-> differ i j = 1%nat)) /\
  (once t3_edges /\ forall i j, (i < 4)%nat -> (j < 4)%nat -> (joined t3_edges i j <-> i <> j)) /\
  (once p3_edges /\ forall i j, (i < 5)%nat -> (j < 5)%nat -> (joined p3_edges i j <-> i <> j /\ ~ (List.In (i, j) [(0, 2); (2, 0); (1, 3); (3, 1)]%nat))) /\
  (once w3_edges /\ forall i j, In i nat23 -> In j nat23 -> (joined w3_edges i j <-> differ i j = 1%nat)).
Proof.
  pose proof (list_eq_dec Nat.eq_dec) as dl.
  assert (F : forall (es : list (list nat * list nat)) dom, forallb (fun ij => Bool.eqb (if in_dec_edges (list_eq_dec Nat.eq_dec) es (fst ij) (snd ij) then true else false) (differ (fst ij) (snd ij) =? 1)%nat) (pairs_of dom) = true ->
     forall i j, In i dom -> In j dom -> (joined es i j <-> differ i j = 1%nat)).
  { intros es dom E i j Hi Hj. rewrite forallb_forall in E. specialize (E (i, j) ltac:(apply in_prod; auto)). cbn [fst snd] in E. apply eqb_prop in E. destruct (in_dec_edges _ es i j) as [J|J]; symmetry in E.
    - apply Nat.eqb_eq in E. tauto.
    - apply Nat.eqb_neq in E. tauto. }
  split; [split; [apply (once_dec (list_eq_dec Nat.eq_dec)); reflexivity|apply F; reflexivity]|].
  split; [split; [apply (once_dec (list_eq_dec Nat.eq_dec)); reflexivity|apply F; reflexivity]|].
  split; [split; [apply (once_dec Nat.eq_dec); reflexivity|]|].
  { intros i j Hi Hj. unfold joined, t3_edges. cbn. do 4 (destruct i as [|i]; [do 4 (destruct j as [|j]; [clear; intuition (congruence || discriminate)|]); lia|]). lia. }
  split; [split; [apply (once_dec Nat.eq_dec); reflexivity|]|].
  { intros i j Hi Hj. unfold joined, p3_edges. cbn. do 5 (destruct i as [|i]; [do 5 (destruct j as [|j]; [clear; intuition (congruence || discriminate)|]); lia|]). lia. }
  split; [apply (once_dec (list_eq_dec Nat.eq_dec)); reflexivity|apply F; reflexivity].
Qed.
Print Assumptions C88_edges.

(** *** Cases *)
(** a rule with a negative weight on the disk: three disks of areas 2/3, 2/3, 1/3 times pi, the last one red; together 5/3 pi *)
Example C88_disk_case : let q := [(2/3, [1/2; 0]); (2/3, [- (1/2); 0]); (- (1/3), [0; 0])] in exists ds, s2_plot q = Some ds /\
  map m_center ds = [[1/2; 0]; [- (1/2); 0]; [0; 0]] /\ map m_color ds = [blue; blue; red] /\ total_measure disk_area ds = 5 / 3 * PI.
Proof.
  cbv zeta. set (q := [(2/3, [1/2; 0]); (2/3, [- (1/2); 0]); (- (1/3), [0; 0])]). assert (P : 0 < Rsum (weights q)) by (cbn; lra). destruct (C88_planar q) as ((ds & E & S) & _); [repeat constructor|exact P|].
  exists ds. split; [exact E|]. destruct (C88_total _ _ _ _ _ S P PI_RGT_0) as (_ & C & T & _). split; [exact C|]. split.
  - unfold shows, q in S. inversion S as [|? d1 ? ? (_ & _ & _ & B1 & _) S1]; subst. inversion S1 as [|? d2 ? ? (_ & _ & _ & B2 & _) S2]; subst. inversion S2 as [|? d3 ? ? (_ & _ & _ & _ & B3) S3]; subst. inversion S3; subst. cbn [map fst] in *. rewrite B1, B2, B3 by lra. reflexivity.
  - rewrite T. unfold q, weights. cbn [map fst Rsum]. rewrite Rabs_Ropp, !Rabs_pos_eq by lra. field.
Qed.
Example C88_tet_case : t3_show "vtk" [(1, [1/4; 1/4; 1/4; 1/4])] [[1; 0; 0]; [0; 1; 0]; [0; 0; 1]; [0; 0; 0]] = None.
Proof. apply C88_tetrahedron_refuted; [reflexivity|discriminate]. Qed.
