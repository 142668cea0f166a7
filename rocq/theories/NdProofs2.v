(** Lemmas for C86: simplices, cubes, pyramids, wedges, whole spaces, the sphere. *)
From Coq Require Import Reals List Arith Bool Lia Lra.
From Verif Require Import Spec RsumLemmas PyBase GeomModel CubeModel CubeProofs PyraModel RoundModel ShapeModel ShapeSpec ShapeProofs NdModel NdSpec NdProofs.
Import ListNotations.
Set Bullet Behavior "Strict Subproofs".
Open Scope R_scope.
Local Notation length := List.length.

(* ------------------------------------------------------------------ simplices *)
Lemma rev_axes (a : nat) mid d : rev (a :: mid ++ [d]) = d :: rev mid ++ [a].
Proof. cbn [rev]. rewrite rev_app_distr. reflexivity. Qed.
Lemma map_nth_seq (p : point) : map (fun c => nth c p 0) (seq 0 (length p)) = p.
Proof. induction p as [|a p IH]; auto. cbn [length seq map nth]. rewrite <- seq_shift, map_map. cbn [nth]. rewrite IH. auto. Qed.
Lemma combine_sum (g : nat -> R) (lam : list R) (l : list point) (c : nat) : length lam = length l -> (forall j, (j < length l)%nat -> nth c (nth j l []) 0 = g j) ->
  Rsum (map (fun k => g k * nth k lam 0) (seq 0 (length l))) = Rsum (map (fun e => fst e * nth c (snd e) 0) (List.combine lam l)).
Proof.
  revert g l. induction lam as [|a lam IH]; intros g [|p l] L H; try discriminate; auto. cbn [length seq map List.combine Rsum fst snd nth]. rewrite <- seq_shift, map_map. cbn [nth].
  rewrite <- (IH (fun j => g (S j)) l); [|cbn in L; lia|intros j Hj; apply (H (S j)); cbn; lia]. rewrite <- (H 0%nat) by (cbn; lia). cbn [nth]. ring.
Qed.
Lemma vertices_shape n mid d a s : nd_shape a = (n + 1)%nat :: mid ++ [d] -> length (vertices a s) = (n + 1)%nat /\ (forall j, (j < n + 1)%nat -> nth j (vertices a s) [] = map (fun c => nd_at a (j :: s ++ [c])) (seq 0 d)).
Proof.
  intros H. unfold vertices. rewrite H. cbn [hd]. replace (last ((n + 1)%nat :: mid ++ [d]) 0%nat) with d by (rewrite app_comm_cons, last_last; auto). rewrite map_length, seq_length. split; auto.
  intros j Hj. rewrite nth_indep with (d' := (fun j => map (fun c => nd_at a (j :: s ++ [c])) (seq 0 d)) 0%nat) by (rewrite map_length, seq_length; auto). rewrite (map_nth (fun j => map (fun c => nd_at a (j :: s ++ [c])) (seq 0 d))), seq_nth by auto. reflexivity.
Qed.
Lemma tn_points n mid d (q : rule) simplex : nd_shape simplex = (n + 1)%nat :: mid ++ [d] -> List.Forall (fun wp => length (snd wp) = (n + 1)%nat) q ->
  exists x, nd_dotm (nd_T simplex) (n + 1) (map snd q) = Some x /\ nd_shape x = d :: rev mid ++ [length q] /\
    forall i k, within i (rev mid) -> (k < length q)%nat -> map (fun c => nd_at x (c :: i ++ [k])) (seq 0 d) = bary_map (vertices simplex (rev i)) (nth k (map snd q) []).
Proof.
  intros H Hq. unfold nd_dotm. assert (S : nd_shape (nd_T simplex) = d :: rev mid ++ [(n + 1)%nat]) by (unfold nd_T; cbn [nd_shape]; rewrite H, rev_axes; auto). rewrite S.
  replace (last (d :: rev mid ++ [(n + 1)%nat]) 0%nat) with (n + 1)%nat by (rewrite app_comm_cons, last_last; auto). rewrite Nat.eqb_refl. cbn [length Nat.eqb negb orb]. eexists. split; [reflexivity|]. cbn [nd_shape nd_at].
  rewrite app_comm_cons, removelast_last, map_length. split; [reflexivity|]. intros i k Hi Hk. destruct (vertices_shape n mid d simplex (rev i) H) as [Lv Nv]. unfold bary_map.
  replace (length (hd [] (vertices simplex (rev i)))) with d.
  2: { assert (E := Nv 0%nat ltac:(lia)). destruct (vertices simplex (rev i)); [cbn in Lv; lia|]. cbn [nth hd] in *. rewrite E, map_length, seq_length. auto. }
  apply map_ext_in. intros c Hc. apply in_seq in Hc. replace (last (c :: i ++ [k]) 0%nat) with k by (rewrite app_comm_cons, last_last; auto). rewrite app_comm_cons, removelast_last.
  rewrite <- Lv. apply (combine_sum (fun j => nd_at (nd_T simplex) ((c :: i) ++ [j]))); [rewrite Lv; apply (nth_points (n + 1) q); auto|]. intros j Hj. rewrite Nv by lia.
  rewrite nth_indep with (d' := (fun c => nd_at simplex (j :: rev i ++ [c])) 0%nat) by (rewrite map_length, seq_length; lia). rewrite (map_nth (fun c => nd_at simplex (j :: rev i ++ [c]))), seq_nth by lia.
  unfold nd_T. cbn [nd_at]. f_equal. rewrite rev_app_distr. cbn [rev app]. reflexivity.
Qed.
Lemma get_vol_nd_some n mid d simplex : nd_shape simplex = (n + 1)%nat :: mid ++ [d] -> (forall s, within s mid -> get_vol (vertices simplex s) <> None) ->
  exists vol, get_vol_nd simplex = Some vol /\ nd_shape vol = mid /\ forall s, within s mid -> get_vol (vertices simplex s) = Some (nd_at vol s).
Proof.
  intros H Hv. unfold get_vol_nd. rewrite H. cbn [tl]. rewrite removelast_last. cbn zeta.
  rewrite (opt_all_map _ (fun s => match get_vol (vertices simplex s) with Some v => v | None => 0 end)). 2: { intros s Hs. apply in_indices in Hs. specialize (Hv s Hs). destruct (get_vol _); congruence. }
  cbn [bind]. eexists. split; [reflexivity|]. cbn [nd_shape nd_at]. split; auto. intros s Hs. specialize (Hv s Hs). destruct (get_vol _); congruence.
Qed.
(** the entries of the result, before they are multiplied by the volumes *)
Lemma tn_core n mid d (q : rule) f simplex rs F : pointwise d rs F f -> nd_shape simplex = (n + 1)%nat :: mid ++ [d] -> List.Forall (fun wp => length (snd wp) = (n + 1)%nat) q ->
  (forall s, within s mid -> get_vol (vertices simplex s) <> None) ->
  exists vol dt, tn_integrate_nd n q f simplex = of_option (nd_bc Rmult vol dt) /\ nd_shape vol = mid /\ nd_shape dt = rs ++ rev mid /\
    (forall s, within s mid -> get_vol (vertices simplex s) = Some (nd_at vol s)) /\
    forall r s, within r rs -> within s mid -> nd_at dt (r ++ rev s) = Rsum (map (fun wp => F (bary_map (vertices simplex s) (snd wp)) r * fst wp) q).
Proof.
  intros Hf H Hq Hv. unfold tn_integrate_nd. rewrite H, Nat.eqb_refl. cbn [negb]. destruct (tn_points n mid d q simplex H Hq) as (x & E & Sx & Vx). rewrite E. cbn [bind].
  destruct (get_vol_nd_some n mid d simplex H Hv) as (vol & Ev & Sv & Vv). rewrite Ev. cbn [bind]. cbn zeta.
  destruct (dot_pointwise d rs F f x (rev mid) q (fun i p => bary_map (vertices simplex (rev i)) p) Hf Sx Vx) as (K & dt & Ed & Sd & Vd). rewrite K, Ed. cbn [negb bind].
  exists vol, dt. repeat (split; auto). intros r s Hr Hs. rewrite (Vd r (rev s) Hr (within_rev _ _ Hs)), rev_involutive. apply Rsum_map_ext. intros; ring.
Qed.
Lemma tn_integrate_value n q f S v : length S = (n + 1)%nat -> get_vol S = Some v -> tn_integrate n q f S = Some (v * Rsum (map (fun wp => f (bary_map S (snd wp)) * fst wp) q)).
Proof. intros L V. unfold tn_integrate, guard. rewrite L, Nat.eqb_refl, V. reflexivity. Qed.
Lemma rev_short (s : list nat) : (length s <= 1)%nat -> rev s = s.
Proof. destruct s as [|a [|b s]]; auto. cbn. lia. Qed.
(** at most one axis *)
Lemma tn_nd_1 n mid d (q : rule) f simplex rs F : (length mid <= 1)%nat -> pointwise d rs F f -> nd_shape simplex = (n + 1)%nat :: mid ++ [d] -> List.Forall (fun wp => length (snd wp) = (n + 1)%nat) q ->
  (forall s, within s mid -> get_vol (vertices simplex s) <> None) ->
  exists out, tn_integrate_nd n q f simplex = done out /\ nd_shape out = rs ++ mid /\
    forall r s, within r rs -> within s mid -> tn_integrate n q (fun p => F p r) (vertices simplex s) = Some (nd_at out (r ++ s)).
Proof.
  intros Lm Hf H Hq Hv. destruct (tn_core n mid d q f simplex rs F Hf H Hq Hv) as (vol & dt & E & Sv & Sd & Vv & Vd). rewrite (rev_short mid Lm) in Sd.
  destruct (nd_bc_left Rmult vol dt rs mid Sv Sd) as (out & Eo & So & Vo). rewrite E, Eo. exists out. split; auto. split; auto. intros r s Hr Hs.
  rewrite (tn_integrate_value n q _ _ (nd_at vol s)); auto; [|apply (vertices_shape n mid d simplex s H)]. rewrite Vo, <- (Vd r s), (rev_short s); auto. rewrite (within_length _ _ Hs). auto.
Qed.
(** two axes: each value is multiplied by the volume of another simplex *)
Lemma tn_nd_2 n m d (q : rule) f simplex rs F : pointwise d rs F f -> nd_shape simplex = [(n + 1)%nat; m; m; d] -> List.Forall (fun wp => length (snd wp) = (n + 1)%nat) q ->
  (forall s, within s [m; m] -> get_vol (vertices simplex s) <> None) ->
  exists out, tn_integrate_nd n q f simplex = done out /\ nd_shape out = rs ++ [m; m] /\
    forall r k l, within r rs -> (k < m)%nat -> (l < m)%nat -> exists v, get_vol (vertices simplex [k; l]) = Some v /\
      nd_at out (r ++ [k; l]) = v * Rsum (map (fun wp => F (bary_map (vertices simplex [l; k]) (snd wp)) r * fst wp) q).
Proof.
  intros Hf H Hq Hv. destruct (tn_core n [m; m] d q f simplex rs F Hf H Hq Hv) as (vol & dt & E & Sv & Sd & Vv & Vd).
  destruct (nd_bc_left Rmult vol dt rs [m; m] Sv Sd) as (out & Eo & So & Vo). rewrite E, Eo. exists out. split; auto. split; auto. intros r k l Hr Hk Hl.
  assert (W : within [k; l] [m; m]) by (repeat constructor; auto). assert (W' : within [l; k] [m; m]) by (repeat constructor; auto). exists (nd_at vol [k; l]). split; auto. rewrite Vo by auto. f_equal. rewrite <- (Vd r [l; k]) by auto. reflexivity.
Qed.
Lemma tn_nd_2_fails n m k d (q : rule) f simplex rs F : pointwise d rs F f -> nd_shape simplex = [(n + 1)%nat; m; k; d] -> List.Forall (fun wp => length (snd wp) = (n + 1)%nat) q ->
  (forall s, within s [m; k] -> get_vol (vertices simplex s) <> None) -> m <> k -> m <> 1%nat -> k <> 1%nat -> tn_integrate_nd n q f simplex = numpy_error.
Proof.
  intros Hf H Hq Hv N M K. destruct (tn_core n [m; k] d q f simplex rs F Hf H Hq Hv) as (vol & dt & E & Sv & Sd & Vv & Vd). rewrite E. unfold nd_bc. rewrite Sv, Sd, rev_app_distr. cbn [rev app].
  rewrite bc_shape_none by auto. reflexivity.
Qed.

(* ------------------------------------------------------------------ cubes, pyramids, wedges *)
Lemma mapped_points mid dim X (q : rule) : (forall s p, In p (map snd q) -> within s mid -> length (X s p) = dim) ->
  let x := nd_T (nd_mapped mid dim X (map snd q)) in nd_shape x = dim :: rev mid ++ [length q] /\
  forall i k, within i (rev mid) -> (k < length q)%nat -> map (fun c => nd_at x (c :: i ++ [k])) (seq 0 dim) = X (rev i) (nth k (map snd q) []).
Proof.
  intros H. cbn zeta. split; [unfold nd_T, nd_mapped; cbn [nd_shape]; rewrite rev_axes, map_length; auto|]. intros i k Hi Hk.
  assert (Hi' : within (rev i) mid) by (rewrite <- (rev_involutive mid); apply within_rev; auto). assert (L := H (rev i) (nth k (map snd q) []) ltac:(apply nth_In; rewrite map_length; auto) Hi').
  rewrite <- (map_nth_seq (X (rev i) (nth k (map snd q) []))), L. apply map_ext. intros c. unfold nd_T, nd_mapped. cbn [nd_at]. rewrite rev_axes. cbn [hd tl]. rewrite removelast_last. replace (last (k :: rev i ++ [c]) 0%nat) with c by (rewrite app_comm_cons, last_last; auto). reflexivity.
Qed.
(** f(x) times the absolute determinants, summed with the weights *)
Lemma det_dot mid dim X D (q : rule) f rs F : pointwise dim rs F f -> (forall s p, In p (map snd q) -> within s mid -> length (X s p) = dim) ->
  let x := nd_T (nd_mapped mid dim X (map snd q)) in let det := nd_dets mid D (map snd q) in
  shape_ok (f x) x = true /\ exists y d, nd_bc Rmult (f x) (nd_map Rabs det) = Some y /\ nd_dotv y (map fst q) = Some d /\ nd_shape d = rs ++ rev mid /\
    forall r s, within r rs -> within s mid -> nd_at d (r ++ rev s) = Rsum (map (fun wp => F (X s (snd wp)) r * Rabs (D s (snd wp)) * fst wp) q).
Proof.
  intros Hf HX x det. destruct (mapped_points mid dim X q HX) as [Sx Vx]. fold x in Sx, Vx. destruct (Hf x _ Sx) as [Sf Vf]. split; [eapply shape_ok_pointwise; eauto; destruct (rev mid); discriminate|].
  destruct (nd_bc_right Rmult (f x) (nd_map Rabs det) rs (rev mid ++ [length q])) as (y & E & Sy & Vy); [auto|unfold nd_map, det, nd_dets; cbn [nd_shape]; rewrite map_length; auto|].
  destruct (nd_dotv_value y (rs ++ rev mid) (map fst q)) as (d & Ed & Sd & Vd); [rewrite Sy, map_length, app_assoc; auto|]. exists y, d. repeat (split; auto).
  intros r s Hr Hs. rewrite Vd. rewrite (Rsum_map_ext (fun wp => F (X s (snd wp)) r * Rabs (D s (snd wp)) * fst wp) (fun wp => fst wp * (F (X s (snd wp)) r * Rabs (D s (snd wp)))) q) by (intros; ring).
  rewrite <- (sum_rule q (fun p => F (X s p) r * Rabs (D s p))). apply Rsum_map_ext. intros k Hk. apply in_seq in Hk. rewrite map_length in Hk. f_equal. rewrite <- app_assoc.
  assert (Hs' := within_rev _ _ Hs). assert (W : within (rev s ++ [k]) (rev mid ++ [length q])) by (apply within_app; auto; apply within_one; lia). rewrite Vy, Vf by auto. f_equal.
  - f_equal. rewrite (Vx (rev s) k) by (auto; lia). rewrite rev_involutive. reflexivity.
  - unfold nd_map, det, nd_dets. cbn [nd_at]. rewrite removelast_last, last_last, rev_involutive. reflexivity.
Qed.
Lemma n_outer_some (l : list (list R)) : l <> [] -> exists a, n_outer l = Some a.
Proof. destruct l; [congruence|]. intros _. eexists. reflexivity. Qed.
Lemma transform_some n (p : point) cube : length p = n -> n <> 0%nat -> exists x, transform p cube = Some x /\ length x = length (hd [] cube).
Proof.
  intros L N. unfold transform. destruct (n_outer_some (one_mp p)) as [a E]; [destruct p; [cbn in L; lia|discriminate]|]. rewrite E. cbn [bind]. eexists. split; [reflexivity|]. unfold tensordot. rewrite map_length, seq_length. auto.
Qed.
Lemma replace_nth_nonempty {A} k (v : A) l : l <> [] -> replace_nth k v l <> [].
Proof. destruct l, k; cbn; congruence. Qed.
Lemma get_detJ_some n (p : point) cube : length p = n -> n <> 0%nat -> exists d, get_detJ p cube = Some d.
Proof.
  intros L N. unfold get_detJ. rewrite (opt_all_map _ (fun k => match jac_row p cube k with Some r => r | None => [] end)). { cbn [bind]. eauto. }
  intros k _. unfold jac_row. destruct (n_outer_some (replace_nth k [-0.5; 0.5] (one_mp p))) as [a E]; [apply replace_nth_nonempty; destruct p; [cbn in L; lia|discriminate]|]. rewrite E. reflexivity.
Qed.
Lemma corners_hd n mid a s : nd_shape a = repeat 2%nat n ++ mid ++ [n] -> length (hd [] (corners n a s)) = n.
Proof.
  intros H. unfold corners. rewrite H. replace (last (repeat 2%nat n ++ mid ++ [n]) 0%nat) with n by (rewrite app_assoc, last_last; auto).
  destruct (indices (repeat 2%nat n)) as [|j l] eqn:E. { exfalso. assert (I : In (repeat 0%nat n) (indices (repeat 2%nat n))) by (apply in_indices; clear; induction n; cbn; constructor; auto). rewrite E in I. destruct I. }
  cbn [map hd]. rewrite map_length, seq_length. auto.
Qed.
Lemma cn_nd n mid (q : rule) f cube rs F : n <> 0%nat -> pointwise n rs F f -> nd_shape cube = repeat 2%nat n ++ mid ++ [n] -> List.Forall (fun wp => length (snd wp) = n) q ->
  exists out, cn_integrate_nd n q f cube = done out /\ nd_shape out = rs ++ rev mid /\
    forall r s, within r rs -> within s mid -> cn_integrate n (length mid) q (fun p => F p r) (corners n cube s) = Some (nd_at out (r ++ rev s)).
Proof.
  intros N Hf H Hq. unfold cn_integrate_nd. assert (Em : skipn n (removelast (nd_shape cube)) = mid).
  { rewrite H, app_assoc, removelast_last. rewrite <- (repeat_length 2%nat n) at 1. rewrite skipn_app, Nat.sub_diag, skipn_O, skipn_all. reflexivity. }
  rewrite Em. cbn zeta. rewrite (opt_all_map _ (fun p => match n_outer (one_mp p) with Some a => a | None => [] end)).
  2: { intros p Hp. apply in_map_iff in Hp. destruct Hp as (wp & <- & I). rewrite List.Forall_forall in Hq. assert (Hw : length (snd wp) = n) by exact (Hq _ I). destruct (n_outer_some (one_mp (snd wp))) as [a E]; [intros Z; unfold one_mp in Z; apply map_eq_nil in Z; rewrite Z in Hw; cbn in Hw; lia|]. rewrite E. auto. }
  cbn [bind]. set (X := fun (s : list nat) p => match transform p (corners n cube s) with Some x => x | None => [] end). set (D := fun (s : list nat) p => match get_detJ p (corners n cube s) with Some d => d | None => 0 end).
  assert (Hp : forall p, In p (map snd q) -> length p = n) by (intros p I; apply in_map_iff in I; destruct I as (wp & <- & I); rewrite List.Forall_forall in Hq; auto).
  destruct (det_dot mid n X D q f rs F Hf) as (K & y & d & Ey & Ed & Sd & Vd).
  { intros s p I Hs. unfold X. destruct (transform_some n p (corners n cube s) (Hp p I) N) as (x & E & L). rewrite E, L. apply (corners_hd n mid); auto. }
  rewrite K, Ey. cbn [negb bind]. rewrite Ed. cbn [bind]. eexists. split; [reflexivity|]. unfold nd_map. cbn [nd_shape nd_at]. split; auto. intros r s Hr Hs. rewrite Vd by auto.
  unfold cn_integrate. rewrite (opt_all_map _ (fun wp => F (X s (snd wp)) r * Rabs (D s (snd wp)) * fst wp)).
  - cbn [bind]. do 3 f_equal. rewrite H, !app_length, repeat_length. cbn [length]. lia.
  - intros wp I. unfold X, D. assert (L : length (snd wp) = n) by (apply Hp, in_map, I). destruct (transform_some n (snd wp) (corners n cube s) L N) as (x & E & _). destruct (get_detJ_some n (snd wp) (corners n cube s) L N) as (e & E'). rewrite E, E'. reflexivity.
Qed.
Lemma vlin_length cs ps : length (vlin cs ps) = 3%nat. Proof. unfold vlin. rewrite map_length, seq_length. auto. Qed.
Lemma p3_nd mid (q : rule) f pyra rs F : pointwise 3 rs F f -> nd_shape pyra = 5%nat :: mid ++ [3%nat] ->
  exists out, p3_integrate_nd q f pyra = done out /\ nd_shape out = rs ++ rev mid /\
    forall r s, within r rs -> within s mid -> nd_at out (r ++ rev s) = p3_integrate q (fun p => F p r) (vertices pyra s).
Proof.
  intros Hf H. unfold p3_integrate_nd. rewrite H. cbn [tl]. rewrite removelast_last. cbn zeta.
  destruct (det_dot mid 3 (fun s p => p3_transform p (vertices pyra s)) (fun s p => p3_det p (vertices pyra s)) q f rs F Hf) as (K & y & d & Ey & Ed & Sd & Vd); [intros; apply vlin_length|].
  rewrite Ey. cbn [bind]. rewrite Ed. exists d. split; [reflexivity|]. split; auto.
Qed.
Lemma w3_nd mid (q : rule) f wedge rs F : pointwise 3 rs F f -> nd_shape wedge = 2%nat :: 3%nat :: mid ++ [3%nat] ->
  exists out, w3_integrate_nd q f wedge = done out /\ nd_shape out = rs ++ rev mid /\
    forall r s, within r rs -> within s mid -> nd_at out (r ++ rev s) = w3_integrate q (fun p => F p r) (wedge_vertices wedge s).
Proof.
  intros Hf H. unfold w3_integrate_nd. rewrite H. cbn [skipn]. rewrite removelast_last. cbn zeta.
  destruct (det_dot mid 3 (fun s p => w3_transform p (wedge_vertices wedge s)) (fun s p => w3_det p (wedge_vertices wedge s)) q f rs F Hf) as (K & y & d & Ey & Ed & Sd & Vd); [intros; apply vlin_length|].
  rewrite Ey. cbn [bind]. rewrite Ed. exists d. split; [reflexivity|]. split; auto.
Qed.

(* ------------------------------------------------------------------ whole spaces and the sphere *)
Lemma en_nd ref_vol dim (q : rule) f rs F : pointwise dim rs F f -> List.Forall (fun wp => length (snd wp) = dim) q ->
  exists out, en_integrate_nd ref_vol dim q f = done out /\ nd_shape out = rs /\ forall r, within r rs -> nd_at out r = ref_vol * apply q (fun p => F p r).
Proof.
  intros Hf Hq. unfold en_integrate_nd. destruct (dot_pointwise dim rs F f (nd_T (nd_points dim (map snd q))) [] q (fun _ p => p) Hf) as (K & d & E & Sd & V).
  - unfold nd_T, nd_points. cbn [nd_shape]. rewrite map_length. reflexivity.
  - intros i k Hi Hk. inversion Hi. subst. rewrite <- (map_nth_seq (nth k (map snd q) [])), (nth_points dim q k Hq Hk). apply map_ext. intros c. reflexivity.
  - rewrite E. cbn [bind]. eexists. split; [reflexivity|]. rewrite app_nil_r in Sd. split; auto. intros r Hr. specialize (V r [] Hr within_nil). rewrite app_nil_r in V. unfold nd_map. cbn [nd_at]. rewrite V. reflexivity.
Qed.
Lemma u3_nd_0 (q : rule) f center radius rs F : pointwise 3 rs F f -> List.Forall (fun wp => length (snd wp) = 3%nat) q -> nd_shape center = [3%nat] -> nd_shape radius = [] ->
  exists out, u3_integrate_nd q f center radius = done out /\ nd_shape out = rs /\
    forall r, within r rs -> nd_at out r = u3_integrate q (fun p => F p r) (vector 3 center []) (nd_at radius []).
Proof.
  intros Hf Hq C R. unfold u3_integrate_nd.
  destruct (nd_bc_right Rmult (nd_points 3 (map snd q)) radius [length q; 3%nat] []) as (rr & E & Sr & V); [unfold nd_points; cbn [nd_shape]; rewrite map_length; reflexivity|auto|]. rewrite E. cbn [bind].
  destruct (nd_bc_right Rplus rr center [length q] [3%nat]) as (y & E' & Sy & V'); auto. rewrite E'. cbn [bind].
  destruct (round_end true (fun r => 4 * PI * r ^ 2) 3 q f radius rs [] F (nd_T y) (fun _ p => vadd (vector 3 center []) (vscale (nd_at radius []) p)) Hf) as (out & Eo & So & Vo).
  - unfold nd_T. cbn [nd_shape]. rewrite Sy. reflexivity.
  - auto.
  - intros i k Hi Hk. inversion Hi. subst i. rewrite <- vadd_vector by (apply nth_points; auto). apply map_ext_in. intros c Hc. apply in_seq in Hc. unfold nd_T. cbn [nd_at app rev].
    assert (Vk := V' [k] [c] ltac:(apply within_one; lia) ltac:(apply within_one; lia)). cbn [app] in Vk. rewrite Vk. f_equal. assert (Vm := V [k; c] [] (Forall2_cons k (length q) Hk (within_one c 3 ltac:(lia))) within_nil). cbn [app] in Vm. rewrite Vm. unfold nd_points. cbn [nd_at nth]. ring.
  - cbn zeta in Eo. cbn [andb] in Eo. rewrite Eo. exists out. split; auto. rewrite app_nil_r in So. split; auto. intros r Hr. specialize (Vo r [] Hr within_nil). rewrite app_nil_r in Vo. rewrite Vo. reflexivity.
Qed.
Lemma u3_nd_fails m (q : rule) f center radius : nd_shape radius = [m] -> m <> 1%nat -> m <> 3%nat -> u3_integrate_nd q f center radius = numpy_error.
Proof. intros R M M'. unfold u3_integrate_nd, nd_bc. rewrite R. cbn [rev app nd_points nd_shape]. rewrite bc_shape_none by auto. reflexivity. Qed.
(** three radii scale the three coordinates *)
Lemma u3_nd_3 (q : rule) f center radius rs F : pointwise 3 rs F f -> List.Forall (fun wp => length (snd wp) = 3%nat) q -> nd_shape center = [3%nat] -> nd_shape radius = [3%nat] -> rs = [] ->
  exists out, u3_integrate_nd q f center radius = done out /\ nd_shape out = [3%nat] /\
    forall k, (k < 3)%nat -> nd_at out [k] = 4 * PI * nd_at radius [k] ^ 2 * apply q (fun p => F (map (fun c => nth c p 0 * nd_at radius [c] + nd_at center [c]) (seq 0 3)) []).
Proof.
  intros Hf Hq C R ->. unfold u3_integrate_nd.
  destruct (nd_bc_right Rmult (nd_points 3 (map snd q)) radius [length q] [3%nat]) as (rr & E & Sr & V); [unfold nd_points; cbn [nd_shape]; rewrite map_length; reflexivity|auto|]. rewrite E. cbn [bind].
  destruct (nd_bc_right Rplus rr center [length q] [3%nat]) as (y & E' & Sy & V'); auto. rewrite E'. cbn [bind]. cbn zeta.
  destruct (dot_pointwise 3 [] F f (nd_T y) [] q (fun _ p => map (fun c => nth c p 0 * nd_at radius [c] + nd_at center [c]) (seq 0 3)) Hf) as (K & d & Ed & Sd & Vd).
  - unfold nd_T. cbn [nd_shape]. rewrite Sy. reflexivity.
  - intros i k Hi Hk. inversion Hi. subst i. apply map_ext_in. intros c Hc. apply in_seq in Hc. unfold nd_T. cbn [nd_at app rev].
    assert (Vk := V' [k] [c] ltac:(apply within_one; lia) ltac:(apply within_one; lia)). cbn [app] in Vk. rewrite Vk. f_equal. assert (Vm := V [k] [c] ltac:(apply within_one; lia) ltac:(apply within_one; lia)). cbn [app] in Vm. rewrite Vm. reflexivity.
  - rewrite K, Ed. cbn [negb bind]. destruct (nd_bc_right Rmult (nd_map (fun r => 4 * PI * r ^ 2) radius) d [3%nat] []) as (out & Eo & So & Vo); auto. rewrite Eo. exists out. split; [reflexivity|]. split; auto.
    intros k Hk. assert (W := Vo [k] [] ltac:(apply within_one; lia) within_nil). cbn [app] in W. rewrite W. specialize (Vd [] [] within_nil within_nil). cbn [app] in Vd. rewrite Vd. reflexivity.
Qed.
