(** C86: integrate() on arrays of domains, for integrands with array values.
    [pointwise dim rs F f] (NdSpec.v): the integrand f takes arrays of points (first axis: coordinates) and returns for each point the
    array F(point) of shape rs, so that its value has shape rs + (shape of the array of points without the first axis).
    [done a]: the call returns the array a; [quadpy_error], [numpy_error]: it raises.  [within i s]: i is a multi-index of an array of
    shape s.  [vector dim a s] is the point a[s].  [s2_integrate q g c r] etc. is the value for one domain and one component, for which
    C39, C41, C42, C43 say what it is. *)
From Coq Require Import Reals List Arith Bool Lia Lra.
From Verif Require Import Spec RsumLemmas PyBase GeomModel SimplexVol SimplexInt CubeModel PyraModel RoundModel ShapeModel ShapeSpec ShapeProofs NdModel NdSpec NdProofs NdProofs2.
Import ListNotations.
Set Bullet Behavior "Strict Subproofs".
Open Scope R_scope.
Local Notation length := List.length.

Definition in_dim (dim : nat) (q : rule) : Prop := List.Forall (fun wp => length (snd wp) = dim) q.
(** [I] is integrate(f, center, radius), [V] its value for one ball and a scalar integrand.  One ball; m balls with centres of shape
    (m, dim) and radii of shape (m,); m concentric balls. *)
Definition componentwise (dim : nat) (I : (nd -> nd) -> nd -> nd -> outcome) (V : (point -> R) -> point -> R -> R) : Prop :=
  forall rs F f center radius, pointwise dim rs F f ->
  (nd_shape center = [dim] -> nd_shape radius = [] ->
     exists out, I f center radius = done out /\ nd_shape out = rs /\
     forall r, within r rs -> nd_at out r = V (fun p => F p r) (vector dim center []) (nd_at radius [])) /\
  (forall m, nd_shape center = [m; dim] -> nd_shape radius = [m] ->
     exists out, I f center radius = done out /\ nd_shape out = rs ++ [m] /\
     forall r k, within r rs -> (k < m)%nat -> nd_at out (r ++ [k]) = V (fun p => F p r) (vector dim center [k]) (nd_at radius [k])) /\
  (forall m, nd_shape center = [dim] -> nd_shape radius = [m] ->
     exists out, I f center radius = done out /\ nd_shape out = rs ++ [m] /\
     forall r k, within r rs -> (k < m)%nat -> nd_at out (r ++ [k]) = V (fun p => F p r) (vector dim center []) (nd_at radius [k])).
Lemma round_componentwise checked vol dim q : in_dim dim q -> componentwise dim (round_nd checked vol dim q) (fun g c r => vol r * round_dot q g c r).
Proof.
  intros Hq rs F f center radius Hf. split; [|split].
  - intros C R. apply (round_nd_0 checked vol dim q f center radius rs F); auto.
  - intros m C R. apply (round_nd_1 checked vol dim m q f center radius rs F); auto.
  - intros m C R. apply (round_nd_concentric checked vol dim m q f center radius rs F); auto.
Qed.
Theorem C86_balls : forall n q, 
  (in_dim 2 q -> componentwise 2 (s2_integrate_nd q) (s2_integrate q)) /\
  (in_dim 3 q -> componentwise 3 (s3_integrate_nd q) (s3_integrate q)) /\
  (in_dim n q -> componentwise n (sn_integrate_nd n q) (sn_integrate n q)) /\
  (in_dim 2 q -> componentwise 2 (u2_integrate_nd q) (u2_integrate q)) /\
  (in_dim n q -> componentwise n (un_integrate_nd n q) (un_integrate n q)).
Proof. intros n q. repeat split; try (intros; eapply round_componentwise; eauto; fail); try (apply (round_componentwise _ _ _ _ H rs F f center radius); auto). Qed.
Print Assumptions C86_balls.
(** The sphere in three dimensions: one sphere only. *)
Theorem C86_sphere : forall q rs F f center radius, in_dim 3 q -> pointwise 3 rs F f -> nd_shape center = [3%nat] -> nd_shape radius = [] ->
  exists out, u3_integrate_nd q f center radius = done out /\ nd_shape out = rs /\
    forall r, within r rs -> nd_at out r = u3_integrate q (fun p => F p r) (vector 3 center []) (nd_at radius []).
Proof. intros. apply u3_nd_0; auto. Qed.
Print Assumptions C86_sphere.
Theorem C86_whole_space : forall ref_vol dim q rs F f, in_dim dim q -> pointwise dim rs F f ->
  exists out, en_integrate_nd ref_vol dim q f = done out /\ nd_shape out = rs /\ forall r, within r rs -> nd_at out r = ref_vol * apply q (fun p => F p r).
Proof. intros. apply en_nd; auto. Qed.
Print Assumptions C86_whole_space.
(** The vertices in the model are those of the specification. *)
Lemma vertices_stacked m mid d a s : nd_shape a = m :: mid ++ [d] -> vertices a s = stacked (first m) d a s.
Proof.
  intros H. unfold vertices, stacked, first. cbv zeta. rewrite H. cbn [hd]. replace (last (m :: mid ++ [d]) 0%nat) with d by (rewrite app_comm_cons, last_last; auto).
  rewrite map_map. reflexivity.
Qed.
Lemma indices_bits n : indices (repeat 2%nat n) = bits n.
Proof. induction n as [|n IH]; cbn [repeat indices bits]; [reflexivity|]. rewrite IH. cbn. rewrite app_nil_r. reflexivity. Qed.
Lemma corners_stacked n mid d a s : nd_shape a = repeat 2%nat n ++ mid ++ [d] -> corners n a s = stacked (bits n) d a s.
Proof. intros H. unfold corners, stacked. rewrite H, indices_bits, app_assoc, last_last. reflexivity. Qed.
Lemma wedge_stacked a s : wedge_vertices a s = stacked [[0; 0]; [0; 1]; [0; 2]; [1; 0]; [1; 1]; [1; 2]]%nat 3 a s.
Proof. reflexivity. Qed.

(** One simplex of shape (n + 1, n) or m simplices of shape (n + 1, m, n), as in the README. *)
Theorem C86_simplices : forall n mid q rs F f simplex, (length mid <= 1)%nat -> in_dim (n + 1) q -> pointwise n rs F f ->
  nd_shape simplex = (n + 1)%nat :: mid ++ [n] ->
  exists out, tn_integrate_nd n q f simplex = done out /\ nd_shape out = rs ++ mid /\
    forall r s, within r rs -> within s mid -> tn_integrate n q (fun p => F p r) (stacked (first (n + 1)) n simplex s) = Some (nd_at out (r ++ s)).
Proof.
  intros n mid q rs F f simplex Lm Hq Hf H. destruct (tn_nd_1 n mid n q f simplex rs F) as (out & E & So & V); auto; [|exists out; split; [exact E|]; split; [exact So|]; intros r s Hr Hs; rewrite <- (vertices_stacked _ mid _ _ _ H); auto]. intros s Hs. destruct (vertices_shape n mid n simplex s H) as [L Nv]. rewrite (get_vol_det n); [discriminate|lia|].
  apply List.Forall_forall. intros p Hp. apply In_nth with (d := []) in Hp. destruct Hp as (j & Hj & <-). rewrite Nv, map_length, seq_length by lia. auto.
Qed.
Print Assumptions C86_simplices.
(** Simplices in a space of higher dimension, if the volumes exist. *)
Theorem C86_simplices_embedded : forall n mid d q rs F f simplex, (length mid <= 1)%nat -> in_dim (n + 1) q -> pointwise d rs F f ->
  nd_shape simplex = (n + 1)%nat :: mid ++ [d] -> (forall s, within s mid -> get_vol (stacked (first (n + 1)) d simplex s) <> None) ->
  exists out, tn_integrate_nd n q f simplex = done out /\ nd_shape out = rs ++ mid /\
    forall r s, within r rs -> within s mid -> tn_integrate n q (fun p => F p r) (stacked (first (n + 1)) d simplex s) = Some (nd_at out (r ++ s)).
Proof.
  intros n mid d q rs F f simplex Lm Hq Hf H Hv. destruct (tn_nd_1 n mid d q f simplex rs F) as (out & E & So & V); auto; [intros s Hs; rewrite (vertices_stacked _ mid _ _ _ H); auto|].
  exists out. split; [exact E|]. split; [exact So|]. intros r s Hr Hs. rewrite <- (vertices_stacked _ mid _ _ _ H). auto.
Qed.
Print Assumptions C86_simplices_embedded.
(** Cubes, pyramids and wedges in arrays of any shape [mid].  The axes of the array come out in reverse order, and for cubes each of
    them doubles the result (the second argument of cn_integrate, see C41). *)
Theorem C86_cubes : forall n mid q rs F f cube, n <> 0%nat -> in_dim n q -> pointwise n rs F f -> nd_shape cube = repeat 2%nat n ++ mid ++ [n] ->
  exists out, cn_integrate_nd n q f cube = done out /\ nd_shape out = rs ++ rev mid /\
    forall r s, within r rs -> within s mid -> cn_integrate n (length mid) q (fun p => F p r) (stacked (bits n) n cube s) = Some (nd_at out (r ++ rev s)).
Proof.
  intros n mid q rs F f cube Hn Hq Hf H. destruct (cn_nd n mid q f cube rs F) as (out & E & So & V); auto. exists out. split; [exact E|]. split; [exact So|]. intros r s Hr Hs. rewrite <- (corners_stacked _ mid _ _ _ H). auto.
Qed.
Print Assumptions C86_cubes.
Theorem C86_pyramids : forall mid q rs F f pyra, pointwise 3 rs F f -> nd_shape pyra = 5%nat :: mid ++ [3%nat] ->
  exists out, p3_integrate_nd q f pyra = done out /\ nd_shape out = rs ++ rev mid /\
    forall r s, within r rs -> within s mid -> nd_at out (r ++ rev s) = p3_integrate q (fun p => F p r) (stacked (first 5) 3 pyra s).
Proof.
  intros mid q rs F f pyra Hf H. destruct (p3_nd mid q f pyra rs F) as (out & E & So & V); auto. exists out. split; [exact E|]. split; [exact So|]. intros r s Hr Hs. rewrite <- (vertices_stacked _ mid _ _ _ H). auto.
Qed.
Print Assumptions C86_pyramids.
Theorem C86_wedges : forall mid q rs F f wedge, pointwise 3 rs F f -> nd_shape wedge = 2%nat :: 3%nat :: mid ++ [3%nat] ->
  exists out, w3_integrate_nd q f wedge = done out /\ nd_shape out = rs ++ rev mid /\
    forall r s, within r rs -> within s mid -> nd_at out (r ++ rev s) = w3_integrate q (fun p => F p r) (stacked [[0; 0]; [0; 1]; [0; 2]; [1; 0]; [1; 1]; [1; 2]]%nat 3 wedge s).
Proof.
  intros mid q rs F f wedge Hf H. destruct (w3_nd mid q f wedge rs F) as (out & E & So & V); auto. exists out. split; [exact E|]. split; [exact So|]. intros r s Hr Hs. rewrite <- wedge_stacked. auto.
Qed.
Print Assumptions C86_wedges.

(** *** Values of the wrong shape *)
(** If the shape of f's value does not end in the shape of the array of points, disks, balls, simplices, cubes and the sphere raise,
    whatever the domains. *)
Definition wrong_shape (f : nd -> nd) : Prop := forall x rs, (2 <= length (nd_shape x))%nat -> nd_shape (f x) <> rs ++ tl (nd_shape x).
Lemma wrong_shape_ok f x : wrong_shape f -> (2 <= length (nd_shape x))%nat -> shape_ok (f x) x = false.
Proof.
  intros W L. unfold shape_ok. destruct (shape_eqb _ _) eqn:E; auto. apply shape_eqb_true in E. exfalso. destruct (length (tl (nd_shape x)) =? 0)%nat eqn:Z.
  - apply Nat.eqb_eq in Z. destruct (nd_shape x); cbn in *; lia.
  - apply (W x (firstn (length (nd_shape (f x)) - length (tl (nd_shape x))) (nd_shape (f x)))); auto. rewrite <- E at 2. rewrite firstn_skipn. auto.
Qed.
Lemma bc_shape_len s : forall t r, bc_shape s t = Some r -> (length s <= length r)%nat.
Proof.
  induction s as [|a s IH]; intros t r H; [cbn; lia|]. destruct t as [|b t]; cbn [bc_shape] in H; [injection H as <-; auto|]. destruct (bc_shape s t) as [r'|] eqn:E; [|discriminate]. cbn [bind] in H. specialize (IH t r' E).
  destruct (a =? b)%nat; [injection H as <-; cbn; lia|]. destruct (a =? 1)%nat; [injection H as <-; cbn; lia|]. destruct (b =? 1)%nat; [injection H as <-; cbn; lia|discriminate].
Qed.
Lemma nd_bc_len op a b c : nd_bc op a b = Some c -> (length (nd_shape a) <= length (nd_shape c))%nat.
Proof. unfold nd_bc. destruct (bc_shape _ _) as [s|] eqn:E; [|discriminate]. cbn [bind]. intros H. injection H as <-. apply bc_shape_len in E. cbn [nd_shape]. rewrite rev_length in *. auto. Qed.
Lemma nd_swapaxes_len a b : nd_swapaxes a = Some b -> (2 <= length (nd_shape b))%nat.
Proof.
  unfold nd_swapaxes. cbn zeta. destruct (Nat.ltb_spec (length (nd_shape a)) 2) as [H|H]; [discriminate|]. intros E. injection E as <-. cbn [nd_shape]. unfold swap0. rewrite map_length, seq_length. auto.
Qed.
Lemma round_wrong vol dim q f center radius out : wrong_shape f -> round_nd true vol dim q f center radius <> done out.
Proof.
  intros W. unfold round_nd. cbn zeta. destruct (nd_swapaxes (nd_mo radius (nd_points dim (map snd q)))) as [rr|] eqn:E; cbn [bind]; [|discriminate]. destruct (nd_bc Rplus rr center) as [x|] eqn:E'; cbn [bind]; [|discriminate].
  rewrite (wrong_shape_ok f (nd_T x) W); [discriminate|]. apply nd_bc_len in E'. apply nd_swapaxes_len in E. unfold nd_T. cbn [nd_shape]. rewrite rev_length. lia.
Qed.
Theorem C86_wrong_shape : forall n q f center radius simplex cube out, wrong_shape f -> (2 <= length (nd_shape simplex))%nat ->
  s2_integrate_nd q f center radius <> done out /\ s3_integrate_nd q f center radius <> done out /\ sn_integrate_nd n q f center radius <> done out /\
  u3_integrate_nd q f center radius <> done out /\ tn_integrate_nd n q f simplex <> done out /\ cn_integrate_nd n q f cube <> done out.
Proof.
  intros n q f center radius simplex cube out W Ls. repeat split; try (apply round_wrong; auto).
  - unfold u3_integrate_nd. destruct (nd_bc Rmult _ radius) as [rr|] eqn:E; cbn [bind]; [|discriminate]. destruct (nd_bc Rplus rr center) as [x|] eqn:E'; cbn [bind]; [|discriminate]. cbn zeta.
    rewrite (wrong_shape_ok f (nd_T x) W); [discriminate|]. apply nd_bc_len in E, E'. unfold nd_T. cbn [nd_shape]. rewrite rev_length. cbn in E. lia.
  - unfold tn_integrate_nd. destruct (nd_shape simplex) as [|m s] eqn:Sh; [discriminate|]. destruct (negb (m =? n + 1)%nat) eqn:M; [discriminate|]. destruct (nd_dotm (nd_T simplex) (n + 1) (map snd q)) as [x|] eqn:E; cbn [bind]; [|discriminate]. destruct (get_vol_nd simplex) as [vol|] eqn:V; cbn [bind]; [|discriminate]. cbn zeta.
    rewrite (wrong_shape_ok f x W); [discriminate|]. unfold nd_dotm in E. destruct (_ || _)%bool; [discriminate|]. injection E as <-. cbn [nd_shape]. rewrite app_length, removelast_firstn_len, firstn_length. unfold nd_T. cbn [nd_shape length]. rewrite rev_length, Sh. cbn in *. lia.
  - unfold cn_integrate_nd. cbn zeta. destruct (opt_all _); cbn [bind]; [|discriminate].
    rewrite (wrong_shape_ok f _ W); [discriminate|]. unfold nd_T, nd_mapped. cbn [nd_shape]. rewrite rev_length. cbn [length]. rewrite app_length. cbn. lia.
Qed.
Print Assumptions C86_wrong_shape.
(** With the right shape and one domain, the value of the call is an array, by the theorems above; with the wrong shape it is QuadpyError
    in the disk, say. *)
Theorem C86_wrong_shape_message : forall q f center radius, wrong_shape f -> nd_shape center = [2%nat] -> nd_shape radius = [] -> s2_integrate_nd q f center radius = quadpy_error.
Proof.
  intros q f center radius W C R. unfold s2_integrate_nd, round_nd. cbn zeta. set (rr := nd_mo radius (nd_points 2 (map snd q))). assert (Sr : nd_shape rr = [length q; 2%nat]) by (unfold rr, nd_mo; cbn [nd_shape nd_points]; rewrite R, map_length; reflexivity).
  assert (Wr : nd_swapaxes rr = Some (mk_nd [length q; 2%nat] (fun i => nd_at rr (swap0 0 i)))) by (unfold nd_swapaxes; rewrite Sr; reflexivity). rewrite Wr. cbn [bind].
  destruct (nd_bc_right Rplus (mk_nd [length q; 2%nat] (fun i => nd_at rr (swap0 0 i))) center [length q] [2%nat]) as (y & E & Sy & V); auto. rewrite E. cbn [bind].
  rewrite (wrong_shape_ok f (nd_T y) W); [reflexivity|]. unfold nd_T. cbn [nd_shape]. rewrite rev_length, Sy. cbn. lia.
Qed.
Print Assumptions C86_wrong_shape_message.
(** The circle, the (n-1)-sphere and the whole spaces do not look: for an integrand that returns the number c for every array of points
    (a constant function written as lambda x: c) they return the array of the weights times c times the volume, not a number. *)
Definition constant (c : R) : nd -> nd := fun _ => mk_nd [] (fun _ => c).
Theorem C86_unchecked_refuted : forall n q c center radius, nd_shape center = [n] -> nd_shape radius = [] ->
  (n = 2%nat -> exists out, u2_integrate_nd q (constant c) center radius = done out /\ nd_shape out = [length q] /\
     forall k, (k < length q)%nat -> nd_at out [k] = 2 * PI * nd_at radius [] * (c * nth k (map fst q) 0)) /\
  (exists out, un_integrate_nd n q (constant c) center radius = done out /\ nd_shape out = [length q] /\
     forall k, (k < length q)%nat -> nd_at out [k] = nd_at radius [] ^ (n - 1) * SphereSpec.sphere_int n (fun _ => 1) * (c * nth k (map fst q) 0)) /\
  (forall ref_vol, exists out, en_integrate_nd ref_vol n q (constant c) = done out /\ nd_shape out = [length q] /\
     forall k, (k < length q)%nat -> nd_at out [k] = ref_vol * (c * nth k (map fst q) 0)).
Proof.
  assert (K : forall vol n q c center radius, nd_shape center = [n] -> nd_shape radius = [] ->
    exists out, round_nd false vol n q (constant c) center radius = done out /\ nd_shape out = [length q] /\ forall k, (k < length q)%nat -> nd_at out [k] = vol (nd_at radius []) * (c * nth k (map fst q) 0)).
  { intros vol n q c center radius C R. unfold round_nd. cbn zeta. set (rr := nd_mo radius (nd_points n (map snd q))). assert (Sr : nd_shape rr = [length q; n]) by (unfold rr, nd_mo; cbn [nd_shape nd_points]; rewrite R, map_length; reflexivity).
    assert (Wr : nd_swapaxes rr = Some (mk_nd [length q; n] (fun i => nd_at rr (swap0 0 i)))) by (unfold nd_swapaxes; rewrite Sr; reflexivity). rewrite Wr. cbn [bind].
    destruct (nd_bc_right Rplus (mk_nd [length q; n] (fun i => nd_at rr (swap0 0 i))) center [length q] [n]) as (y & E & Sy & V); auto. rewrite E. cbn [bind andb]. unfold nd_dotv, constant. cbn [nd_shape bind].
    destruct (nd_bc_left Rmult (nd_map vol radius) (mk_nd [length (map fst q)] (fun i => nd_at (mk_nd [] (fun _ => c)) [] * nth (hd 0%nat i) (map fst q) 0)) [length q] []) as (out & Eo & So & Vo); [auto|cbn [nd_shape]; rewrite map_length; auto|].
    rewrite Eo. exists out. split; [reflexivity|]. split; [rewrite So; apply app_nil_r|]. intros k Hk. specialize (Vo [k] []). cbn [app] in Vo. rewrite Vo; [reflexivity|apply within_one; auto|constructor]. }
  intros n q c center radius C R. split; [|split].
  - intros ->. apply (K (fun r => 2 * PI * r)); auto.
  - apply (K (fun r => r ^ (n - 1) * SphereSpec.sphere_int n (fun _ => 1))); auto.
  - intros ref_vol. unfold en_integrate_nd, nd_dotv, constant. cbn [nd_shape bind of_option]. eexists. split; [reflexivity|]. unfold nd_map. cbn [nd_shape nd_at]. rewrite map_length. split; auto.
Qed.
Print Assumptions C86_unchecked_refuted.

(** *** Arrays of domains with more than one axis *)
(** Disks and balls: in an array of m times m balls the centres are taken from the transposed array; an array of m times k balls raises. *)
Theorem C86_two_axes_refuted : forall checked vol dim m k q rs F f center radius, pointwise dim rs F f -> in_dim dim q ->
  nd_shape center = [m; k; dim] -> nd_shape radius = [m; k] ->
  (m = k -> exists out, round_nd checked vol dim q f center radius = done out /\ nd_shape out = rs ++ [m; m] /\
     forall r i j, within r rs -> (i < m)%nat -> (j < m)%nat ->
       nd_at out (r ++ [i; j]) = vol (nd_at radius [i; j]) * round_dot q (fun p => F p r) (vector dim center [j; i]) (nd_at radius [i; j])) /\
  (m <> k -> m <> 1%nat -> k <> 1%nat -> round_nd checked vol dim q f center radius = numpy_error).
Proof. intros checked vol dim m k q rs F f center radius Hf Hq C R. split; [intros <-; apply round_nd_2; auto|intros; eapply round_nd_2_fails; eauto]. Qed.
Print Assumptions C86_two_axes_refuted.
(** Simplices: each mean value is multiplied by the volume of the transposed simplex. *)
Theorem C86_two_axes_simplices_refuted : forall n m k q rs F f simplex, pointwise n rs F f -> in_dim (n + 1) q -> nd_shape simplex = [(n + 1)%nat; m; k; n] ->
  (m = k -> exists out, tn_integrate_nd n q f simplex = done out /\ nd_shape out = rs ++ [m; m] /\
     forall r i j, within r rs -> (i < m)%nat -> (j < m)%nat ->
       nd_at out (r ++ [i; j]) = Rabs (det n (edges (stacked (first (n + 1)) n simplex [i; j]))) / INR (fact n) * Rsum (map (fun wp => F (bary_map (stacked (first (n + 1)) n simplex [j; i]) (snd wp)) r * fst wp) q)) /\
  (m <> k -> m <> 1%nat -> k <> 1%nat -> tn_integrate_nd n q f simplex = numpy_error).
Proof.
  intros n m k q rs F f simplex Hf Hq H.
  assert (V : forall s, get_vol (vertices simplex s) = Some (Rabs (det n (edges (vertices simplex s))) / INR (fact n))).
  { intros s. destruct (vertices_shape n [m; k] n simplex s H) as [L Nv]. apply get_vol_det; auto.
    apply List.Forall_forall. intros p Hp. apply In_nth with (d := []) in Hp. destruct Hp as (j & Hj & <-). rewrite Nv, map_length, seq_length by lia. auto. }
  split.
  - intros <-. destruct (tn_nd_2 n m n q f simplex rs F Hf H Hq) as (out & E & So & Vo); [intros s _; rewrite V; discriminate|]. exists out. split; auto. split; auto. intros r i j Hr Hi Hj.
    destruct (Vo r i j Hr Hi Hj) as (v & Ev & ->). rewrite V in Ev. injection Ev as <-. rewrite <- !(vertices_stacked _ [m; m] _ _ _ H). reflexivity.
  - intros N M K. eapply tn_nd_2_fails; eauto. intros s _. rewrite V. discriminate.
Qed.
Print Assumptions C86_two_axes_simplices_refuted.
(** One radius for an array of centres: the k-th centre is used for the k-th point of the scheme and one number comes out, or the call raises. *)
Theorem C86_one_radius_refuted : forall checked vol dim m q rs F f center radius, pointwise dim rs F f -> in_dim dim q ->
  nd_shape center = [m; dim] -> nd_shape radius = [] ->
  (m = length q -> exists out, round_nd checked vol dim q f center radius = done out /\ nd_shape out = rs /\
     forall r, within r rs -> nd_at out r = vol (nd_at radius []) *
       Rsum (map (fun k => nth k (map fst q) 0 * F (vadd (vector dim center [k]) (vscale (nd_at radius []) (nth k (map snd q) []))) r) (seq 0 (length q)))) /\
  (m <> length q -> m <> 1%nat -> length q <> 1%nat -> round_nd checked vol dim q f center radius = numpy_error).
Proof. intros checked vol dim m q rs F f center radius Hf Hq C R. split; [intros ->; apply round_nd_one_radius; auto|intros; eapply round_nd_one_radius_fails; eauto]. Qed.
Print Assumptions C86_one_radius_refuted.
(** The sphere: an array of radii raises, except that three radii scale the three coordinates. *)
Theorem C86_sphere_arrays_refuted : forall m q F f center radius, pointwise 3 [] F f -> in_dim 3 q -> nd_shape center = [3%nat] -> nd_shape radius = [m] ->
  (m <> 1%nat -> m <> 3%nat -> u3_integrate_nd q f center radius = numpy_error) /\
  (m = 3%nat -> exists out, u3_integrate_nd q f center radius = done out /\ nd_shape out = [3%nat] /\
     forall k, (k < 3)%nat -> nd_at out [k] = 4 * PI * nd_at radius [k] ^ 2 * apply q (fun p => F (map (fun c => nth c p 0 * nd_at radius [c] + nd_at center [c]) (seq 0 3)) [])).
Proof. intros m q F f center radius Hf Hq C R. split; [intros; eapply u3_nd_fails; eauto|intros ->; apply (u3_nd_3 q f center radius [] F); auto]. Qed.
Print Assumptions C86_sphere_arrays_refuted.

(** *** Cases *)
(** the integrand lambda x: x[0] *)
Definition first_coordinate : nd -> nd := fun x => mk_nd (tl (nd_shape x)) (fun i => nd_at x (0%nat :: i)).
Lemma first_pointwise dim : (1 <= dim)%nat -> pointwise dim [] (fun p _ => nth 0 p 0) first_coordinate.
Proof.
  intros D x s H. unfold first_coordinate. cbn [nd_shape nd_at]. rewrite H. split; [reflexivity|]. intros r i Hr Hi. inversion Hr. subst r. cbn [app]. destruct dim; [lia|]. reflexivity.
Qed.
(** the integrand lambda x: x, whose values are vectors *)
Lemma identity_pointwise dim : pointwise dim [dim] (fun p r => nth (hd 0%nat r) p 0) (fun x => x).
Proof.
  intros x s H. split; [rewrite H; reflexivity|]. intros r i Hr Hi. inversion Hr as [|a b r' l' Hab Hn]. subst. inversion Hn. subst. cbn [app hd].
  rewrite nth_indep with (d' := (fun c => nd_at x (c :: i)) 0%nat) by (rewrite map_length, seq_length; auto). rewrite (map_nth (fun c => nd_at x (c :: i))), seq_nth by auto. reflexivity.
Qed.
Example C86_wrong_case : wrong_shape (constant 1).
Proof. intros x rs L H. unfold constant in H. cbn [nd_shape] in H. destruct (nd_shape x) as [|a [|b t]]; cbn in *; try lia. destruct rs; discriminate. Qed.
Example C86_wrong_case_2 : wrong_shape (fun x => mk_nd (S (nth 1 (nd_shape x) 0%nat) :: skipn 2 (nd_shape x)) (fun _ => 0)).
Proof.
  intros x rs L H. cbn [nd_shape] in H. destruct (nd_shape x) as [|a [|b t]]; cbn in *; try lia. destruct rs as [|c rs]; cbn in H; [injection H; lia|]. injection H as _ H. apply (f_equal (@length nat)) in H. rewrite app_length in H. cbn in H. lia.
Qed.
(** the centroid rule of the disk; 2 times 2 disks of radius 1 with centres (i, 0) for i = 0, 1: entry (0, 1) belongs to the disk about the
    origin, where the integral of x is 0, and comes out as pi *)
Definition grid : nd := mk_nd [2; 2; 2]%nat (fun i => if (nth 2 i 0 =? 0)%nat then INR (nth 0 i 0%nat) else 0).
Definition ones : nd := mk_nd [2; 2]%nat (fun _ => 1).
Example C86_grid_case : exists out, s2_integrate_nd [(1, [0; 0])] first_coordinate grid ones = done out /\ nd_at out [0; 1]%nat = PI /\
  s2_integrate [(1, [0; 0])] (fun p => nth 0 p 0) (vector 2 grid [0; 1]%nat) (nd_at ones [0; 1]%nat) = 0.
Proof.
  destruct (C86_two_axes_refuted true (fun r => PI * r ^ 2) 2 2 2 [(1, [0; 0])] [] (fun p _ => nth 0 p 0) first_coordinate grid ones) as [H _]; [apply first_pointwise; lia|repeat constructor|reflexivity|reflexivity|].
  destruct (H eq_refl) as (out & E & _ & V). exists out. split; [exact E|]. specialize (V [] 0%nat 1%nat within_nil ltac:(lia) ltac:(lia)). cbn [app] in V. rewrite V.
  unfold s2_integrate, round_dot, vector, grid, ones, vadd, vscale. cbn. split; ring.
Qed.
(** the README's triangles: shape (3, 5, 2), f(x) = x[0]; any barycentric rule *)
Example C86_triangles_case : forall q, in_dim 3 q -> forall triangles, nd_shape triangles = [3; 5; 2]%nat ->
  exists out, tn_integrate_nd 2 q first_coordinate triangles = done out /\ nd_shape out = [5%nat] /\
    forall k, (k < 5)%nat -> tn_integrate 2 q (fun p => nth 0 p 0) (stacked [[0]; [1]; [2]]%nat 2 triangles [k]) = Some (nd_at out [k]).
Proof.
  intros q Hq tr H. destruct (C86_simplices 2 [5%nat] q [] (fun p _ => nth 0 p 0) first_coordinate tr) as (out & E & So & V); auto; [apply first_pointwise; lia|].
  exists out. split; [exact E|]. split; [exact So|]. intros k Hk. apply (V [] [k]); [constructor|apply within_one; auto].
Qed.
Example C86_vector_case : forall q, in_dim 2 q -> forall center radius, nd_shape center = [7; 2]%nat -> nd_shape radius = [7%nat] ->
  exists out, s2_integrate_nd q (fun x => x) center radius = done out /\ nd_shape out = [2; 7]%nat /\
    forall c k, (c < 2)%nat -> (k < 7)%nat -> nd_at out [c; k] = s2_integrate q (fun p => nth c p 0) (vector 2 center [k]) (nd_at radius [k]).
Proof.
  intros q Hq center radius C R. destruct (C86_balls 2 q) as (H & _). destruct (H Hq [2%nat] (fun p r => nth (hd 0%nat r) p 0) (fun x => x) center radius (identity_pointwise 2)) as (_ & H1 & _).
  destruct (H1 7%nat C R) as (out & E & So & V). exists out. split; auto. split; auto. intros c k Hc Hk. apply (V [c] k); auto. apply within_one; auto.
Qed.
