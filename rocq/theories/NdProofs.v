(** Lemmas for C86. *)
From Coq Require Import Reals List Arith Bool Lia Lra.
From Verif Require Import Spec RsumLemmas PyBase GeomModel CubeModel PyraModel RoundModel ShapeModel ShapeSpec ShapeProofs NdModel NdSpec.
Import ListNotations.
Set Bullet Behavior "Strict Subproofs".
Open Scope R_scope.
Local Notation length := List.length.

Lemma within_app i j s t : within i s -> within j t -> within (i ++ j) (s ++ t).
Proof. apply Forall2_app. Qed.
Lemma within_nil : within [] []. Proof. constructor. Qed.
Lemma within_one k m : (k < m)%nat -> within [k] [m]. Proof. repeat constructor; auto. Qed.
Lemma within_rev i s : within i s -> within (rev i) (rev s).
Proof. induction 1; cbn [rev]; [constructor|]. apply Forall2_app; auto. Qed.
Lemma bc_index_tail p i s : within i s -> bc_index s (p ++ i) = i.
Proof.
  intros H. unfold bc_index. rewrite app_length, (within_length _ _ H). replace (length p + length s - length s)%nat with (length p) by lia.
  rewrite skipn_app, Nat.sub_diag, skipn_all2 by lia. cbn [app]. rewrite skipn_O. clear p. induction H as [|k d i s Hk H IH]; cbn [List.combine map fst snd]; auto. rewrite IH. f_equal.
  destruct (Nat.eqb_spec d 1); auto. lia.
Qed.
Lemma bc_index_self i s : within i s -> bc_index s i = i.
Proof. intros H. apply (bc_index_tail [] i s H). Qed.
Lemma bc_shape_same s : forall t, bc_shape (s ++ t) s = Some (s ++ t).
Proof. induction s as [|a s IH]; intros t; cbn [app bc_shape]; [destruct t; auto|]. rewrite IH. cbn [bind]. rewrite Nat.eqb_refl. auto. Qed.
Lemma bc_shape_same' s : forall t, bc_shape s (s ++ t) = Some (s ++ t).
Proof. induction s as [|a s IH]; intros t; cbn [app bc_shape]; [destruct t; auto|]. rewrite IH. cbn [bind]. rewrite Nat.eqb_refl. auto. Qed.
(** the shape of b is a tail of the shape of a *)
Lemma nd_bc_right op a b p s : nd_shape a = p ++ s -> nd_shape b = s ->
  exists c, nd_bc op a b = Some c /\ nd_shape c = p ++ s /\ forall j i, within j p -> within i s -> nd_at c (j ++ i) = op (nd_at a (j ++ i)) (nd_at b i).
Proof.
  intros A B. unfold nd_bc. rewrite A, B, rev_app_distr, bc_shape_same. cbn [bind]. eexists. split; [reflexivity|]. cbn [nd_shape nd_at]. rewrite <- rev_app_distr, rev_involutive. split; auto.
  intros j i Hj Hi. rewrite bc_index_self by (apply within_app; auto). rewrite bc_index_tail; auto.
Qed.
Lemma nd_bc_left op a b p s : nd_shape a = s -> nd_shape b = p ++ s ->
  exists c, nd_bc op a b = Some c /\ nd_shape c = p ++ s /\ forall j i, within j p -> within i s -> nd_at c (j ++ i) = op (nd_at a i) (nd_at b (j ++ i)).
Proof.
  intros A B. unfold nd_bc. rewrite A, B, rev_app_distr, bc_shape_same'. cbn [bind]. eexists. split; [reflexivity|]. cbn [nd_shape nd_at]. rewrite <- rev_app_distr, rev_involutive. split; auto.
  intros j i Hj Hi. rewrite (bc_index_self (j ++ i) (p ++ s)) by (apply within_app; auto). rewrite bc_index_tail; auto.
Qed.
Lemma shape_ok_pointwise rs d s fx x : nd_shape x = d :: s -> s <> [] -> nd_shape fx = rs ++ s -> shape_ok fx x = true.
Proof.
  intros X N H. unfold shape_ok. rewrite X, H. cbn [tl]. destruct (Nat.eqb_spec (length s) 0) as [E|E]; [destruct s; [congruence|discriminate]|].
  rewrite app_length. replace (length rs + length s - length s)%nat with (length rs) by lia. rewrite skipn_app, Nat.sub_diag, skipn_all2 by lia. cbn [app]. rewrite skipn_O. apply shape_eqb_refl.
Qed.
Lemma last_app_one {A} (l : list A) x d : last (l ++ [x]) d = x. Proof. apply last_last. Qed.
(** the sum over the last axis *)
Lemma nd_dotv_value a s w : nd_shape a = s ++ [length w] ->
  exists d, nd_dotv a w = Some d /\ nd_shape d = s /\ forall i, nd_at d i = Rsum (map (fun k => nd_at a (i ++ [k]) * nth k w 0) (seq 0 (length w))).
Proof.
  intros H. unfold nd_dotv, nd_dot. rewrite H. destruct (s ++ [length w]) eqn:E; [destruct s; discriminate|]. rewrite <- E, last_app_one, Nat.eqb_refl, removelast_last. eexists. split; [reflexivity|]. split; auto.
Qed.
Lemma sum_rule (q : rule) (g : point -> R) : Rsum (map (fun k => g (nth k (map snd q) []) * nth k (map fst q) 0) (seq 0 (length (map fst q)))) = Rsum (map (fun wp => fst wp * g (snd wp)) q).
Proof.
  rewrite map_length. induction q as [|[w p] q IH]; [reflexivity|]. cbn [length seq map Rsum fst snd nth]. rewrite <- seq_shift, map_map. cbn [nth] in *. rewrite IH. ring.
Qed.
(** f at the array of points, summed with the weights *)
Lemma dot_pointwise dim rs F f x s (q : rule) (P : list nat -> point -> point) : pointwise dim rs F f -> nd_shape x = dim :: s ++ [length q] ->
  (forall i k, within i s -> (k < length q)%nat -> map (fun c => nd_at x (c :: i ++ [k])) (seq 0 dim) = P i (nth k (map snd q) [])) ->
  shape_ok (f x) x = true /\ exists d, nd_dotv (f x) (map fst q) = Some d /\ nd_shape d = rs ++ s /\
    forall r i, within r rs -> within i s -> nd_at d (r ++ i) = Rsum (map (fun wp => fst wp * F (P i (snd wp)) r) q).
Proof.
  intros Hf X HP. destruct (Hf x _ X) as [Sh V]. split; [eapply shape_ok_pointwise; eauto; destruct s; discriminate|].
  destruct (nd_dotv_value (f x) (rs ++ s) (map fst q)) as (d & E & Sd & Vd); [rewrite Sh, map_length, app_assoc; auto|]. exists d. split; auto. split; auto.
  intros r i Hr Hi. rewrite Vd, <- (sum_rule q (fun p => F (P i p) r)). apply Rsum_map_ext. intros k Hk. apply in_seq in Hk. rewrite map_length in Hk. f_equal.
  rewrite <- app_assoc, (V r (i ++ [k])); auto; [|apply within_app; auto; apply within_one; lia]. f_equal. apply HP; auto. lia.
Qed.
Lemma vol_times vol d radius rs s : nd_shape radius = s -> nd_shape d = rs ++ s ->
  exists out, nd_bc Rmult (nd_map vol radius) d = Some out /\ nd_shape out = rs ++ s /\ forall r i, within r rs -> within i s -> nd_at out (r ++ i) = vol (nd_at radius i) * nd_at d (r ++ i).
Proof. intros A B. destruct (nd_bc_left Rmult (nd_map vol radius) d rs s) as (c & E & Sc & V); auto. exists c. auto. Qed.

(* ------------------------------------------------------------------ balls and spheres *)
Lemma vadd_coords (ce : nat -> R) r (p : point) : map (fun c => r * nth c p 0 + ce c) (seq 0 (length p)) = vadd (map ce (seq 0 (length p))) (vscale r p).
Proof.
  unfold vadd, vscale. revert ce. induction p as [|a p IH]; intros ce; auto. cbn [length seq map List.combine fst snd nth]. f_equal; [ring|]. rewrite <- seq_shift, !map_map. cbn [nth]. rewrite (IH (fun c => ce (S c))). reflexivity.
Qed.
Lemma vadd_vector dim a s r (p : point) : length p = dim -> map (fun c => r * nth c p 0 + nd_at a (s ++ [c])) (seq 0 dim) = vadd (vector dim a s) (vscale r p).
Proof. intros <-. apply (vadd_coords (fun c => nd_at a (s ++ [c]))). Qed.
Lemma nth_points dim (q : rule) k : List.Forall (fun wp => length (snd wp) = dim) q -> (k < length q)%nat -> length (nth k (map snd q) []) = dim.
Proof.
  intros H L. rewrite List.Forall_forall in H. assert (I : In (nth k (map snd q) []) (map snd q)) by (apply nth_In; rewrite map_length; auto). apply in_map_iff in I. destruct I as (wp & E & I). rewrite <- E. auto.
Qed.
(** The common end of the functions: an array of points has been computed. *)
Lemma round_end (checked : bool) vol dim (q : rule) f radius rs s F x (P : list nat -> point -> point) :
  pointwise dim rs F f -> nd_shape x = dim :: s ++ [length q] -> nd_shape radius = s ->
  (forall i k, within i s -> (k < length q)%nat -> map (fun c => nd_at x (c :: i ++ [k])) (seq 0 dim) = P i (nth k (map snd q) [])) ->
  exists out, (let fx := f x in if checked && negb (shape_ok fx x) then quadpy_error else of_option (let! d := nd_dotv fx (map fst q) in nd_bc Rmult (nd_map vol radius) d)) = done out /\
    nd_shape out = rs ++ s /\ forall r i, within r rs -> within i s -> nd_at out (r ++ i) = vol (nd_at radius i) * Rsum (map (fun wp => fst wp * F (P i (snd wp)) r) q).
Proof.
  intros Hf X R HP. destruct (dot_pointwise dim rs F f x s q P Hf X HP) as (K & d & E & Sd & V). destruct (vol_times vol d radius rs s R Sd) as (out & E' & So & V').
  exists out. cbn zeta. rewrite K, andb_false_r, E. cbn [bind]. rewrite E'. split; auto. split; auto. intros r i Hr Hi. rewrite V', V; auto.
Qed.
(** no axes *)
Lemma round_nd_0 checked vol dim (q : rule) f center radius rs F : pointwise dim rs F f -> List.Forall (fun wp => length (snd wp) = dim) q ->
  nd_shape center = [dim] -> nd_shape radius = [] ->
  exists out, round_nd checked vol dim q f center radius = done out /\ nd_shape out = rs /\
    forall r, within r rs -> nd_at out r = vol (nd_at radius []) * round_dot q (fun p => F p r) (vector dim center []) (nd_at radius []).
Proof.
  intros Hf Hq C R. unfold round_nd. cbn zeta. set (rr := nd_mo radius (nd_points dim (map snd q))). assert (Sr : nd_shape rr = [length q; dim]) by (unfold rr, nd_mo; cbn [nd_shape nd_points]; rewrite R, map_length; reflexivity).
  assert (W : nd_swapaxes rr = Some (mk_nd [length q; dim] (fun i => nd_at rr (swap0 0 i)))) by (unfold nd_swapaxes; rewrite Sr; reflexivity). rewrite W. cbn [bind].
  destruct (nd_bc_right Rplus (mk_nd [length q; dim] (fun i => nd_at rr (swap0 0 i))) center [length q] [dim]) as (y & E & Sy & V); auto. rewrite E. cbn [bind].
  destruct (round_end checked vol dim q f radius rs [] F (nd_T y) (fun _ p => vadd (vector dim center []) (vscale (nd_at radius []) p)) Hf) as (out & Eo & So & Vo).
  - unfold nd_T. cbn [nd_shape]. rewrite Sy. reflexivity.
  - auto.
  - intros i k Hi Hk. inversion Hi. subst i. rewrite <- vadd_vector by (apply nth_points; auto). apply map_ext_in. intros c Hc. apply in_seq in Hc.
    unfold nd_T. cbn [nd_at app rev]. assert (Vk := V [k] [c] ltac:(apply within_one; lia) ltac:(apply within_one; lia)). cbn [app] in Vk. rewrite Vk. clear Vk. f_equal. cbn [nd_at app]. unfold rr, nd_mo, swap0. cbn [nd_at length seq map Nat.eqb nth]. rewrite R. cbn [length firstn skipn]. reflexivity.
  - exists out. cbn zeta in Eo. rewrite Eo. split; auto. rewrite app_nil_r in So. split; auto. intros r Hr. specialize (Vo r [] Hr within_nil). rewrite app_nil_r in Vo. rewrite Vo. reflexivity.
Qed.
(** one axis: a ball for each pair of a centre and a radius *)
Lemma round_nd_1 checked vol dim m (q : rule) f center radius rs F : pointwise dim rs F f -> List.Forall (fun wp => length (snd wp) = dim) q ->
  nd_shape center = [m; dim] -> nd_shape radius = [m] ->
  exists out, round_nd checked vol dim q f center radius = done out /\ nd_shape out = rs ++ [m] /\
    forall r k, within r rs -> (k < m)%nat -> nd_at out (r ++ [k]) = vol (nd_at radius [k]) * round_dot q (fun p => F p r) (vector dim center [k]) (nd_at radius [k]).
Proof.
  intros Hf Hq C R. unfold round_nd. cbn zeta. set (rr := nd_mo radius (nd_points dim (map snd q))). assert (Sr : nd_shape rr = [m; length q; dim]) by (unfold rr, nd_mo; cbn [nd_shape nd_points]; rewrite R, map_length; reflexivity).
  assert (W : nd_swapaxes rr = Some (mk_nd [length q; m; dim] (fun i => nd_at rr (swap0 1 i)))) by (unfold nd_swapaxes; rewrite Sr; reflexivity). rewrite W. cbn [bind].
  destruct (nd_bc_right Rplus (mk_nd [length q; m; dim] (fun i => nd_at rr (swap0 1 i))) center [length q] [m; dim]) as (y & E & Sy & V); auto. rewrite E. cbn [bind].
  destruct (round_end checked vol dim q f radius rs [m] F (nd_T y) (fun i p => vadd (vector dim center i) (vscale (nd_at radius i) p)) Hf) as (out & Eo & So & Vo).
  - unfold nd_T. cbn [nd_shape]. rewrite Sy. reflexivity.
  - auto.
  - intros i k Hi Hk. inversion Hi as [|a b i' s' Ha Hi' E1 E2]. subst. inversion Hi'. subst. rewrite <- vadd_vector by (apply nth_points; auto). apply map_ext_in. intros c Hc. apply in_seq in Hc.
    unfold nd_T. cbn [nd_at app rev]. assert (Vk := V [k] [a; c] ltac:(apply within_one; lia) ltac:(repeat constructor; lia)). cbn [app] in Vk. rewrite Vk. clear Vk. f_equal. cbn [nd_at app]. unfold rr, nd_mo, swap0. cbn [nd_at length seq map Nat.eqb nth]. rewrite R. cbn [length firstn skipn]. reflexivity.
  - exists out. cbn zeta in Eo. rewrite Eo. split; auto. split; auto. intros r k Hr Hk. rewrite Vo; auto. apply within_one; auto.
Qed.
(** concentric balls: one centre and an array of radii *)
Lemma round_nd_concentric checked vol dim m (q : rule) f center radius rs F : pointwise dim rs F f -> List.Forall (fun wp => length (snd wp) = dim) q ->
  nd_shape center = [dim] -> nd_shape radius = [m] ->
  exists out, round_nd checked vol dim q f center radius = done out /\ nd_shape out = rs ++ [m] /\
    forall r k, within r rs -> (k < m)%nat -> nd_at out (r ++ [k]) = vol (nd_at radius [k]) * round_dot q (fun p => F p r) (vector dim center []) (nd_at radius [k]).
Proof.
  intros Hf Hq C R. unfold round_nd. cbn zeta. set (rr := nd_mo radius (nd_points dim (map snd q))). assert (Sr : nd_shape rr = [m; length q; dim]) by (unfold rr, nd_mo; cbn [nd_shape nd_points]; rewrite R, map_length; reflexivity).
  assert (W : nd_swapaxes rr = Some (mk_nd [length q; m; dim] (fun i => nd_at rr (swap0 1 i)))) by (unfold nd_swapaxes; rewrite Sr; reflexivity). rewrite W. cbn [bind].
  destruct (nd_bc_right Rplus (mk_nd [length q; m; dim] (fun i => nd_at rr (swap0 1 i))) center [length q; m] [dim]) as (y & E & Sy & V); auto. rewrite E. cbn [bind].
  destruct (round_end checked vol dim q f radius rs [m] F (nd_T y) (fun i p => vadd (vector dim center []) (vscale (nd_at radius i) p)) Hf) as (out & Eo & So & Vo).
  - unfold nd_T. cbn [nd_shape]. rewrite Sy. reflexivity.
  - auto.
  - intros i k Hi Hk. inversion Hi as [|a b i' s' Ha Hi' E1 E2]. subst. inversion Hi'. subst. rewrite <- vadd_vector by (apply nth_points; auto). apply map_ext_in. intros c Hc. apply in_seq in Hc.
    unfold nd_T. cbn [nd_at app rev]. assert (Vk := V [k; a] [c] ltac:(repeat constructor; lia) ltac:(apply within_one; lia)). cbn [app] in Vk. rewrite Vk. clear Vk. f_equal. cbn [nd_at app]. unfold rr, nd_mo, swap0. cbn [nd_at length seq map Nat.eqb nth]. rewrite R. cbn [length firstn skipn]. reflexivity.
  - exists out. cbn zeta in Eo. rewrite Eo. split; auto. split; auto. intros r k Hr Hk. rewrite Vo; auto. apply within_one; auto.
Qed.
(** two axes: the centres are taken in the wrong order *)
Lemma round_nd_2 checked vol dim m (q : rule) f center radius rs F : pointwise dim rs F f -> List.Forall (fun wp => length (snd wp) = dim) q ->
  nd_shape center = [m; m; dim] -> nd_shape radius = [m; m] ->
  exists out, round_nd checked vol dim q f center radius = done out /\ nd_shape out = rs ++ [m; m] /\
    forall r k l, within r rs -> (k < m)%nat -> (l < m)%nat ->
      nd_at out (r ++ [k; l]) = vol (nd_at radius [k; l]) * round_dot q (fun p => F p r) (vector dim center [l; k]) (nd_at radius [k; l]).
Proof.
  intros Hf Hq C R. unfold round_nd. cbn zeta. set (rr := nd_mo radius (nd_points dim (map snd q))). assert (Sr : nd_shape rr = [m; m; length q; dim]) by (unfold rr, nd_mo; cbn [nd_shape nd_points]; rewrite R, map_length; reflexivity).
  assert (W : nd_swapaxes rr = Some (mk_nd [length q; m; m; dim] (fun i => nd_at rr (swap0 2 i)))) by (unfold nd_swapaxes; rewrite Sr; reflexivity). rewrite W. cbn [bind].
  destruct (nd_bc_right Rplus (mk_nd [length q; m; m; dim] (fun i => nd_at rr (swap0 2 i))) center [length q] [m; m; dim]) as (y & E & Sy & V); auto. rewrite E. cbn [bind].
  destruct (round_end checked vol dim q f radius rs [m; m] F (nd_T y) (fun i p => vadd (vector dim center (rev i)) (vscale (nd_at radius i) p)) Hf) as (out & Eo & So & Vo).
  - unfold nd_T. cbn [nd_shape]. rewrite Sy. reflexivity.
  - auto.
  - intros i k Hi Hk. inversion Hi as [|a b i' s' Ha Hi' E1 E2]. subst. inversion Hi' as [|a' b' i'' s'' Ha' Hi'' E1 E2]. subst. inversion Hi''. subst. rewrite <- vadd_vector by (apply nth_points; auto). apply map_ext_in. intros c Hc. apply in_seq in Hc.
    unfold nd_T. cbn [nd_at app rev]. assert (Vk := V [k] [a'; a; c] ltac:(apply within_one; lia) ltac:(repeat constructor; lia)). cbn [app] in Vk. rewrite Vk. clear Vk. f_equal. cbn [nd_at app]. unfold rr, nd_mo, swap0. cbn [nd_at length seq map Nat.eqb nth]. rewrite R. cbn [length firstn skipn]. reflexivity.
  - exists out. cbn zeta in Eo. rewrite Eo. split; auto. split; auto. intros r k l Hr Hk Hl. rewrite Vo; auto. repeat constructor; auto.
Qed.
Lemma bc_shape_none a b s t : a <> b -> a <> 1%nat -> b <> 1%nat -> bc_shape (a :: s) (b :: t) = None.
Proof. intros A B C. cbn [bc_shape]. destruct (bc_shape s t); cbn [bind]; auto. apply Nat.eqb_neq in A, B, C. rewrite A, B, C. auto. Qed.
Lemma bc_shape_cons_none a s t : bc_shape s t = None -> forall b, bc_shape (a :: s) (b :: t) = None.
Proof. intros H b. cbn [bc_shape]. rewrite H. auto. Qed.
Lemma round_nd_2_fails checked vol dim m k (q : rule) f center radius : nd_shape center = [m; k; dim] -> nd_shape radius = [m; k] -> m <> k -> m <> 1%nat -> k <> 1%nat ->
  round_nd checked vol dim q f center radius = numpy_error.
Proof.
  intros C R N M K. unfold round_nd. cbn zeta. set (rr := nd_mo radius (nd_points dim (map snd q))). assert (Sr : nd_shape rr = [m; k; length q; dim]) by (unfold rr, nd_mo; cbn [nd_shape nd_points]; rewrite R, map_length; reflexivity).
  assert (W : nd_swapaxes rr = Some (mk_nd [length q; k; m; dim] (fun i => nd_at rr (swap0 2 i)))) by (unfold nd_swapaxes; rewrite Sr; reflexivity). rewrite W. cbn [bind].
  unfold nd_bc. cbn [nd_shape]. rewrite C. cbn [rev app]. rewrite bc_shape_cons_none; [reflexivity|]. apply bc_shape_none; auto.
Qed.
(** one radius and an array of centres: fails, or takes the k-th centre for the k-th point *)
Lemma round_nd_one_radius_fails checked vol dim m (q : rule) f center radius : nd_shape center = [m; dim] -> nd_shape radius = [] -> m <> length q -> m <> 1%nat -> length q <> 1%nat ->
  round_nd checked vol dim q f center radius = numpy_error.
Proof.
  intros C R N M K. unfold round_nd. cbn zeta. set (rr := nd_mo radius (nd_points dim (map snd q))). assert (Sr : nd_shape rr = [length q; dim]) by (unfold rr, nd_mo; cbn [nd_shape nd_points]; rewrite R, map_length; reflexivity).
  assert (W : nd_swapaxes rr = Some (mk_nd [length q; dim] (fun i => nd_at rr (swap0 0 i)))) by (unfold nd_swapaxes; rewrite Sr; reflexivity). rewrite W. cbn [bind].
  unfold nd_bc. cbn [nd_shape]. rewrite C. cbn [rev app]. rewrite bc_shape_cons_none; [reflexivity|]. apply bc_shape_none; auto.
Qed.
Lemma round_nd_one_radius checked vol dim (q : rule) f center radius rs F : pointwise dim rs F f -> List.Forall (fun wp => length (snd wp) = dim) q ->
  nd_shape center = [length q; dim] -> nd_shape radius = [] ->
  exists out, round_nd checked vol dim q f center radius = done out /\ nd_shape out = rs /\
    forall r, within r rs -> nd_at out r = vol (nd_at radius []) *
      Rsum (map (fun k => nth k (map fst q) 0 * F (vadd (vector dim center [k]) (vscale (nd_at radius []) (nth k (map snd q) []))) r) (seq 0 (length q))).
Proof.
  intros Hf Hq C R. unfold round_nd. cbn zeta. set (rr := nd_mo radius (nd_points dim (map snd q))). assert (Sr : nd_shape rr = [length q; dim]) by (unfold rr, nd_mo; cbn [nd_shape nd_points]; rewrite R, map_length; reflexivity).
  assert (W : nd_swapaxes rr = Some (mk_nd [length q; dim] (fun i => nd_at rr (swap0 0 i)))) by (unfold nd_swapaxes; rewrite Sr; reflexivity). rewrite W. cbn [bind].
  destruct (nd_bc_right Rplus (mk_nd [length q; dim] (fun i => nd_at rr (swap0 0 i))) center [] [length q; dim]) as (y & E & Sy & V); auto. rewrite E. cbn [bind].
  assert (Sx : nd_shape (nd_T y) = [dim; length q]) by (unfold nd_T; cbn [nd_shape]; rewrite Sy; reflexivity). destruct (Hf (nd_T y) [length q] Sx) as [Sf Vf].
  destruct (nd_dotv_value (f (nd_T y)) rs (map fst q)) as (d & Ed & Sd & Vd); [rewrite Sf, map_length; auto|].
  destruct (vol_times vol d radius rs [] R) as (out & Eo & So & Vo); [rewrite app_nil_r; auto|].
  rewrite (shape_ok_pointwise rs dim [length q] (f (nd_T y)) (nd_T y) Sx) by (try discriminate; auto). rewrite andb_false_r, Ed. cbn [bind]. rewrite Eo. exists out. split; auto. rewrite app_nil_r in So. split; auto.
  intros r Hr. specialize (Vo r [] Hr within_nil). rewrite app_nil_r in Vo. rewrite Vo, Vd, map_length. f_equal. apply Rsum_map_ext. intros k Hk. apply in_seq in Hk. rewrite (Rmult_comm (nth k _ _)). f_equal. rewrite Vf; auto; [|apply within_one; lia]. f_equal.
  rewrite <- vadd_vector by (apply nth_points; auto; lia). apply map_ext_in. intros c Hc. apply in_seq in Hc. unfold nd_T. cbn [nd_at app rev]. assert (Vk := V [] [k; c] ltac:(constructor) ltac:(repeat constructor; lia)). cbn [app] in Vk. rewrite Vk. clear Vk. f_equal. cbn [nd_at app]. unfold rr, nd_mo, swap0. cbn [nd_at length seq map Nat.eqb nth]. rewrite R. cbn [length firstn skipn]. reflexivity.
Qed.
