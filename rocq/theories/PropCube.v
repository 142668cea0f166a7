(** C13, C41, C44: outer products, product schemes, integration over boxes, points_inside. *)
From Coq Require Import Reals List Arith Bool Lia Lra.
From Coquelicot Require Import Coquelicot.
From Verif Require Import Spec Spec1 RsumLemmas IntegralSpec IntegralProofs IntegralPoly CombModel PyBase AdaptModel AdaptProofs C1Tools
  GeomModel GeomProofs PolyFun CubeModel CubeProofs.
Set Bullet Behavior "Strict Subproofs".
Import ListNotations.
Open Scope R_scope.

(* ------------------------------------------------------------------ C13 *)
(** The entry of the outer product at a multi-index is the product of the chosen entries; the tensor is stored in
    row-major order ([row_major] is the usual index formula). *)
Theorem C13_n_outer : forall a, a <> [] -> exists t, n_outer a = Some t /\
  length t = fold_right Nat.mul 1%nat (map (@length R) a) /\
  forall idx, length idx = length a -> List.Forall (fun e => (fst e < length (snd e))%nat) (List.combine idx a) ->
    nth (row_major (map (@length R) a) idx) t 0 = Rprod (map (fun e => nth (fst e) (snd e) 0) (List.combine idx a)).
Proof.
  intros a Ha. exists (outer_all a). split; [apply n_outer_all; auto|]. split; [apply outer_all_length|]. apply outer_entry.
Qed.
Print Assumptions C13_n_outer.
Example C13_outer_ex : n_outer [[2; 3]; [5; 7]; [11; 13]] = Some [2*5*11; 2*5*13; 2*7*11; 2*7*13; 3*5*11; 3*5*13; 3*7*11; 3*7*13] /\
  row_major [2; 2; 2]%nat [1; 0; 1]%nat = 5%nat.
Proof. split; reflexivity. Qed.

Lemma cube_mean_list k : cube_mean (length k) (mono k) = Rprod (map (fun a => pow_int a / 2) k).
Proof.
  unfold cube_mean. rewrite (cube_int_ext _ _ (fun x => 1 * mono k x)) by (intros; ring). rewrite cube_int_mono, Rmult_1_l.
  induction k as [|a k IH]; cbn [length map Rprod pow]; [field|]. rewrite <- IH. field. apply pow_nonzero. lra.
Qed.
Lemma Rsum_flat2 {A B} (f : A -> B -> R) (l : list A) (m : list B) :
  Rsum (flat_map (fun x => map (f x) m) l) = Rsum (map (fun x => Rsum (map (f x) m)) l).
Proof. induction l as [|x l IH]; cbn; auto. rewrite Rsum_app, IH. auto. Qed.
Lemma flat_length {A B C} (f : A -> B -> C) (l : list A) (m : list B) : length (flat_map (fun x => map (f x) m) l) = (length l * length m)%nat.
Proof. induction l as [|x l IH]; auto. cbn [flat_map length]. rewrite app_length, map_length, IH. auto. Qed.
(** Every monomial x^a y^b with both exponents at most d, not only those of total degree at most d. *)
Theorem C13_c2_product : forall d s, exact1 d s -> s <> [] -> exists r, c2_product s = Some r /\ points_in_dim 2 r /\
  length r = (length s * length s)%nat /\
  forall a b, (a <= d)%nat -> (b <= d)%nat -> apply r (mono [a; b]) = cube_mean 2 (mono [a; b]).
Proof.
  intros d s Hs Hne. unfold c2_product. destruct s as [|s0 s']; [congruence|]. set (s := s0 :: s') in *. unfold guard. cbn [length Nat.ltb Nat.leb s].
  fold s. eexists. split; [reflexivity|]. split; [|split].
  - apply Forall_forall. intros wp H. apply in_flat_map in H. destruct H as [x [_ H]]. apply in_map_iff in H. destruct H as [y [<- _]]. auto.
  - exact (flat_length (fun wi wj : R * R => ((fst wi * fst wj / 4, [snd wj; snd wi]) : R * point)) s s).
  - intros a b Ha Hb. rewrite (cube_mean_list [a; b] : cube_mean 2 _ = _). cbn [map Rprod]. rewrite <- (exact1_powers d s a Hs Ha), <- (exact1_powers d s b Hs Hb).
    unfold apply. rewrite map_flat_map'. rewrite (flat_map_ext _ (fun x => map (fun y => fst y * snd y ^ a * (fst x * snd x ^ b) / 4) s)).
    2:{ intros x. rewrite map_map. apply map_ext. intros y. cbn [fst snd mono]. cbn. field. }
    rewrite (Rsum_flat2 (fun x y => fst y * snd y ^ a * (fst x * snd x ^ b) / 4)). unfold apply1.
    rewrite (Rsum_map_ext _ (fun x => (Rsum (map (fun wx => fst wx * snd wx ^ a) s) / 4) * (fst x * snd x ^ b))).
    + rewrite Rsum_map_scal. field.
    + intros x _. unfold Rdiv. rewrite Rmult_assoc, <- Rsum_map_scal_r. apply Rsum_map_ext. intros; ring.
Qed.
Print Assumptions C13_c2_product.
Theorem C13_c3_product : forall d s, exact1 d s -> s <> [] -> exists r, c3_product s = Some r /\ points_in_dim 3 r /\
  forall a b c, (a <= d)%nat -> (b <= d)%nat -> (c <= d)%nat -> apply r (mono [a; b; c]) = cube_mean 3 (mono [a; b; c]).
Proof.
  intros d s Hs Hne. unfold c3_product. destruct s as [|s0 s']; [congruence|]. set (s := s0 :: s') in *. unfold guard. cbn [length Nat.ltb Nat.leb s].
  fold s. eexists. split; [reflexivity|]. split.
  - apply Forall_forall. intros wp H. apply in_flat_map in H. destruct H as [x [_ H]]. apply in_flat_map in H. destruct H as [y [_ H]].
    apply in_map_iff in H. destruct H as [z [<- _]]. auto.
  - intros a b c Ha Hb Hc. rewrite (cube_mean_list [a; b; c] : cube_mean 3 _ = _). cbn [map Rprod].
    rewrite <- (exact1_powers d s a Hs Ha), <- (exact1_powers d s b Hs Hb), <- (exact1_powers d s c Hs Hc).
    unfold apply. rewrite Rsum_map_flat_map. set (A := fun k => apply1 s (fun x => x ^ k)). fold (A a) (A b) (A c).
    rewrite (Rsum_map_ext _ (fun x => (A a * A b / 8) * (fst x * snd x ^ c))).
    + rewrite Rsum_map_scal. change (Rsum (map (fun x => fst x * snd x ^ c) s)) with (A c). field.
    + intros x _. rewrite Rsum_map_flat_map. 
      rewrite (Rsum_map_ext _ (fun y => (A a / 8 * (fst x * snd x ^ c)) * (fst y * snd y ^ b))).
      * rewrite Rsum_map_scal. change (Rsum (map (fun x => fst x * snd x ^ b) s)) with (A b). field.
      * intros y _. rewrite map_map. rewrite (Rsum_map_ext _ (fun z => (fst y * snd y ^ b * (fst x * snd x ^ c) / 8) * (fst z * snd z ^ a))).
        -- rewrite Rsum_map_scal. change (Rsum (map (fun x => fst x * snd x ^ a) s)) with (A a). field.
        -- intros z _. cbn [fst snd mono]. cbn. field.
Qed.
Print Assumptions C13_c3_product.
(** In particular the declared degree (that of the 1D scheme) holds for total degrees. *)
Theorem C13_declared_degree : forall d s, exact1 d s -> s <> [] ->
  (exists r, c2_product s = Some r /\ exact 2 d (fun k => cube_mean 2 (mono k)) r) /\
  (exists r, c3_product s = Some r /\ exact 3 d (fun k => cube_mean 3 (mono k)) r).
Proof.
  intros d s Hs Hne. destruct (C13_c2_product d s Hs Hne) as (r & E & P & _ & X). destruct (C13_c3_product d s Hs Hne) as (r' & E' & P' & X').
  split; [exists r|exists r']; (split; [auto|]; split; [auto|]).
  - intros k Hk Hd. destruct k as [|a [|b [|]]]; try discriminate. unfold tdeg in Hd; cbn in Hd. apply X; lia.
  - intros k Hk Hd. destruct k as [|a [|b [|c [|]]]]; try discriminate. unfold tdeg in Hd; cbn in Hd. apply X'; lia.
Qed.
Print Assumptions C13_declared_degree.
(** An empty scheme is rejected. *)
Theorem C13_empty : c2_product [] = None /\ c3_product [] = None.
Proof. split; reflexivity. Qed.
Print Assumptions C13_empty.
(** e.g. Simpson's rule gives x^3 y^2 exactly, although the total degree is 5 *)
Example C13_ex : exists r, c2_product [(1/3, -1); (4/3, 0); (1/3, 1)] = Some r /\ apply r (mono [3; 2]%nat) = 0 /\ apply r (mono [2; 2]%nat) = 1 / 9.
Proof. eexists. split; [unfold c2_product, guard; cbn; reflexivity|]. split; unfold apply; cbn; field. Qed.

(* ------------------------------------------------------------------ C41 *)
(** Exact over every box: [box_int] is the iterated integral over [a1,b1] x ... x [an,bn]. *)
Theorem C41_exact : forall lim d q p, lim <> [] -> List.Forall (fun e => fst e <= snd e) lim ->
  exact (length lim) d (fun k => cube_mean (length lim) (mono k)) q -> mp_ok (length lim) d p ->
  cn_integrate (length lim) 0 q (mpeval p) (ncube_points lim) = Some (box_int lim (mpeval p)).
Proof. exact cn_integrate_exact. Qed.
Print Assumptions C41_exact.
(** For arbitrary integrands the value is the volume of the box times the weighted mean of the values at the
    affinely moved points. *)
Theorem C41_any_integrand : forall lim q f, lim <> [] -> List.Forall (fun e => fst e <= snd e) lim -> points_in_dim (length lim) q ->
  cn_integrate (length lim) 0 q f (ncube_points lim) =
  Some (Rprod (map (fun e => snd e - fst e) lim) *
        apply q (fun xi => f (map (fun e => (fst (fst e) + snd (fst e)) / 2 + (snd (fst e) - fst (fst e)) / 2 * snd e) (List.combine lim xi)))).
Proof.
  intros lim q f Hne Hl Hq. rewrite cn_integrate_box by auto. f_equal. rewrite Nat.add_0_r, <- Rmult_assoc. f_equal.
  rewrite Rabs_right by (apply Rle_ge, half_widths_nonneg; auto). clear. induction lim as [|[a b] lim IH]; [cbn; ring|].
  cbn [length pow half_widths map Rprod fst snd]. rewrite <- IH. unfold half_widths. field.
Qed.
Print Assumptions C41_any_integrand.
(** The multilinear map sends the corners of the reference cube to the corners of the given hexahedron, for every
    array of 2^n corners in any space; bits choose -1 or +1 in each direction. *)
Theorem C41_corners : forall bits (cube : list point) d, bits <> [] -> length cube = (2 ^ length bits)%nat ->
  List.Forall (fun c : point => length c = d) cube ->
  transform (map (fun b : bool => if b then 1 else -1) bits) cube = Some (nth (corner_index bits) cube []).
Proof. exact transform_corner. Qed.
Print Assumptions C41_corners.
(** ... and for a box they are the points with the chosen limits. *)
Theorem C41_box_corners : forall lim bits, length bits = length lim ->
  nth (corner_index bits) (ncube_points lim) [] = map (fun e => if snd e : bool then snd (fst e) else fst (fst e)) (List.combine lim bits).
Proof. exact corner_of_box. Qed.
Print Assumptions C41_box_corners.
(** The rows of the matrix whose determinant scales the values are the partial derivatives of the map, for every
    array of corners. *)
Theorem C41_jacobian : forall xi (cube : list point) k m, (k < length xi)%nat -> (m < length (hd [] cube))%nat ->
  exists row, jac_row xi cube k = Some row /\
    is_derive (fun t => match transform (replace_nth k t xi) cube with Some x => nth m x 0 | None => 0 end) (nth k xi 0) (nth m row 0).
Proof. exact jac_row_derive. Qed.
Print Assumptions C41_jacobian.
(** Several cubes in one call: one extra array axis makes the factor 2^len(shape)-1 twice too large. *)
Theorem C41_vectorised_refuted : forall lim d q p, lim <> [] -> List.Forall (fun e => fst e <= snd e) lim ->
  exact (length lim) d (fun k => cube_mean (length lim) (mono k)) q -> mp_ok (length lim) d p ->
  cn_integrate (length lim) 1 q (mpeval p) (ncube_points lim) = Some (2 * box_int lim (mpeval p)).
Proof.
  intros lim d q p Hne Hl Hq Hp. assert (E := cn_integrate_exact lim d q p Hne Hl Hq Hp). rewrite cn_integrate_box in E by (auto; apply Hq).
  rewrite cn_integrate_box by (auto; apply Hq). injection E as E. f_equal. rewrite <- E, Nat.add_0_r, Nat.add_1_r. cbn [pow]. ring.
Qed.
Print Assumptions C41_vectorised_refuted.
(** e.g. the midpoint rule over a box that is not a cube, for 3 + 2 x - y *)
Example C41_ex : cn_integrate 2 0 [(1, [0; 0])] (mpeval [(3, [0; 0]%nat); (2, [1; 0]%nat); (-1, [0; 1]%nat)]) (ncube_points [(1, 3); (-2, 5)]) =
  Some (box_int [(1, 3); (-2, 5)] (mpeval [(3, [0; 0]%nat); (2, [1; 0]%nat); (-1, [0; 1]%nat)])).
Proof.
  apply (C41_exact [(1, 3); (-2, 5)] 1); try congruence; [repeat constructor; cbn; lra| |repeat constructor].
  split; [repeat constructor|]. intros k Hk Hd. destruct k as [|a [|b [|]]]; try discriminate. cbn [length].
  rewrite (cube_mean_list [a; b] : cube_mean 2 _ = _). unfold tdeg in Hd; cbn in Hd. unfold apply.
  destruct a as [|[|a]]; [destruct b as [|[|b]]; [| |lia]|destruct b as [|b]; [|lia]|lia]; unfold pow_int; cbn; field.
Qed.
Example C41_value : cn_integrate 2 0 [(1, [0; 0])] (mpeval [(3, [0; 0]%nat); (2, [1; 0]%nat); (-1, [0; 1]%nat)]) (ncube_points [(1, 3); (-2, 5)]) = Some 77.
Proof.
  rewrite (C41_any_integrand [(1, 3); (-2, 5)]) by (try congruence; repeat constructor; cbn; lra). f_equal. unfold apply, mpeval. cbn. lra.
Qed.

(* ------------------------------------------------------------------ C44 *)
Lemma forallb_Forall' {A} (P : A -> Prop) (f : A -> bool) l : (forall x, f x = true <-> P x) -> forallb f l = true <-> List.Forall P l.
Proof.
  intros H. rewrite forallb_forall, Forall_forall. split; intros G x Hx; [apply H|apply H]; auto.
Qed.
(** The open cube (-1,1)^n and the closed one. *)
Theorem C44_cube : forall q,
  (cn_points_inside q = true <-> List.Forall (fun wp => List.Forall (fun x => -1 < x < 1) (snd wp)) q) /\
  (cn_points_inside_or_boundary q = true <-> List.Forall (fun wp => List.Forall (fun x => -1 <= x <= 1) (snd wp)) q).
Proof.
  intros q. split; apply forallb_Forall'; intros wp; apply forallb_Forall'; intros x; rewrite andb_true_iff, ?Rltb_true, ?Rleb_true; tauto.
Qed.
Print Assumptions C44_cube.
(** Simplices, in barycentric coordinates: a point is interior exactly if all its coordinates are positive, and in
    the closed simplex if none is negative. *)
Lemma sum_one_lt (p : point) : Rsum p = 1 -> (2 <= length p)%nat -> List.Forall (fun x => 0 < x) p -> List.Forall (fun x => x < 1) p.
Proof.
  intros Hs Hl Hp. apply Forall_forall. intros x Hx. apply in_split in Hx. destruct Hx as (l1 & l2 & ->).
  rewrite Rsum_app in Hs. cbn [Rsum] in Hs. apply Forall_app in Hp. destruct Hp as [H1 H2]. inversion H2 as [|? ? Hx H3]; subst.
  assert (P : forall l, List.Forall (fun y => 0 < y) l -> 0 <= Rsum l /\ (l <> [] -> 0 < Rsum l)).
  { induction 1 as [|y l Hy _ [I1 I2]]; cbn; [split; [lra|congruence]|]. split; [lra|intros _; lra]. }
  destruct (P l1 H1) as [A1 B1]. destruct (P l2 H3) as [A2 B2]. rewrite app_length in Hl. cbn in Hl.
  destruct l1 as [|y l1]; [destruct l2 as [|z l2]; [cbn in Hl; lia|]|].
  - specialize (B2 ltac:(congruence)). lra.
  - specialize (B1 ltac:(congruence)). lra.
Qed.
Lemma sum_one_le (p : point) : Rsum p = 1 -> List.Forall (fun x => 0 <= x) p -> List.Forall (fun x => x <= 1) p.
Proof.
  intros Hs Hp. apply Forall_forall. intros x Hx. apply in_split in Hx. destruct Hx as (l1 & l2 & ->).
  rewrite Rsum_app in Hs. cbn [Rsum] in Hs. apply Forall_app in Hp. destruct Hp as [H1 H2]. inversion H2 as [|? ? Hx H3]; subst.
  assert (P : forall l, List.Forall (fun y => 0 <= y) l -> 0 <= Rsum l) by (induction 1; cbn; lra).
  assert (A1 := P l1 H1). assert (A2 := P l2 H3). lra.
Qed.
Theorem C44_simplex : forall n q, (1 <= n)%nat -> List.Forall (fun wp => length (snd wp) = (n + 1)%nat /\ Rsum (snd wp) = 1) q ->
  (tn_points_inside q = true <-> List.Forall (fun wp => List.Forall (fun x => 0 < x) (snd wp)) q) /\
  (tn_points_inside_or_boundary q = true <-> List.Forall (fun wp => List.Forall (fun x => 0 <= x) (snd wp)) q).
Proof.
  intros n q Hn Hq. unfold tn_points_inside, tn_points_inside_or_boundary. rewrite Forall_forall in Hq.
  rewrite !forallb_forall, !Forall_forall. split; (split; intros H wp Hin; specialize (H wp Hin); destruct (Hq wp Hin) as [Hl Hs]).
  - rewrite forallb_forall in H. apply Forall_forall. intros x Hx. specialize (H x Hx). rewrite andb_true_iff, !Rltb_true in H. tauto.
  - rewrite forallb_forall. intros x Hx. rewrite andb_true_iff, !Rltb_true. assert (G := sum_one_lt _ Hs ltac:(lia) H).
    rewrite Forall_forall in H, G. auto.
  - rewrite forallb_forall in H. apply Forall_forall. intros x Hx. specialize (H x Hx). rewrite andb_true_iff, !Rleb_true in H. tauto.
  - rewrite forallb_forall. intros x Hx. rewrite andb_true_iff, !Rleb_true. assert (G := sum_one_le _ Hs H).
    rewrite Forall_forall in H, G. auto.
Qed.
Print Assumptions C44_simplex.
(** Balls: the sum runs along the wrong axis.  The answer has one entry per coordinate instead of one per point, and
    neither direction of the claim holds: two interior points are reported outside, an exterior one inside. *)
Theorem C44_ball_refuted :
  (exists q, List.Forall (fun wp => vdot (snd wp) (snd wp) < 1) q /\ In false (sn_points_inside 2 q)) /\
  (exists q, List.Forall (fun wp => 1 < vdot (snd wp) (snd wp)) q /\ q <> [] /\ sn_points_inside 2 q = [true; true]) /\
  (forall n q, length (sn_points_inside n q) = n).
Proof.
  split; [|split].
  - exists [(1/2, [9/10; 0]); (1/2, [-9/10; 0])]. split.
    + repeat constructor; unfold vdot; cbn; lra.
    + left. unfold Rltb. cbn. destruct (Rlt_dec _ 1) as [H|]; auto. exfalso. lra.
  - exists [(1, [8/10; 8/10])]. split; [repeat constructor; unfold vdot; cbn; lra|]. split; [congruence|]. unfold sn_points_inside. cbn [seq map].
    unfold Rltb. cbn. repeat f_equal; destruct (Rlt_dec _ 1) as [|H]; auto; exfalso; lra.
  - intros n q. unfold sn_points_inside. rewrite map_length, seq_length. auto.
Qed.
Print Assumptions C44_ball_refuted.
Example C44_ex : tn_points_inside [(1, [1/3; 1/3; 1/3])] = true /\ cn_points_inside [(1, [1; 0])] = false /\ cn_points_inside_or_boundary [(1, [1; 0])] = true.
Proof.
  split; [|split].
  - apply (C44_simplex 2); [lia|repeat constructor; cbn; lra|repeat constructor; cbn; lra].
  - destruct (cn_points_inside _) eqn:E; auto. apply C44_cube in E. inversion E as [|? ? H _]; subst. inversion H; subst. cbn in *. lra.
  - apply C44_cube. repeat constructor; cbn; lra.
Qed.
