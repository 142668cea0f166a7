(** Outer products, the multilinear map, its Jacobian and integration over boxes. *)
From Coq Require Import Reals List Arith Bool Lia Lra.
From Coquelicot Require Import Coquelicot.
From Verif Require Import Spec RsumLemmas IntegralSpec IntegralProofs IntegralProofs2 IntegralPoly CombModel PyBase AdaptModel AdaptProofs
  GeomModel GeomProofs PolyFun SimplexInt CubeModel.
Set Bullet Behavior "Strict Subproofs".
Import ListNotations.
Open Scope R_scope.

(* ------------------------------------------------------------------ n_outer *)
Fixpoint outer_all (a : list (list R)) : list R :=
  match a with
  | [] => [1]
  | a0 :: rest => flat_map (fun x => map (Rmult x) (outer_all rest)) a0
  end.
Lemma flat_map_map' {A B C} (f : B -> list C) (g : A -> B) l : flat_map f (map g l) = flat_map (fun x => f (g x)) l.
Proof. induction l; cbn; congruence. Qed.
Lemma flat_map_flat_map' {A B C} (f : B -> list C) (g : A -> list B) l :
  flat_map f (flat_map g l) = flat_map (fun x => flat_map f (g x)) l.
Proof. induction l as [|x l IH]; cbn; auto. rewrite flat_map_app, IH. auto. Qed.
Lemma map_flat_map' {A B C} (f : B -> C) (g : A -> list B) l : map f (flat_map g l) = flat_map (fun x => map f (g x)) l.
Proof. induction l as [|x l IH]; cbn; auto. rewrite map_app, IH. auto. Qed.
Lemma outer_fold rest : forall acc,
  fold_left (fun out ak => flat_map (fun o => map (fun v => o * v) ak) out) rest acc =
  flat_map (fun x => map (Rmult x) (outer_all rest)) acc.
Proof.
  induction rest as [|a rest IH]; intros acc; cbn [fold_left outer_all].
  - cbn. induction acc as [|x acc IHa]; auto. cbn. rewrite <- IHa. f_equal. ring.
  - rewrite IH, flat_map_flat_map'. apply flat_map_ext. intros x. rewrite flat_map_map', map_flat_map'. apply flat_map_ext. intros y.
    rewrite map_map. apply map_ext. intros; ring.
Qed.
Lemma n_outer_all a : a <> [] -> n_outer a = Some (outer_all a).
Proof. destruct a as [|a0 rest]; [congruence|]. intros _. unfold n_outer. rewrite outer_fold. auto. Qed.
(** Row-major position of a multi-index in a tensor of the given shape. *)
Fixpoint row_major (shape idx : list nat) : nat :=
  match shape, idx with
  | _ :: shape', i :: idx' => (i * fold_right Nat.mul 1%nat shape' + row_major shape' idx')%nat
  | _, _ => 0%nat
  end.
Lemma outer_all_length a : length (outer_all a) = fold_right Nat.mul 1%nat (map (@length R) a).
Proof.
  induction a as [|a0 rest IH]; auto. cbn [outer_all map fold_right]. rewrite <- IH. clear IH.
  induction a0 as [|x a0 IH]; auto. cbn [flat_map length]. rewrite app_length, map_length, IH. auto.
Qed.
Lemma row_major_lt a : forall idx, length idx = length a -> List.Forall (fun e => (fst e < length (snd e))%nat) (List.combine idx a) ->
  (row_major (map (@length R) a) idx < fold_right Nat.mul 1 (map (@length R) a))%nat.
Proof.
  induction a as [|a0 a IH]; intros [|i idx] Hl H; try discriminate; [cbn; lia|]. cbn [map row_major fold_right].
  inversion H as [|? ? Hi Hr]; subst. cbn [fst snd] in Hi. specialize (IH idx ltac:(cbn in Hl; lia) Hr).
  set (N := fold_right Nat.mul 1%nat (map (@length R) a)) in *. nia.
Qed.
Theorem outer_entry a : forall idx, length idx = length a -> List.Forall (fun e => (fst e < length (snd e))%nat) (List.combine idx a) ->
  nth (row_major (map (@length R) a) idx) (outer_all a) 0 = Rprod (map (fun e => nth (fst e) (snd e) 0) (List.combine idx a)).
Proof.
  induction a as [|a0 a IH]; intros [|i idx] Hl H; try discriminate; [reflexivity|]. cbn [map row_major List.combine Rprod fst snd outer_all].
  inversion H as [|? ? Hi Hr]; subst. cbn [fst snd] in Hi. assert (Hl' : length idx = length a) by (cbn in Hl; lia).
  assert (Hlt := row_major_lt a idx Hl' Hr). rewrite <- (IH idx Hl' Hr). rewrite <- outer_all_length in *.
  set (r := row_major (map (@length R) a) idx) in *. clear IH H Hl Hl' Hr. revert i Hi.
  induction a0 as [|x a0 IH]; intros i Hi; [cbn in Hi; lia|]. cbn [flat_map]. destruct i as [|i].
  - cbn [Nat.mul Nat.add]. rewrite app_nth1 by (rewrite map_length; auto).
    rewrite (nth_indep _ 0 (x * 0)) by (rewrite map_length; auto). rewrite (map_nth (Rmult x)). auto.
  - rewrite app_nth2 by (rewrite map_length; nia). rewrite map_length.
    replace (S i * length (outer_all a) + r - length (outer_all a))%nat with (i * length (outer_all a) + r)%nat by nia.
    rewrite IH by (cbn in Hi; lia). auto.
Qed.

(* ------------------------------------------------------------------ sums over the corners of a box *)
Lemma combine_app' {A B} (l1 l2 : list A) : forall (m1 m2 : list B), length l1 = length m1 ->
  List.combine (l1 ++ l2) (m1 ++ m2) = List.combine l1 m1 ++ List.combine l2 m2.
Proof. induction l1 as [|x l1 IH]; intros [|y m1] m2 H; try discriminate; auto. cbn. rewrite IH; auto. Qed.
Definition pairs (uv : list (R * R)) : list (list R) := map (fun e => [fst e; snd e]) uv.
Lemma outer_pairs_length uv : length (outer_all (pairs uv)) = (2 ^ length uv)%nat.
Proof.
  unfold pairs. rewrite outer_all_length, map_map. cbn [length]. induction uv as [|e uv IH]; auto. cbn [map fold_right length].
  rewrite IH. cbn. lia.
Qed.
Lemma corners_length lim : length (ncube_points lim) = (2 ^ length lim)%nat.
Proof. induction lim as [|[a b] lim IH]; auto. cbn [ncube_points length]. rewrite app_length, !map_length. change (length (ncube_points lim) + length (ncube_points lim) = 2 ^ S (length lim))%nat. rewrite IH. cbn. lia. Qed.
Lemma corner_dim lim : List.Forall (fun c : point => length c = length lim) (ncube_points lim).
Proof.
  induction lim as [|[a b] lim IH]; [repeat constructor|]. cbn [ncube_points]. apply Forall_app.
  split; apply Forall_map; eapply Forall_impl; try exact IH; cbn; intros; auto.
Qed.
Definition csum (uv : list (R * R)) (cs : list point) (g : point -> R) : R :=
  Rsum (map (fun e => fst e * g (snd e)) (List.combine (outer_all (pairs uv)) cs)).
Lemma map_combine_scal (x : R) (l : list R) : forall (cs : list point) g c,
  Rsum (map (fun e => fst e * g (snd e)) (List.combine (map (Rmult x) l) (map (cons c) cs))) =
  x * Rsum (map (fun e => fst e * g (c :: snd e)) (List.combine l cs)).
Proof.
  induction l as [|y l IH]; intros [|p cs] g c; cbn; try ring. fold (@map point point). 
  specialize (IH cs g c). cbn in IH. rewrite IH. ring.
Qed.
Lemma csum_cons u v uv a b lim g : length lim = length uv ->
  csum ((u, v) :: uv) (ncube_points ((a, b) :: lim)) g =
  u * csum uv (ncube_points lim) (fun c => g (a :: c)) + v * csum uv (ncube_points lim) (fun c => g (b :: c)).
Proof.
  intros H. unfold csum. cbn [pairs map outer_all flat_map ncube_points fst snd]. rewrite app_nil_r. fold (pairs uv).
  rewrite combine_app' by (rewrite !map_length, outer_pairs_length, <- H; symmetry; exact (corners_length lim)).
  rewrite map_app, Rsum_app, !map_combine_scal. auto.
Qed.
Lemma csum_ext uv cs g h : (forall c, g c = h c) -> csum uv cs g = csum uv cs h.
Proof. intros H. unfold csum. apply Rsum_map_ext. intros e _. rewrite H. auto. Qed.
Lemma csum_const uv : forall lim c, length lim = length uv -> csum uv (ncube_points lim) (fun _ => c) = c * Rprod (map (fun e => fst e + snd e) uv).
Proof.
  induction uv as [|[u v] uv IH]; intros [|[a b] lim] c H; try discriminate; [unfold csum; cbn; ring|].
  rewrite csum_cons by (cbn in H; lia). rewrite !IH by (cbn in H; lia). cbn [map Rprod fst snd]. ring.
Qed.
Lemma csum_coord uv : forall lim m, length lim = length uv -> (m < length uv)%nat ->
  csum uv (ncube_points lim) (fun c => nth m c 0) =
  Rprod (map (fun i => if Nat.eq_dec i m then fst (nth i uv (0, 0)) * fst (nth i lim (0, 0)) + snd (nth i uv (0, 0)) * snd (nth i lim (0, 0))
                       else fst (nth i uv (0, 0)) + snd (nth i uv (0, 0))) (seq 0 (length uv))).
Proof.
  induction uv as [|[u v] uv IH]; intros [|[a b] lim] m H Hm; try discriminate; [cbn in Hm; lia|].
  assert (H' : length lim = length uv) by (cbn in H; lia).
  rewrite csum_cons by auto. cbn [length seq map Rprod]. rewrite <- seq_shift, map_map. destruct m as [|m].
  - cbn [nth]. rewrite !csum_const by auto. destruct (Nat.eq_dec 0 0); [|lia]. cbn [nth fst snd].
    rewrite (map_ext (fun x => if Nat.eq_dec (S x) 0 then _ else _) (fun i => fst (nth i uv (0, 0)) + snd (nth i uv (0, 0)))) by (intros; destruct (Nat.eq_dec (S a0) 0); [lia|auto]).
    assert (E : map (fun i => fst (nth i uv (0, 0)) + snd (nth i uv (0, 0))) (seq 0 (length uv)) = map (fun e => fst e + snd e) uv).
    { transitivity (map (fun e : R * R => fst e + snd e) (map (fun i => nth i uv (0, 0)) (seq 0 (length uv)))); [rewrite map_map; auto|]. f_equal. apply (nth_all (0, 0) uv). }
    rewrite E. ring.
  - cbn [nth]. rewrite !IH by (auto; cbn in Hm; lia). destruct (Nat.eq_dec 0 (S m)); [lia|]. cbn [nth fst snd].
    rewrite (map_ext (fun x => if Nat.eq_dec (S x) (S m) then _ else _) (fun i => if Nat.eq_dec i m
       then fst (nth i uv (0, 0)) * fst (nth i lim (0, 0)) + snd (nth i uv (0, 0)) * snd (nth i lim (0, 0))
       else fst (nth i uv (0, 0)) + snd (nth i uv (0, 0)))).
    + ring.
    + intros i. destruct (Nat.eq_dec i m), (Nat.eq_dec (S i) (S m)); auto; lia.
Qed.

(* ------------------------------------------------------------------ the map onto a box *)
Definition half (xi : point) : list (R * R) := map (fun x => (0.5 * (1.0 - x), 0.5 * (1.0 + x))) xi.
Lemma one_mp_pairs xi : one_mp xi = pairs (half xi).
Proof. unfold one_mp, pairs, half. rewrite map_map. auto. Qed.
Lemma replace_nth_map {A B} (f : A -> B) k v l : replace_nth k (f v) (map f l) = map f (replace_nth k v l).
Proof. revert l. induction k; intros [|x l]; cbn; auto. rewrite IHk. auto. Qed.
Lemma replace_nth_length {A} k (v : A) l : length (replace_nth k v l) = length l.
Proof. revert l. induction k; intros [|x l]; cbn; auto. Qed.
Lemma nth_replace {A} k (v d : A) l i : (k < length l)%nat -> nth i (replace_nth k v l) d = if Nat.eq_dec i k then v else nth i l d.
Proof.
  revert l i. induction k; intros [|x l] i H; cbn in H; try lia; cbn [replace_nth].
  - destruct i; auto.
  - destruct i; auto. cbn [nth]. rewrite IHk by lia. destruct (Nat.eq_dec i k), (Nat.eq_dec (S i) (S k)); auto; lia.
Qed.
Lemma corner_hd lim : length (hd [] (ncube_points lim)) = length lim.
Proof.
  assert (H := corner_dim lim). assert (L := corners_length lim). destruct (ncube_points lim) as [|c cs]; [cbn in L; symmetry in L; apply Nat.pow_nonzero in L; [tauto|lia]|].
  inversion H; auto.
Qed.
Lemma tensordot_box uv lim : length lim = length uv ->
  tensordot (outer_all (pairs uv)) (ncube_points lim) = map (fun m => csum uv (ncube_points lim) (fun c => nth m c 0)) (seq 0 (length lim)).
Proof. intros H. unfold tensordot. rewrite corner_hd. auto. Qed.
Definition box_map (lim : list (R * R)) (xi : point) : point :=
  map (fun e => (fst (fst e) + snd (fst e)) / 2 + (snd (fst e) - fst (fst e)) / 2 * snd e) (List.combine lim xi).
Lemma Rprod_single (n m : nat) (g : nat -> R) c : (m < n)%nat -> (forall i, i <> m -> g i = 1) -> g m = c ->
  Rprod (map g (seq 0 n)) = c.
Proof.
  intros Hm Hg Hc. enough (G : forall n a, Rprod (map g (seq a n)) = if ((a <=? m)%nat && (m <? a + n)%nat)%bool then c else 1).
  { rewrite G. replace ((0 <=? m)%nat && (m <? 0 + n)%nat)%bool with true; auto. symmetry. apply andb_true_intro. split; [apply Nat.leb_le|apply Nat.ltb_lt]; lia. }
  clear n Hm. induction n as [|n IH]; intros a; cbn [seq map Rprod].
  - destruct ((a <=? m)%nat && (m <? a + 0)%nat)%bool eqn:E; auto. apply andb_prop in E. destruct E as [E1 E2]. apply Nat.leb_le in E1. apply Nat.ltb_lt in E2. lia.
  - rewrite IH. destruct (Nat.eq_dec a m) as [->|N].
    + rewrite Hc. replace (S m <=? m)%nat with false by (symmetry; apply Nat.leb_gt; lia).
      replace (m <=? m)%nat with true by (symmetry; apply Nat.leb_le; lia). replace (m <? m + S n)%nat with true by (symmetry; apply Nat.ltb_lt; lia). cbn. ring.
    + rewrite Hg by auto. destruct ((S a <=? m)%nat && (m <? S a + n)%nat)%bool eqn:E1, ((a <=? m)%nat && (m <? a + S n)%nat)%bool eqn:E2; try ring.
      * apply andb_prop in E1. destruct E1 as [F1 F2]. apply Nat.leb_le in F1. apply Nat.ltb_lt in F2.
        exfalso. apply andb_false_iff in E2. destruct E2 as [F|F]; [apply Nat.leb_gt in F|apply Nat.ltb_ge in F]; lia.
      * apply andb_prop in E2. destruct E2 as [F1 F2]. apply Nat.leb_le in F1. apply Nat.ltb_lt in F2.
        exfalso. apply andb_false_iff in E1. destruct E1 as [F|F]; [apply Nat.leb_gt in F|apply Nat.ltb_ge in F]; lia.
Qed.
Lemma Rprod_zero (g : nat -> R) n k : (k < n)%nat -> g k = 0 -> Rprod (map g (seq 0 n)) = 0.
Proof.
  intros Hk H. replace n with (k + S (n - k - 1))%nat by lia. rewrite seq_app, map_app, Rprod_app. cbn [seq map Rprod Nat.add]. rewrite H. ring.
Qed.
Lemma nth_half xi i : (i < length xi)%nat -> nth i (half xi) (0, 0) = (0.5 * (1.0 - nth i xi 0), 0.5 * (1.0 + nth i xi 0)).
Proof.
  intros H. unfold half. rewrite (nth_indep _ (0, 0) ((fun x => (0.5 * (1.0 - x), 0.5 * (1.0 + x))) 0)) by (rewrite map_length; auto).
  rewrite (map_nth (fun x => (0.5 * (1.0 - x), 0.5 * (1.0 + x)))). auto.
Qed.
Lemma nth_box_map lim : forall xi i, length xi = length lim -> (i < length lim)%nat ->
  nth i (box_map lim xi) 0 = (fst (nth i lim (0, 0)) + snd (nth i lim (0, 0))) / 2 + (snd (nth i lim (0, 0)) - fst (nth i lim (0, 0))) / 2 * nth i xi 0.
Proof.
  induction lim as [|[a b] lim IH]; intros [|x xi] i H Hi; try discriminate; [cbn in Hi; lia|].
  destruct i as [|i]; [reflexivity|]. cbn [nth]. rewrite <- IH by (cbn in H, Hi; lia). auto.
Qed.
Lemma half_length xi : length (half xi) = length xi.
Proof. apply map_length. Qed.
Theorem transform_box lim xi : length xi = length lim -> lim <> [] -> transform xi (ncube_points lim) = Some (box_map lim xi).
Proof.
  intros H Hne. unfold transform. rewrite one_mp_pairs, n_outer_all.
  2:{ destruct xi, lim; try discriminate; congruence. }
  cbn [bind]. f_equal. rewrite tensordot_box by (rewrite half_length; auto).
  apply (nth_ext _ _ 0 0).
  - unfold box_map. rewrite !map_length, seq_length, combine_length. lia.
  - intros m Hm. rewrite map_length, seq_length in Hm.
    rewrite (nth_indep _ 0 (csum (half xi) (ncube_points lim) (fun c => nth 0%nat c 0))) by (rewrite map_length, seq_length; auto).
    rewrite (map_nth (fun m => csum (half xi) (ncube_points lim) (fun c => nth m c 0))), seq_nth by auto. cbn [Nat.add].
    rewrite csum_coord by (rewrite half_length; auto; lia). rewrite nth_box_map by auto. rewrite half_length.
    rewrite (map_ext_in _ (fun i => if Nat.eq_dec i m then (fst (nth m lim (0, 0)) + snd (nth m lim (0, 0))) / 2 + (snd (nth m lim (0, 0)) - fst (nth m lim (0, 0))) / 2 * nth m xi 0 else 1)).
    + apply (Rprod_single _ m); [lia|intros i Hi; destruct (Nat.eq_dec i m); [lia|auto]|destruct (Nat.eq_dec m m); [auto|lia]].
    + intros i Hi. apply in_seq in Hi. rewrite nth_half by lia. cbn [fst snd]. destruct (Nat.eq_dec i m); subst; lra.
Qed.
Definition diag_rows (ds : list R) : list (list R) :=
  map (fun k => map (fun m => if Nat.eq_dec k m then nth k ds 0 else 0) (seq 0 (length ds))) (seq 0 (length ds)).
Lemma opt_all_some {A} (l : list A) : opt_all (map Some l) = Some l.
Proof. induction l as [|x l IH]; cbn; auto. rewrite IH. auto. Qed.
Definition half_widths (lim : list (R * R)) : list R := map (fun e => (snd e - fst e) / 2) lim.
Lemma nth_half_widths lim i : nth i (half_widths lim) 0 = (snd (nth i lim (0, 0)) - fst (nth i lim (0, 0))) / 2.
Proof.
  unfold half_widths. replace 0 with ((fun e : R * R => (snd e - fst e) / 2) (0, 0)) at 1 by (cbn; field).
  rewrite (map_nth (fun e : R * R => (snd e - fst e) / 2)). auto.
Qed.
Lemma jac_row_box lim xi k : length xi = length lim -> lim <> [] -> (k < length lim)%nat ->
  jac_row xi (ncube_points lim) k = Some (map (fun m => if Nat.eq_dec k m then nth k (half_widths lim) 0 else 0) (seq 0 (length lim))).
Proof.
  intros H Hne Hk. unfold jac_row. rewrite one_mp_pairs. unfold pairs.
  change [-0.5; 0.5] with ((fun e : R * R => [fst e; snd e]) (-0.5, 0.5)). rewrite replace_nth_map. fold (pairs (replace_nth k (-0.5, 0.5) (half xi))).
  set (uv := replace_nth k (-0.5, 0.5) (half xi)).
  assert (Hl : length uv = length lim) by (unfold uv; rewrite replace_nth_length, half_length; auto).
  rewrite n_outer_all.
  2:{ destruct uv, lim; cbn in Hl; try discriminate; congruence. }
  cbn [bind]. f_equal. rewrite tensordot_box by auto. apply map_ext_in. intros m Hm. apply in_seq in Hm.
  rewrite csum_coord by lia. destruct (Nat.eq_dec k m) as [<-|N].
  - rewrite (map_ext_in _ (fun i => if Nat.eq_dec i k then nth k (half_widths lim) 0 else 1)).
    + apply (Rprod_single _ k); [lia|intros i Hi; destruct (Nat.eq_dec i k); [lia|auto]|destruct (Nat.eq_dec k k); [auto|lia]].
    + intros i Hi. apply in_seq in Hi. unfold uv. rewrite nth_replace by (rewrite half_length; lia).
      destruct (Nat.eq_dec i k) as [->|].
      * rewrite nth_half_widths. cbn [fst snd]. lra.
      * rewrite nth_half by lia. cbn [fst snd]. lra.
  - apply (Rprod_zero _ _ k); [lia|]. unfold uv. destruct (Nat.eq_dec k m); [lia|].
    rewrite nth_replace by (rewrite half_length; lia). destruct (Nat.eq_dec k k); [|lia]. cbn [fst snd]. lra.
Qed.

(* ------------------------------------------------------------------ the Jacobian determinant of a box *)
Lemma det_zero_row n : forall M, (1 <= n)%nat -> (forall j, (j < n)%nat -> nth j (hd [] M) 0 = 0) -> det n M = 0.
Proof.
  intros M Hn H. destruct n as [|n]; [lia|]. destruct M as [|r rows]; auto. cbn [det hd] in *.
  rewrite (Rsum_map_ext _ (fun _ => 0)).
  - induction (seq 0 (S n)); cbn; lra.
  - intros j Hj. apply in_seq in Hj. rewrite H by lia. ring.
Qed.
Lemma det_diag_rows ds : det (length ds) (diag_rows ds) = Rprod ds.
Proof.
  induction ds as [|d ds IH]; [reflexivity|]. unfold diag_rows. cbn [length].
  change (seq 0 (S (length ds))) with (0%nat :: seq 1 (length ds)). cbn [map det]. 
  change (seq 0 (S (length ds))) with (0%nat :: seq 1 (length ds)). cbn [map Rsum].
  rewrite (Rsum_map_ext _ (fun _ => 0) (seq 1 (length ds))).
  - assert (Z : Rsum (map (fun _ => 0) (seq 1 (length ds))) = 0) by (induction (seq 1 (length ds)); cbn; lra). rewrite Z.
    cbn [nth pow]. destruct (Nat.eq_dec 0 0); [|lia]. cbn [Rprod].
    replace (det (length ds) _) with (det (length ds) (diag_rows ds)); [rewrite IH; cbn; ring|]. f_equal.
    unfold diag_rows. rewrite <- seq_shift, !map_map. apply map_ext. intros k. unfold drop_nth. cbn [firstn skipn map].
    change ([] ++ ?l) with l. rewrite map_map. apply map_ext. intros m.
    destruct (Nat.eq_dec k m), (Nat.eq_dec (S k) (S m)); auto; lia.
  - intros j Hj. apply in_seq in Hj. destruct j as [|j]; [lia|]. cbn [nth].
    assert (E : nth j (map (fun m => if Nat.eq_dec 0 m then d else 0) (seq 1 (length ds))) 0 = 0).
    { destruct (Nat.lt_ge_cases j (length (map (fun m => if Nat.eq_dec 0 m then d else 0) (seq 1 (length ds))))) as [L|L].
      - assert (I := nth_In _ 0 L). apply in_map_iff in I. destruct I as [m [<- Hm]]. apply in_seq in Hm. destruct (Nat.eq_dec 0 m); [lia|auto].
      - apply nth_overflow. auto. }
    cbn [nth] in E |- *. rewrite E. ring.
Qed.
Lemma half_widths_length lim : length (half_widths lim) = length lim.
Proof. apply map_length. Qed.
Lemma get_detJ_box lim xi : length xi = length lim -> lim <> [] ->
  get_detJ xi (ncube_points lim) = Some (Rprod (half_widths lim)).
Proof.
  intros H Hne. unfold get_detJ. rewrite H.
  replace (map (jac_row xi (ncube_points lim)) (seq 0 (length lim))) with (map Some (diag_rows (half_widths lim))).
  - rewrite opt_all_some. cbn [bind]. f_equal. rewrite <- (half_widths_length lim). apply det_diag_rows.
  - unfold diag_rows. rewrite half_widths_length, map_map. apply map_ext_in. intros k Hk. apply in_seq in Hk.
    symmetry. apply jac_row_box; auto; lia.
Qed.

(* ------------------------------------------------------------------ integrals over boxes by substitution *)
Definition hax (ak : R * R * nat) : R :=
  RInt (fun y => ((fst (fst ak) + snd (fst ak)) / 2 + (snd (fst ak) - fst (fst ak)) / 2 * y) ^ snd ak) (-1) 1.
Lemma hax_cont a b e (y : R) : continuous (fun y : R => ((a + b) / 2 + (b - a) / 2 * y) ^ e) y.
Proof. apply (ex_derive_continuous (fun y : R => ((a + b) / 2 + (b - a) / 2 * y) ^ e)). auto_derive. auto. Qed.
Lemma is_RInt_hax a b e : is_RInt (fun y => ((a + b) / 2 + (b - a) / 2 * y) ^ e) (-1) 1 (hax (a, b, e)).
Proof. apply (RInt_correct (V := R_CompleteNormedModule)). apply (ex_RInt_continuous (V := R_CompleteNormedModule)). intros y _. apply hax_cont. Qed.
Lemma hax_axis a b e : (b - a) / 2 * hax (a, b, e) = axis_int (a, b, e).
Proof.
  assert (H := is_RInt_pow e a b).
  assert (E : is_RInt (fun y : R => scal ((b - a) / 2) (((b - a) / 2 * y + (a + b) / 2) ^ e)) (-1) 1 ((b ^ S e - a ^ S e) / INR (S e))).
  { apply (is_RInt_comp_lin (V := R_NormedModule) (fun x => x ^ e) ((b - a) / 2) ((a + b) / 2) (-1) 1).
    replace ((b - a) / 2 * -1 + (a + b) / 2) with a by lra. replace ((b - a) / 2 * 1 + (a + b) / 2) with b by lra. exact H. }
  assert (G := is_RInt_scalR _ _ _ ((b - a) / 2) _ (is_RInt_hax a b e)).
  unfold axis_int. cbn [fst snd]. rewrite Nat.add_1_r. assert (E' := is_RInt_unique (V := R_CompleteNormedModule) _ _ _ _ E). assert (G' := is_RInt_unique (V := R_CompleteNormedModule) _ _ _ _ G).
  transitivity (RInt (fun x => (b - a) / 2 * ((a + b) / 2 + (b - a) / 2 * x) ^ e) (-1) 1); [symmetry; exact G'|].
  etransitivity; [|exact E']. apply RInt_ext. intros y _. unfold scal; cbn -[pow]; unfold mult; cbn -[pow]. f_equal. f_equal. ring.
Qed.
Lemma iter_mpeval (J : R * R -> nat -> R) (U : R * R -> R -> R) (Iint : list (R * R) -> (point -> R) -> R)
  (M : list (R * R) -> point -> point) (lo hi : R * R -> R) :
  (forall f, Iint [] f = f []) ->
  (forall e lim f, Iint (e :: lim) f = RInt (fun t => Iint lim (fun xs => f (t :: xs))) (lo e) (hi e)) ->
  (forall lim f g, (forall x, length x = length lim -> f x = g x) -> Iint lim f = Iint lim g) ->
  (M [] [] = []) -> (forall e lim t xs, M (e :: lim) (t :: xs) = U e t :: M lim xs) ->
  (forall e a, is_RInt (fun t => U e t ^ a) (lo e) (hi e) (J e a)) ->
  forall lim p, List.Forall (fun ck => length (snd ck) = length lim) p ->
  Iint lim (fun x => mpeval p (M lim x)) = Rsum (map (fun ck => fst ck * Rprod (map (fun e => J (fst e) (snd e)) (List.combine lim (snd ck)))) p).
Proof.
  intros H0 HS Hext M0 MS HJ lim. induction lim as [|e lim IH]; intros p Hp.
  - rewrite H0, M0. unfold mpeval. apply Rsum_map_ext. intros [c k] Hk.
    rewrite Forall_forall in Hp. apply Hp in Hk. destruct k; [|discriminate]. reflexivity.
  - rewrite HS.
    rewrite (RInt_ext _ (fun t => Rsum (map (fun ck => (fst ck * Rprod (map (fun e => J (fst e) (snd e)) (List.combine lim (tl (snd ck))))) * U e t ^ hd 0%nat (snd ck)) p))).
    + rewrite (RInt_Rsum _ (fun ck => (fst ck * Rprod (map (fun e => J (fst e) (snd e)) (List.combine lim (tl (snd ck))))) * J e (hd 0%nat (snd ck)))).
      * apply Rsum_map_ext. intros [c k] Hk. rewrite Forall_forall in Hp. apply Hp in Hk. destruct k; [discriminate|]. cbn. ring.
      * intros ck _. apply is_RInt_scalR. apply HJ.
    + intros t _. rewrite (Hext _ _ (fun x => mpeval (map (fun ck => (fst ck * U e t ^ hd 0%nat (snd ck), tl (snd ck))) p) (M lim x))).
      * rewrite IH.
        -- rewrite map_map. apply Rsum_map_ext. intros [c k] _. cbn [fst snd]. ring.
        -- apply Forall_forall. intros ck Hc. apply in_map_iff in Hc. destruct Hc as [[c k] [<- Hc]]. cbn [snd].
           rewrite Forall_forall in Hp. apply Hp in Hc. destruct k; [discriminate|]. cbn in *. lia.
      * intros x _. rewrite MS. unfold mpeval. rewrite map_map. apply Rsum_map_ext. intros [c k] Hk.
        rewrite Forall_forall in Hp. apply Hp in Hk. destruct k; [discriminate|]. cbn. ring.
Qed.
Lemma box_int_mpeval lim p : List.Forall (fun ck => length (snd ck) = length lim) p ->
  box_int lim (mpeval p) = Rsum (map (fun ck => fst ck * Rprod (map axis_int (List.combine lim (snd ck)))) p).
Proof.
  intros Hp. assert (H := iter_mpeval (fun e a => axis_int (e, a)) (fun _ t => t) box_int (fun _ x => x) fst snd).
  refine (eq_trans (H _ _ _ _ _ _ lim p Hp) _); auto.
  - intros [a b] l f. auto.
  - exact box_int_ext.
  - intros [a b] e. unfold axis_int. cbn [fst snd]. rewrite Nat.add_1_r. apply is_RInt_pow.
Qed.
Lemma cube_int_box lim p : List.Forall (fun ck => length (snd ck) = length lim) p ->
  cube_int (length lim) (fun x => mpeval p (box_map lim x)) =
  Rsum (map (fun ck => fst ck * Rprod (map hax (List.combine lim (snd ck)))) p).
Proof.
  intros Hp. assert (H := iter_mpeval (fun e a => hax (e, a)) (fun e t => (fst e + snd e) / 2 + (snd e - fst e) / 2 * t) (fun l => cube_int (length l)) box_map (fun _ => -1) (fun _ => 1)).
  refine (eq_trans (H _ _ _ _ _ _ lim p Hp) _); auto.
  - intros l f g Hfg. apply cube_int_ext. auto.
  - intros [a b] e. apply is_RInt_hax.
Qed.
Lemma hax_axis_prod lim : forall k, length k = length lim ->
  Rprod (half_widths lim) * Rprod (map hax (List.combine lim k)) = Rprod (map axis_int (List.combine lim k)).
Proof.
  induction lim as [|[a b] lim IH]; intros [|e k] H; try discriminate; [cbn; ring|]. cbn [List.combine map half_widths Rprod].
  rewrite <- IH by (cbn in H; lia). rewrite <- hax_axis. cbn [fst snd]. unfold half_widths. ring.
Qed.
Theorem box_substitution lim p : List.Forall (fun ck => length (snd ck) = length lim) p ->
  box_int lim (mpeval p) = Rprod (half_widths lim) * cube_int (length lim) (fun x => mpeval p (box_map lim x)).
Proof.
  intros Hp. rewrite box_int_mpeval, cube_int_box by auto. rewrite <- Rsum_map_scal. apply Rsum_map_ext. intros ck Hc.
  rewrite <- hax_axis_prod; [ring|]. rewrite Forall_forall in Hp. auto.
Qed.

(* ------------------------------------------------------------------ integrate over a box *)
Lemma opt_all_map {A B} (f : A -> option B) g l : (forall x, In x l -> f x = Some (g x)) -> opt_all (map f l) = Some (map g l).
Proof.
  induction l as [|x l IH]; intros H; auto. cbn [map opt_all]. rewrite H by (left; auto). cbn [bind]. rewrite IH; [auto|]. intros; apply H; right; auto.
Qed.
Lemma cn_integrate_box lim q f extra : lim <> [] -> points_in_dim (length lim) q ->
  cn_integrate (length lim) extra q f (ncube_points lim) =
  Some (2 ^ (length lim + extra) * (Rabs (Rprod (half_widths lim)) * apply q (fun x => f (box_map lim x)))).
Proof.
  intros Hne Hq. unfold cn_integrate. rewrite (opt_all_map _ (fun wp => f (box_map lim (snd wp)) * Rabs (Rprod (half_widths lim)) * fst wp)).
  - cbn [bind]. f_equal. f_equal. unfold apply. rewrite <- Rsum_map_scal. apply Rsum_map_ext. intros; ring.
  - intros wp Hin. unfold points_in_dim in Hq. rewrite Forall_forall in Hq. rewrite transform_box by auto. cbn [bind].
    rewrite get_detJ_box by auto. auto.
Qed.
Lemma nth_map_seq {A} (f : nat -> A) n d : forall i, (i < n)%nat -> nth i (map f (seq 0 n)) d = f i.
Proof.
  intros i Hi. rewrite (nth_indep _ d (f 0%nat)) by (rewrite map_length, seq_length; auto). rewrite map_nth, seq_nth; auto.
Qed.
Lemma box_coords n lim : length lim = n -> exists L, length L = n /\ List.Forall (polyfun n 1) L /\
  forall x, length x = n -> box_map lim x = map (fun l => l x) L.
Proof.
  intros Hn. exists (map (fun i x => (fst (nth i lim (0, 0)) + snd (nth i lim (0, 0))) / 2 + (snd (nth i lim (0, 0)) - fst (nth i lim (0, 0))) / 2 * nth i x 0) (seq 0 n)).
  split; [rewrite map_length, seq_length; auto|]. split.
  - apply Forall_forall. intros l Hl. apply in_map_iff in Hl. destruct Hl as [i [<- Hi]]. apply in_seq in Hi.
    apply polyfun_add; [apply polyfun_const|]. apply polyfun_scal. apply polyfun_coord. lia.
  - intros x Hx. rewrite map_map. apply (nth_ext _ _ 0 0).
    + unfold box_map. rewrite !map_length, combine_length, seq_length. lia.
    + intros i Hi. assert (Hi' : (i < n)%nat) by (unfold box_map in Hi; rewrite map_length, combine_length in Hi; lia).
      rewrite nth_box_map by lia. symmetry. apply (nth_map_seq (fun i => (fst (nth i lim (0, 0)) + snd (nth i lim (0, 0))) / 2 + (snd (nth i lim (0, 0)) - fst (nth i lim (0, 0))) / 2 * nth i x 0)). auto.
Qed.
Lemma half_widths_nonneg lim : List.Forall (fun e => fst e <= snd e) lim -> 0 <= Rprod (half_widths lim).
Proof. induction 1 as [|[a b] lim H _ IH]; cbn; [lra|]. cbn in H. apply Rmult_le_pos; auto. lra. Qed.
Theorem cn_integrate_exact lim d q p : lim <> [] -> List.Forall (fun e => fst e <= snd e) lim ->
  exact (length lim) d (fun k => cube_mean (length lim) (mono k)) q -> mp_ok (length lim) d p ->
  cn_integrate (length lim) 0 q (mpeval p) (ncube_points lim) = Some (box_int lim (mpeval p)).
Proof.
  intros Hne Hlim Hq Hp. rewrite cn_integrate_box by (auto; apply Hq). f_equal. rewrite Nat.add_0_r.
  rewrite Rabs_right by (apply Rle_ge, half_widths_nonneg; auto).
  rewrite box_substitution by (eapply Forall_impl; [|exact Hp]; cbn; tauto).
  destruct (box_coords (length lim) lim eq_refl) as (L & HL & HL1 & HLe).
  destruct (polyfun_comp (length lim) (length lim) d L (mpeval p) HL HL1 (polyfun_mpeval _ _ _ Hp)) as [p' [Hp' E]].
  rewrite (apply_polyfun_ext (length lim) q _ (mpeval p')) by (try apply Hq; intros x Hx; rewrite HLe by auto; apply E; auto).
  rewrite (cube_exact_poly (length lim) d q p') by auto.
  rewrite (cube_int_ext _ (fun x => mpeval p (box_map lim x)) (mpeval p')) by (intros x Hx; rewrite HLe by auto; apply E; auto).
  unfold cube_mean. field. apply pow_nonzero. lra.
Qed.

(* ------------------------------------------------------------------ arbitrary corner arrays *)
Definition wsum (ws vals : list R) : R := Rsum (map (fun e => fst e * snd e) (List.combine ws vals)).
Lemma wsum_app l1 l2 vals : wsum (l1 ++ l2) vals = wsum l1 (firstn (length l1) vals) + wsum l2 (skipn (length l1) vals).
Proof.
  revert vals. induction l1 as [|x l1 IH]; intros vals; [unfold wsum; cbn; ring|]. destruct vals as [|v vals].
  - unfold wsum. cbn. destruct l2; cbn; ring.
  - specialize (IH vals). unfold wsum in *. cbn. rewrite IH. ring.
Qed.
Lemma wsum_scal c l : forall vals, wsum (map (Rmult c) l) vals = c * wsum l vals.
Proof. induction l as [|x l IH]; intros [|v vals]; unfold wsum in *; cbn; try ring. rewrite IH. ring. Qed.
Lemma wsum_bilinear uv : forall k vals, (k < length uv)%nat -> exists A B, forall u v,
  wsum (outer_all (pairs (replace_nth k (u, v) uv))) vals = u * A + v * B.
Proof.
  induction uv as [|[u0 v0] uv IH]; intros k vals Hk; [cbn in Hk; lia|]. destruct k as [|k].
  - set (N := length (outer_all (pairs uv))). exists (wsum (outer_all (pairs uv)) (firstn N vals)), (wsum (outer_all (pairs uv)) (skipn N vals)).
    intros u v. cbn [replace_nth pairs map fst snd outer_all flat_map]. fold (pairs uv). rewrite app_nil_r, wsum_app, map_length, !wsum_scal. fold N. ring.
  - cbn [length] in Hk. set (N := (2 ^ length uv)%nat).
    destruct (IH k (firstn N vals) ltac:(lia)) as (A1 & B1 & E1). destruct (IH k (skipn N vals) ltac:(lia)) as (A2 & B2 & E2).
    exists (u0 * A1 + v0 * A2), (u0 * B1 + v0 * B2). intros u v.
    cbn [replace_nth pairs map fst snd outer_all flat_map]. fold (pairs (replace_nth k (u, v) uv)).
    rewrite app_nil_r, wsum_app, map_length, !wsum_scal. rewrite outer_pairs_length, replace_nth_length. fold N. rewrite E1, E2. ring.
Qed.
Lemma tensordot_nth ws cs m : (m < length (hd [] cs))%nat -> nth m (tensordot ws cs) 0 = wsum ws (map (fun c => nth m c 0) cs).
Proof.
  intros H. unfold tensordot. rewrite (nth_map_seq (fun m => Rsum (map (fun e => fst e * nth m (snd e) 0) (List.combine ws cs)))) by auto. clear H.
  unfold wsum. revert cs. induction ws as [|w ws IH]; intros [|c cs]; cbn; auto. f_equal. apply IH.
Qed.
Lemma half_replace k t xi : half (replace_nth k t xi) = replace_nth k (0.5 * (1.0 - t), 0.5 * (1.0 + t)) (half xi).
Proof. unfold half. rewrite <- (replace_nth_map (fun x => (0.5 * (1.0 - x), 0.5 * (1.0 + x)))). auto. Qed.
Lemma replace_nth_ne {A} k (v : A) l : l <> [] -> replace_nth k v l <> [].
Proof. destruct l; [congruence|]. destruct k; cbn; congruence. Qed.
Lemma transform_value xi cube : xi <> [] -> transform xi cube = Some (tensordot (outer_all (pairs (half xi))) cube).
Proof.
  intros H. unfold transform. rewrite one_mp_pairs, n_outer_all; auto. destruct xi; [congruence|]. discriminate.
Qed.
Lemma jac_row_value xi cube k : xi <> [] -> jac_row xi cube k = Some (tensordot (outer_all (pairs (replace_nth k (-0.5, 0.5) (half xi)))) cube).
Proof.
  intros H. unfold jac_row. rewrite one_mp_pairs. unfold pairs.
  change [-0.5; 0.5] with ((fun e : R * R => [fst e; snd e]) (-0.5, 0.5)). rewrite replace_nth_map. rewrite n_outer_all; auto.
  destruct xi; [congruence|]. destruct k; cbn; congruence.
Qed.
Theorem jac_row_derive xi cube k m : (k < length xi)%nat -> (m < length (hd [] cube))%nat ->
  exists row, jac_row xi cube k = Some row /\
    is_derive (fun t => match transform (replace_nth k t xi) cube with Some x => nth m x 0 | None => 0 end) (nth k xi 0) (nth m row 0).
Proof.
  intros Hk Hm. assert (Hne : xi <> []) by (destruct xi; [cbn in Hk; lia|congruence]).
  rewrite jac_row_value by auto. eexists. split; [reflexivity|]. rewrite tensordot_nth by auto.
  destruct (wsum_bilinear (half xi) k (map (fun c => nth m c 0) cube) ltac:(rewrite half_length; auto)) as (A & B & E). rewrite E.
  apply (is_derive_ext (fun t => 0.5 * (1.0 - t) * A + 0.5 * (1.0 + t) * B)).
  - intros t. rewrite transform_value by (apply replace_nth_ne; auto). rewrite tensordot_nth by auto. rewrite half_replace, E. auto.
  - auto_derive; auto. lra.
Qed.
(** Binary number of a corner, most significant bit first. *)
Fixpoint corner_index (bits : list bool) : nat :=
  match bits with [] => 0%nat | b :: bits' => ((if b then 2 ^ length bits' else 0) + corner_index bits')%nat end.
Definition corner_xi (bits : list bool) : point := map (fun b : bool => if b then 1 else -1) bits.
Lemma wsum_zero l : forall vals, wsum (map (Rmult 0) l) vals = 0.
Proof. intros. rewrite wsum_scal. ring. Qed.
Lemma nth_firstn_lt {A} (l : list A) d : forall n i, (i < n)%nat -> nth i (firstn n l) d = nth i l d.
Proof. induction l as [|x l IH]; intros [|n] [|i] H; cbn; auto; try lia. apply IH. lia. Qed.
Lemma nth_skipn' {A} (l : list A) d : forall n i, nth i (skipn n l) d = nth (n + i) l d.
Proof. induction l as [|x l IH]; intros [|n] i; cbn; auto. destruct i; auto. Qed.
Lemma corner_index_lt bits : (corner_index bits < 2 ^ length bits)%nat.
Proof. induction bits as [|[] bits IH]; cbn; lia. Qed.
Lemma wsum_corner bits : forall vals, (length vals = 2 ^ length bits)%nat ->
  wsum (outer_all (pairs (half (corner_xi bits)))) vals = nth (corner_index bits) vals 0.
Proof.
  induction bits as [|b bits IH]; intros vals H.
  - destruct vals as [|v [|]]; try discriminate. unfold wsum. cbn. ring.
  - cbn [corner_xi map half pairs outer_all flat_map fst snd corner_index]. fold (corner_xi bits). fold (half (corner_xi bits)). fold (pairs (half (corner_xi bits))).
    assert (L : length (outer_all (pairs (half (corner_xi bits)))) = (2 ^ length bits)%nat).
    { rewrite outer_pairs_length, half_length. unfold corner_xi. rewrite map_length. auto. }
    rewrite app_nil_r, wsum_app, map_length, !wsum_scal, L. cbn [length] in H.
    replace (2 ^ S (length bits))%nat with (2 ^ length bits + 2 ^ length bits)%nat in H by (cbn; lia).
    assert (Hc := corner_index_lt bits). rewrite !IH by (rewrite ?firstn_length, ?skipn_length; lia).
    rewrite nth_skipn', nth_firstn_lt by auto. destruct b; cbn [Nat.add]; lra.
Qed.
Theorem transform_corner bits (cube : list point) d : bits <> [] -> length cube = (2 ^ length bits)%nat -> List.Forall (fun c : point => length c = d) cube ->
  transform (corner_xi bits) cube = Some (nth (corner_index bits) cube []).
Proof.
  intros Hne Hl Hd. rewrite transform_value by (destruct bits; [congruence|discriminate]). f_equal.
  assert (Hc := corner_index_lt bits). assert (Hn : length (nth (corner_index bits) cube []) = d).
  { rewrite Forall_forall in Hd. apply Hd. apply nth_In. lia. }
  assert (Hh : length (hd [] cube) = d).
  { destruct cube as [|c cube]; [cbn in Hl; lia|]. inversion Hd; auto. }
  apply (nth_ext _ _ 0 0).
  - unfold tensordot. rewrite map_length, seq_length. congruence.
  - intros m Hm. unfold tensordot in Hm. rewrite map_length, seq_length in Hm. rewrite tensordot_nth by auto.
    rewrite wsum_corner by (rewrite map_length; auto).
    rewrite (nth_indep (map (fun c : point => nth m c 0) cube) 0 ((fun c : point => nth m c 0) [])) by (rewrite map_length; unfold point in *; lia). rewrite (map_nth (fun c : point => nth m c 0)). auto.
Qed.
Lemma corner_of_box lim : forall bits, length bits = length lim ->
  nth (corner_index bits) (ncube_points lim) [] = map (fun e => if snd e : bool then snd (fst e) else fst (fst e)) (List.combine lim bits).
Proof.
  induction lim as [|[a b] lim IH]; intros [|t bits] H; try discriminate; [reflexivity|]. cbn [corner_index ncube_points List.combine map fst snd].
  assert (H' : length bits = length lim) by (cbn in H; lia). assert (Hc := corner_index_lt bits). assert (Hl := corners_length lim).
  rewrite <- H' in Hl. 
  assert (La : forall c : R, length (map (cons c) (ncube_points lim)) = (2 ^ length bits)%nat) by (intros c; etransitivity; [apply map_length|exact Hl]).
  destruct t.
  - rewrite app_nth2 by (rewrite La; lia). rewrite La.
    replace (2 ^ length bits + corner_index bits - 2 ^ length bits)%nat with (corner_index bits) by lia.
    rewrite (nth_indep _ [] (b :: [])) by (rewrite La; lia). rewrite (map_nth (cons b)). rewrite <- IH by auto. reflexivity.
  - cbn [Nat.add]. rewrite app_nth1 by (rewrite La; lia).
    rewrite (nth_indep _ [] (a :: [])) by (rewrite La; lia). rewrite (map_nth (cons a)). rewrite <- IH by auto. reflexivity.
Qed.
