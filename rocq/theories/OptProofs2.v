(** Proofs for C52: the triangle, the command, and the contracts can be met. *)
From Coq Require Import Reals List Arith Lia Lra Bool String ClassicalEpsilon.
From Verif Require Import Spec RsumLemmas PyBase SymmModel OrbitModel SchemeTools SymmProofs T2Model GoodModel GoodProofs OptModel OptSpec OptProofs.
Import ListNotations.
Set Bullet Behavior "Strict Subproofs".
Local Notation length := List.length.
Local Notation concat := List.concat.
Local Notation combine := List.combine.
Open Scope R_scope.
Open Scope string_scope.
Open Scope list_scope.

(* --- the keys of the triangle *)
Lemma t2_orb_length k c : length (t2_orb k c) = length (t2_orb k []).
Proof. unfold t2_orb. destruct (lookup key_table k); [apply orbit_length|reflexivity]. Qed.
Lemma shape_same rows rows' s : shape_of rows = Some s -> shape_of rows' = Some s -> map (fun r => length r) rows = map (fun r => length r) rows'.
Proof.
  intros E E'. assert (G : forall rs t, shape_of rs = Some t -> map (fun r : list R => length r) rs = match t with Empty => [] | Grid m n => repeat n m end).
  { clear. intros [|r rs] t E; cbn in E; [injection E as <-; reflexivity|].
    destruct ((length r =? length r)%nat && _)%bool eqn:B; [|discriminate]. injection E as <-. apply andb_prop in B. destruct B as [_ B].
    cbn. f_equal. induction rs as [|r' rs IH]; [reflexivity|]. cbn in B |- *. apply andb_prop in B. destruct B as [B1 B2]. apply Nat.eqb_eq in B1. rewrite B1, IH; auto. }
  rewrite (G _ _ E), (G _ _ E'). reflexivity.
Qed.
Lemma key_cols_lengths k d rows rows' : map (fun r : list R => length r) rows = map (fun r => length r) rows' ->
  option_map (fun c => length c) (key_cols k d rows) = option_map (fun c => length c) (key_cols k d rows').
Proof.
  intros H. unfold key_cols. destruct (arity k d) as [|ar]; [reflexivity|].
  assert (L : length rows = length rows') by (apply (f_equal (fun l => length l)) in H; rewrite !map_length in H; auto). rewrite L.
  assert (Nv : match rows with [] => 1%nat | r :: _ => length r end = match rows' with [] => 1%nat | r :: _ => length r end).
  { destruct rows, rows'; cbn in H; try discriminate; auto. injection H; auto. }
  rewrite Nv. set (nv := match rows' with [] => 1%nat | r :: _ => length r end).
  assert (F : forall rs : list (list R), forallb (fun r => (length r =? nv)%nat) rs = forallb (fun m => (m =? nv)%nat) (map (fun r => length r) rs)).
  { clear. induction rs; cbn; auto. rewrite IHrs. reflexivity. }
  rewrite !F, H. destruct (_ && _)%bool; [|reflexivity]. cbn. unfold columns. rewrite !map_length. reflexivity.
Qed.
Lemma t2_cols_length k rows rows' s : shape_of rows = Some s -> shape_of rows' = Some s ->
  option_map (fun c => length c) (t2_cols k rows) = option_map (fun c => length c) (t2_cols k rows').
Proof.
  intros E E'. unfold t2_cols. destruct (lookup key_table k); [|reflexivity]. cbn [bind]. apply key_cols_lengths. eapply shape_same; eauto.
Qed.
Lemma t2_points data : gen_points_only t2_cols t2_orb data = let! d := resolve key_table data in gen_points_only (fun k => key_cols k 3) (fun k => orbit k 3) d.
Proof.
  induction data as [|[k rows] data IH]; [reflexivity|]. cbn [gen_points_only resolve]. rewrite IH. unfold gen_key_points, t2_cols, t2_orb.
  destruct (lookup key_table k) as [kk|]; [|reflexivity]. cbn [bind].
  destruct (resolve key_table data) as [d|]; cbn [bind gen_points_only]; [reflexivity|]. destruct (key_cols kk 3 rows); reflexivity.
Qed.
Lemma resolve_map {B U V} (tbl : list (string * B)) (g : U -> V) data :
  resolve tbl (map (fun kv => (fst kv, g (snd kv))) data) = let! d := resolve tbl data in Some (map (fun kv => (fst kv, g (snd kv))) d).
Proof.
  induction data as [|[k v] data IH]; [reflexivity|]. cbn [map fst snd resolve]. destruct (SymmModel.lookup tbl k); [|reflexivity]. cbn [bind].
  rewrite IH. destruct (resolve tbl data); reflexivity.
Qed.
Lemma resolve_snd {B V} (tbl : list (string * B)) (data : list (string * V)) d : resolve tbl data = Some d -> map snd d = map snd data.
Proof.
  revert d. induction data as [|[k v] data IH]; intros d E; cbn [resolve] in E; [injection E as <-; reflexivity|].
  destruct (SymmModel.lookup tbl k); [|discriminate]. cbn [bind] in E. destruct (resolve tbl data) as [d1|]; [|discriminate]. injection E as <-. cbn. rewrite (IH d1 eq_refl). reflexivity.
Qed.
Lemma t2_expand data : gen_expand t2_cols t2_orb data = expand_symmetries_str data 3.
Proof.
  unfold expand_symmetries_str, expand_symmetries, gen_expand. rewrite t2_points.
  rewrite (resolve_map key_table (fun v : list R * list (list R) => snd v) data).
  destruct (resolve key_table data) as [d|] eqn:E; [|reflexivity]. cbn [bind].
  destruct (gen_points_only _ _ _) as [pc|]; [|reflexivity]. cbn [bind]. f_equal. f_equal. f_equal. f_equal. f_equal.
  apply resolve_snd in E. transitivity (map fst (map snd data)); [rewrite map_map; reflexivity|]. rewrite <- E, map_map. reflexivity.
Qed.

(* --- dictionaries *)
Lemma get_cons k v c k' : get ((k, v) :: c) k' = if String.eqb k k' then Some v else get c k'.
Proof. unfold get, lookup. cbn [find fst]. destruct (String.eqb k k'); reflexivity. Qed.
Lemma get_put c k v k' : get (put c k v) k' = if String.eqb k k' then Some v else get c k'.
Proof.
  induction c as [|[k1 v1] c IH]; cbn [put]; [rewrite get_cons; reflexivity|].
  destruct (String.eqb_spec k1 k) as [->|N]; rewrite !get_cons.
  - destruct (String.eqb k k'); reflexivity.
  - rewrite IH. destruct (String.eqb_spec k1 k') as [->|]; [|reflexivity]. destruct (String.eqb_spec k k'); [congruence|reflexivity].
Qed.
Lemma get_app c c' k : get (c ++ c') k = match get c k with Some v => Some v | None => get c' k end.
Proof. induction c as [|[k1 v1] c IH]; [reflexivity|]. rewrite <- app_comm_cons, !get_cons. destruct (String.eqb k1 k); auto. Qed.
Lemma get_filter c k k' : get (filter (fun kv => negb (String.eqb (fst kv) k)) c) k' = if String.eqb k k' then None else get c k'.
Proof.
  induction c as [|[k1 v1] c IH]; [cbn; destruct (String.eqb k k'); reflexivity|]. cbn [filter fst].
  destruct (String.eqb_spec k1 k) as [->|N]; cbn [negb]; rewrite ?get_cons, IH.
  - destruct (String.eqb k k'); reflexivity.
  - destruct (String.eqb_spec k1 k') as [->|]; [|reflexivity]. destruct (String.eqb_spec k k'); [congruence|reflexivity].
Qed.
Lemma data_last_get c c' : data_last c = Some c' -> (forall k, get c' k = get c k) /\ last (map fst c') "" = "data".
Proof.
  unfold data_last. destruct (String.eqb_spec (last (map fst c) "") "data") as [E|E].
  - intros H. injection H as <-. auto.
  - destruct (get c "data") as [v|] eqn:G; [|discriminate]. cbn [bind]. intros H. injection H as <-. split.
    + intros k. rewrite get_app, get_filter. destruct (String.eqb_spec "data" k) as [<-|N]; [rewrite G; reflexivity|].
      destruct (get c k); [reflexivity|]. rewrite get_cons. apply String.eqb_neq in N. rewrite N. reflexivity.
    + rewrite map_app. cbn [map fst]. apply last_last.
Qed.
Lemma add_comment_get c c' : add_comment c = Some c' -> (forall k, k <> "comments" -> get c' k = get c k) /\
  exists l, get c' "comments" = Some (Texts l) /\ In note l /\
    ((get c "comments" = Some (Texts l) /\ c' = c) \/ (get c "comments" = None /\ l = [note]) \/ exists l0, get c "comments" = Some (Texts l0) /\ ~ In note l0 /\ l = (l0 ++ [note])%list).
Proof.
  unfold add_comment. intros H.
  assert (X : forall l0, existsb (String.eqb note) l0 = true <-> In note l0).
  { intros l0. rewrite existsb_exists. split; [intros [x [Hx E]]; apply String.eqb_eq in E; subst; auto|]. intros Hx. exists note. split; [exact Hx|reflexivity]. }
  destruct (get c "comments") as [[| | | |l0]|] eqn:G; cbn [bind] in H; try discriminate.
  - destruct (existsb (String.eqb note) l0) eqn:B; injection H as <-.
    + split; auto. exists l0. split; auto. split; [apply X; auto|auto].
    + split; [intros k N; rewrite get_put; destruct (String.eqb_spec "comments" k); [congruence|reflexivity]|].
      exists (l0 ++ [note])%list. rewrite get_put. split; [reflexivity|]. split; [apply in_or_app; right; left; reflexivity|]. right. right. exists l0. repeat split; auto. rewrite <- X. congruence.
  - cbn [existsb] in H. injection H as <-. split; [intros k N; rewrite get_put; destruct (String.eqb_spec "comments" k); [congruence|reflexivity]|].
    exists [note]. rewrite get_put. split; [reflexivity|]. split; [left; reflexivity|]. right. left. auto.
Qed.
Lemma unscale_scaled c w d d' : get c "weight factor" = Some (Number w) -> unscale c d = Some d' -> d = scaled w d'.
Proof.
  intros G. unfold unscale. rewrite G. revert d'. induction d as [|[k [ws rows]] d IH]; intros d' E; cbn [mapM] in E; [injection E as <-; reflexivity|].
  cbn [fst snd] in E. destruct (mapM (fun v => rdiv v w) ws) as [us|] eqn:Eu; [|discriminate]. cbn [bind] in E.
  destruct (mapM _ d) as [d1|]; [|discriminate]. injection E as <-. cbn [scaled map fst snd]. rewrite (IH d1 eq_refl) at 1. f_equal. f_equal. f_equal.
  clear - Eu. revert us Eu. induction ws as [|v ws IH]; intros us E; cbn [mapM] in E; [injection E as <-; reflexivity|].
  unfold rdiv in E at 1. destruct (Req_EM_T w 0) as [|N]; [discriminate|]. cbn [bind] in E. destruct (mapM _ ws) as [us1|]; [|discriminate]. injection E as <-.
  cbn [map]. rewrite <- (IH us1 eq_refl). f_equal. field. exact N.
Qed.
Lemma t2_scheme_scaled w d n : t2_scheme (scaled w d) n = let! s := t2_scheme d n in Some (scale_scheme (Some w) s).
Proof.
  unfold t2_scheme. rewrite <- !t2_expand, gen_expand_scaled. destruct (gen_expand t2_cols t2_orb d) as [pw|]; [|reflexivity]. cbn [bind]. rewrite mk_rule_scaled. reflexivity.
Qed.

(* --- the contract of lstsq can be met *)
Definition axpy (t : R) (u w : list R) : list R := map (fun ab => snd ab + t * fst ab) (combine u w).
Lemma axpy_length t u w : length u = length w -> length (axpy t u w) = length w.
Proof. intros H. unfold axpy. rewrite map_length, combine_length. lia. Qed.
Lemma dot_axpy t a u w : length u = length w -> dot a (axpy t u w) = dot a w + t * dot a u.
Proof.
  unfold dot, axpy. revert u w. induction a as [|x a IH]; intros [|y u] [|z w] H; cbn in H |- *; try discriminate; try ring.
  rewrite IH by lia. ring.
Qed.
Lemma dot_cons x a t c : dot (x :: a) (t :: c) = x * t + dot a c.
Proof. reflexivity. Qed.
Lemma Rsum_lin {A} (f g : A -> R) s t X : Rsum (map (fun x => s * f x + t * g x) X) = s * Rsum (map f X) + t * Rsum (map g X).
Proof. induction X; cbn; [ring|]. rewrite IHX. ring. Qed.
Lemma Rsum_sq_zero {A} (e : A -> R) X : Rsum (map (fun x => e x * e x) X) = 0 -> forall x, In x X -> e x = 0.
Proof.
  assert (P : forall l, 0 <= Rsum (map (fun x => e x * e x) l)) by (induction l; cbn; [lra|]; pose proof (Rle_0_sqr (e a)) as Q; unfold Rsqr in Q; lra).
  induction X as [|a X IH]; cbn; [tauto|]. intros H x [<-|Hx].
  - pose proof (P X). pose proof (Rle_0_sqr (e a)) as Q. unfold Rsqr in Q. apply Rsqr_0_uniq. unfold Rsqr. lra.
  - apply IH; auto. pose proof (P X). pose proof (Rle_0_sqr (e a)) as Q. unfold Rsqr in Q. lra.
Qed.
Lemma normal_equations n : forall X : list (list R * R), (forall x, In x X -> length (fst x) = n) ->
  exists w, length w = n /\ forall c, length c = n -> Rsum (map (fun x => dot (fst x) c * (dot (fst x) w - snd x)) X) = 0.
Proof.
  induction n as [|n IH]; intros X HX.
  - exists []. split; [reflexivity|]. intros [|] Lc; [|discriminate]. rewrite (Rsum_map_ext _ (fun _ => 0 * 0 + 0 * 0)).
    + rewrite Rsum_lin. ring.
    + intros [a b] Ha. apply HX in Ha. cbn in Ha. destruct a; [|discriminate]. cbn. ring.
  - assert (D : forall x t c, In x X -> dot (fst x) (t :: c) = hd 0 (fst x) * t + dot (tl (fst x)) c).
    { intros [a b] t c Ha. apply HX in Ha. cbn in Ha. destruct a; [discriminate|]. reflexivity. }
    assert (LT : forall x, In x X -> length (tl (fst x)) = n).
    { intros [a b] Ha. apply HX in Ha. cbn in Ha. destruct a; [discriminate|]. injection Ha; auto. }
    destruct (IH (map (fun x => (tl (fst x), snd x)) X)) as [w [Lw Hw]].
    { intros y Hy. apply in_map_iff in Hy. destruct Hy as [x [<- Hx]]. apply LT; auto. }
    destruct (IH (map (fun x => (tl (fst x), hd 0 (fst x))) X)) as [u [Lu Hu]].
    { intros y Hy. apply in_map_iff in Hy. destruct Hy as [x [<- Hx]]. apply LT; auto. }
    assert (Hw' : forall c, length c = n -> Rsum (map (fun x => dot (tl (fst x)) c * (snd x - dot (tl (fst x)) w)) X) = 0).
    { intros c Lc. specialize (Hw c Lc). rewrite map_map in Hw. cbn [fst snd] in Hw.
      rewrite (Rsum_map_ext _ (fun x => (-1) * (dot (tl (fst x)) c * (dot (tl (fst x)) w - snd x)) + 0 * 0)) by (intros; ring).
      rewrite Rsum_lin, Hw. ring. }
    assert (Hu' : forall c, length c = n -> Rsum (map (fun x => dot (tl (fst x)) c * (hd 0 (fst x) - dot (tl (fst x)) u)) X) = 0).
    { intros c Lc. specialize (Hu c Lc). rewrite map_map in Hu. cbn [fst snd] in Hu.
      rewrite (Rsum_map_ext _ (fun x => (-1) * (dot (tl (fst x)) c * (dot (tl (fst x)) u - hd 0 (fst x))) + 0 * 0)) by (intros; ring).
      rewrite Rsum_lin, Hu. ring. }
    set (e := fun x : list R * R => hd 0 (fst x) - dot (tl (fst x)) u) in *.
    set (f := fun x : list R * R => snd x - dot (tl (fst x)) w) in *.
    set (E := Rsum (map (fun x => e x * e x) X)).
    set (t := if Req_EM_T E 0 then 0 else Rsum (map (fun x => e x * f x) X) / E).
    assert (Ht : Rsum (map (fun x => e x * f x) X) = t * E).
    { unfold t. destruct (Req_EM_T E 0) as [Z|Z]; [|field; auto]. rewrite (Rsum_map_ext _ (fun x => 0 * f x + 0 * 0)); [rewrite Rsum_lin; ring|].
      intros x Hx. rewrite (Rsum_sq_zero e X Z x Hx). ring. }
    exists (t :: axpy (- t) u w). split; [cbn; rewrite axpy_length; lia|]. intros [|s c] Lc; [discriminate|]. injection Lc as Lc.
    rewrite (Rsum_map_ext _ (fun x => 1 * (s * (t * (e x * e x) + (-1) * (e x * f x)) + t * (dot (tl (fst x)) (axpy s u c) * e x))
      + (-1) * (dot (tl (fst x)) (axpy s u c) * f x))).
    + rewrite (Rsum_lin (fun x => s * (t * (e x * e x) + (-1) * (e x * f x)) + t * (dot (tl (fst x)) (axpy s u c) * e x)) (fun x => dot (tl (fst x)) (axpy s u c) * f x)).
      rewrite (Rsum_lin (fun x => t * (e x * e x) + (-1) * (e x * f x)) (fun x => dot (tl (fst x)) (axpy s u c) * e x)).
      rewrite (Rsum_lin (fun x => e x * e x) (fun x => e x * f x)). fold E. rewrite Ht.
      rewrite Hu', Hw' by (rewrite axpy_length; lia). ring.
    + intros x Hx. rewrite !D by auto. rewrite !dot_axpy by lia. unfold e, f. ring.
Qed.
Lemma least_squares_exists : exists lstsq, least_squares lstsq.
Proof.
  assert (M : forall A b n, (forall row, In row A -> length row = n) -> length b = length A ->
    exists w, length w = n /\ forall w', length w' = n -> sq_dist A w b <= sq_dist A w' b).
  { intros A b n HA Lb. destruct (normal_equations n (combine A b)) as [w [Lw Hw]].
    { intros [r y] Hx. apply in_combine_l in Hx. auto. }
    exists w. split; auto. intros w' Lw'. unfold sq_dist. specialize (Hw (axpy (-1) w w')). rewrite axpy_length in Hw by lia. specialize (Hw Lw').
    assert (G : forall X : list (list R * R), Rsum (map (fun rb => (dot (fst rb) w' - snd rb) ^ 2) X) =
      Rsum (map (fun rb => (dot (fst rb) w - snd rb) ^ 2) X) + 2 * Rsum (map (fun x => dot (fst x) (axpy (-1) w w') * (dot (fst x) w - snd x)) X)
      + Rsum (map (fun x => (dot (fst x) (axpy (-1) w w')) ^ 2) X)).
    { induction X as [|x X IHX]; cbn [map Rsum]; [ring|]. rewrite IHX. rewrite !dot_axpy by lia. ring. }
    rewrite G, Hw. assert (0 <= Rsum (map (fun x => (dot (fst x) (axpy (-1) w w')) ^ 2) (combine A b))); [|lra].
    generalize (combine A b). induction l as [|x X IHX]; cbn [map Rsum]; [lra|]. pose proof (pow2_ge_0 (dot (fst x) (axpy (-1) w w'))). lra. }
  assert (E : forall A b, exists o : list R * list R * nat, forall n, (forall row, In row A -> length row = n) -> length b = length A -> A <> [] ->
    exists w res rank, o = (w, res, rank) /\ length w = n /\ (rank <= n)%nat /\ (rank = n <-> independent A n) /\
    (rank = n -> (n < length A)%nat -> exists r, res = [r] /\ r = sq_dist A w b /\ forall w', length w' = n -> r <= sq_dist A w' b) /\
    ((rank < n \/ length A <= n)%nat -> res = [])).
  { intros A b.
    destruct (excluded_middle_informative (exists n, (forall row, In row A -> length row = n) /\ length b = length A)) as [[n [HA Lb]]|N].
    - destruct (M A b n HA Lb) as [w [Lw Hw]].
      assert (U : forall m, A <> [] -> (forall row, In row A -> length row = m) -> m = n).
      { intros m NA HA'. destruct A as [|r A]; [congruence|]. rewrite <- (HA r), <- (HA' r) by (left; reflexivity). reflexivity. }
      destruct (excluded_middle_informative (independent A n)) as [I|I].
      + destruct (lt_dec n (length A)) as [L|L].
        * exists (w, [sq_dist A w b], n). intros m HA' Lb' NA. rewrite (U m NA HA') in *. exists w, [sq_dist A w b], n. split; [reflexivity|]. split; auto. split; [lia|]. split; [tauto|].
          split; [intros _ _; eexists; split; [reflexivity|]; auto|]. intros [|]; lia.
        * exists (w, [], n). intros m HA' Lb' NA. rewrite (U m NA HA') in *. exists w, [], n. split; [reflexivity|]. split; auto. split; [lia|]. split; [tauto|]. split; [lia|auto].
      + destruct n as [|n]; [exfalso; apply I; intros [|] Lc _; [constructor|discriminate]|].
        exists (w, [], 0%nat). intros m HA' Lb' NA. rewrite (U m NA HA') in *. exists w, [], 0%nat. split; [reflexivity|]. split; auto. split; [lia|]. split; [split; [discriminate|tauto]|]. split; [discriminate|auto].
    - exists ([], [], 0%nat). intros n HA Lb. exfalso. eauto. }
  exists (fun A b => proj1_sig (constructive_indefinite_description _ (E A b))).
  intros A b n NA HA Lb. destruct (constructive_indefinite_description _ (E A b)) as [o Ho]. exact (Ho n HA Lb NA).
Qed.
(** A minimizer that only tries one other point satisfies its contract. *)
Definition try_point (x1 : list R) (f : list R -> option R) (x0 : list R) : option (list R * R) :=
  match f x1, f x0 with
  | Some v1, Some v0 => if Rle_dec v1 v0 then Some (x1, v1) else Some (x0, v0)
  | _, Some v0 => Some (x0, v0)
  | _, None => None
  end.
Lemma try_point_reports x1 : reports_value (try_point x1).
Proof.
  intros f x0 x v. unfold try_point. destruct (f x1) as [v1|] eqn:E1, (f x0) as [v0|] eqn:E0; try discriminate.
  - destruct (Rle_dec v1 v0); intros H; injection H as <- <-; split; auto; intros v2 H2; injection H2 as <-; lra.
  - intros H; injection H as <- <-; split; auto; intros v2 H2; injection H2 as <-; lra.
Qed.

