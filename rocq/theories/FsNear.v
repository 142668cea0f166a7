(** Rules built from [combine] whose weights and coordinates are rational numbers: their moments as integers, computed without
    listing the points, and a check that they agree with given moments up to a tolerance. *)
From Coq Require Import Reals List Arith Lia Lra Permutation Bool ZArith QArith Qreals.
From Verif Require Import Spec RsumLemmas CombModel CombProofs Moments SymExact.
Import ListNotations.
Set Bullet Behavior "Strict Subproofs".
Open Scope R_scope.

(** Ways to draw the first coordinate: the values it may have and what is left. *)
Fixpoint picks {A} (elems : list (list A * nat)) : list (list A * list (list A * nat)) :=
  match elems with
  | [] => []
  | (vs, c) :: r => (match c with O => [] | S c' => [(vs, (vs, c') :: r)] end) ++ map (fun p => (fst p, (vs, c) :: snd p)) (picks r)
  end.
Fixpoint cmR (k : list nat) (elems : list (list R * nat)) : R :=
  match k with [] => 1 | a :: k' => Rsum (map (fun p => psum (fst p) a * cmR k' (snd p)) (picks elems)) end.
Definition tsum (vals : list (list R)) (sizes : list nat) (k : list nat) : R :=
  Rsum (map (fun t => tprod (fun i a => psum (nth i vals []) a) t k) (partitions sizes)).
Fixpoint decE {A} (i : nat) (elems : list (list A * nat)) : list (list A * nat) :=
  match elems, i with [], _ => [] | (v, c) :: r, O => (v, (c - 1)%nat) :: r | e :: r, S i' => e :: decE i' r end.
Lemma picks_seq {A} (elems : list (list A * nat)) :
  picks elems = flat_map (fun i => if (nth i (map snd elems) 0 =? 0)%nat then [] else [(nth i (map fst elems) [], decE i elems)]) (seq 0 (length elems)).
Proof.
  induction elems as [|[vs c] r IH]; [reflexivity|]. cbn [picks length seq flat_map map fst snd nth decE]. f_equal.
  - destruct c as [|c]; cbn [Nat.eqb]; [reflexivity|]. rewrite Nat.sub_succ, Nat.sub_0_r. reflexivity.
  - rewrite IH, <- seq_shift. generalize (seq 0 (length r)) as l. clear. induction l as [|i l IH]; [reflexivity|].
    cbn [map flat_map nth decE]. rewrite map_app, IH. f_equal. destruct (nth i (map snd r) 0 =? 0)%nat; reflexivity.
Qed.
Lemma decE_fst {A} i : forall elems : list (list A * nat), map fst (decE i elems) = map fst elems.
Proof. induction i as [|i IH]; intros [|[v c] r]; cbn [decE map fst]; try reflexivity. rewrite IH. reflexivity. Qed.
Lemma decE_snd {A} i : forall elems : list (list A * nat), map snd (decE i elems) = dec i (map snd elems).
Proof. induction i as [|i IH]; intros [|[v c] r]; cbn [decE map snd dec]; try reflexivity. rewrite IH. reflexivity. Qed.
Lemma tsum_cmR k : forall elems, length k = list_sum (map snd elems) -> tsum (map fst elems) (map snd elems) k = cmR k elems.
Proof.
  induction k as [|a k IH]; intros elems H; unfold tsum; cbn [cmR].
  - rewrite partitions_zero by (symmetry; exact H). cbn. ring.
  - cbn [length] in H. rewrite (partitions_step _ (length k)) by (symmetry; exact H). rewrite Rsum_map_flat_map, picks_seq, Rsum_map_flat_map, map_length.
    apply Rsum_map_ext. intros i _. destruct (Nat.eqb_spec (nth i (map snd elems) 0%nat) 0) as [E|E]; [reflexivity|].
    rewrite map_map. cbn [tprod map Rsum fst snd]. rewrite Rsum_map_scal. rewrite <- IH.
    + unfold tsum. rewrite decE_fst, decE_snd. ring.
    + rewrite decE_snd. assert (P := dec_sum i (map snd elems)). lia.
Qed.
Lemma combine_cmR elems k : length k = list_sum (map snd elems) -> Rsum (map (mono k) (combine elems)) = cmR k elems.
Proof.
  intros H. rewrite <- tsum_cmR by auto. unfold combine, tsum. rewrite Rsum_map_flat_map. apply Rsum_map_ext. intros t Ht.
  apply Rsum_product. rewrite H. symmetry. apply (labeling_length (map snd elems)). apply in_partitions. auto.
Qed.

(** The same on integers. *)
Definition psumZ (vs : list Z) (a : nat) : Z := fold_right (fun v s => (v ^ Z.of_nat a + s)%Z) 0%Z vs.
Fixpoint cmZ (k : list nat) (elems : list (list Z * nat)) : Z :=
  match k with
  | [] => 1%Z
  | a :: k' => fold_right (fun p s => let z := psumZ (fst p) a in match z with Z0 => s | _ => (z * cmZ k' (snd p) + s)%Z end) 0%Z (picks elems)
  end.
Definition scaleE (D : R) (elems : list (list Z * nat)) : list (list R * nat) := map (fun e => (map (fun z => IZR z / D) (fst e), snd e)) elems.
Lemma psumZ_ok D vs a : D <> 0 -> psum (map (fun z => IZR z / D) vs) a = IZR (psumZ vs a) / D ^ a.
Proof.
  intros HD. unfold psum. assert (D ^ a <> 0) by (apply pow_nonzero; auto). induction vs as [|v vs IH]; cbn [map Rsum psumZ fold_right].
  - unfold Rdiv. ring.
  - fold (psumZ vs a). rewrite IH, plus_IZR, <- pow_IZR. unfold Rdiv. rewrite Rpow_mult_distr, pow_inv. field. auto.
Qed.
Lemma picks_map {A B} (g : list A -> list B) elems :
  picks (map (fun e => (g (fst e), snd e)) elems) = map (fun p => (g (fst p), map (fun e => (g (fst e), snd e)) (snd p))) (picks elems).
Proof.
  induction elems as [|[vs c] r IH]; [reflexivity|]. cbn [map picks fst snd]. rewrite map_app, IH, !map_map. f_equal. destruct c; reflexivity.
Qed.
Lemma cmZ_ok D k : D <> 0 -> forall elems, cmR k (scaleE D elems) = IZR (cmZ k elems) / D ^ tdeg k.
Proof.
  intros HD. induction k as [|a k IH]; intros elems; cbn [cmR cmZ].
  - unfold tdeg. cbn. field.
  - change (tdeg (a :: k)) with (a + tdeg k)%nat. assert (D ^ a <> 0) by (apply pow_nonzero; auto). assert (D ^ tdeg k <> 0) by (apply pow_nonzero; auto).
    unfold scaleE. rewrite (picks_map (map (fun z => IZR z / D))), map_map. rewrite pow_add. cbn [fst snd].
    induction (picks elems) as [|p l IHl]; cbn [map Rsum fold_right].
    + unfold Rdiv. ring.
    + rewrite IHl, (psumZ_ok D) by auto. fold (scaleE D (snd p)). rewrite IH. cbv zeta.
      destruct (psumZ (fst p) a) eqn:E; [field; auto| |]; rewrite plus_IZR, mult_IZR; field; auto.
Qed.

(** Power sums looked up in tables. *)
Definition ptab (d : nat) (vs : list Z) : list Z := map (psumZ vs) (seq 0 (S d)).
Fixpoint cmT (k : list nat) (elems : list (list Z * nat)) : Z :=
  match k with
  | [] => 1%Z
  | a :: k' => fold_right (fun p s => let z := nth a (fst p) 0%Z in match z with Z0 => s | _ => (z * cmT k' (snd p) + s)%Z end) 0%Z (picks elems)
  end.
Definition tabE (d : nat) (elems : list (list Z * nat)) : list (list Z * nat) := map (fun e => (ptab d (fst e), snd e)) elems.
Lemma nth_ptab d vs a : (a <= d)%nat -> nth a (ptab d vs) 0%Z = psumZ vs a.
Proof. intros H. unfold ptab. rewrite (nth_indep _ 0%Z (psumZ vs 0)) by (rewrite map_length, seq_length; lia). rewrite map_nth, seq_nth by lia. reflexivity. Qed.
Lemma cmT_ok d k : (tdeg k <= d)%nat -> forall elems, cmT k (tabE d elems) = cmZ k elems.
Proof.
  induction k as [|a k IH]; intros H elems; cbn [cmT cmZ]; [reflexivity|]. change (tdeg (a :: k)) with (a + tdeg k)%nat in H.
  unfold tabE. rewrite (picks_map (ptab d)). induction (picks elems) as [|p l IHl]; cbn [map fold_right]; [reflexivity|]. rewrite IHl. cbn [fst snd].
  rewrite nth_ptab by lia. fold (tabE d (snd p)). rewrite IH by lia. reflexivity.
Qed.
(** Sets that are symmetric under a change of sign of each coordinate. *)
Definition symvs (vs : list Z) : bool := match vs with [x] => (x =? 0)%Z | [x; y] => (y =? - x)%Z | _ => false end.
Lemma symvs_odd vs a : symvs vs = true -> Nat.odd a = true -> psumZ vs a = 0%Z.
Proof.
  intros H Ha. apply Nat.odd_spec in Ha. destruct Ha as [b ->]. destruct vs as [|x [|y [|]]]; try discriminate; cbn [symvs] in H; apply Z.eqb_eq in H; subst; unfold psumZ; cbn [fold_right].
  - rewrite Z.pow_0_l by lia. reflexivity.
  - rewrite Z.pow_opp_odd by (exists (Z.of_nat b); lia). lia.
Qed.
Lemma in_picks {A} p (elems : list (list A * nat)) : In p (picks elems) -> In (fst p) (map fst elems) /\ map fst (snd p) = map fst elems.
Proof.
  revert p. induction elems as [|[vs c] r IH]; intros p H; cbn [picks] in H; [destruct H|]. apply in_app_or in H. destruct H as [H|H].
  - destruct c as [|c]; [destruct H|]. destruct H as [<-|[]]. cbn. auto.
  - apply in_map_iff in H. destruct H as [q [<- Hq]]. apply IH in Hq. cbn [fst snd map]. destruct Hq as [E1 E2]. rewrite E2. split; [right; exact E1|reflexivity].
Qed.
Lemma cmZ_odd k : existsb Nat.odd k = true -> forall elems, forallb symvs (map fst elems) = true -> cmZ k elems = 0%Z.
Proof.
  induction k as [|a k IH]; intros Hk elems H; [discriminate|]. cbn [existsb] in Hk. cbn [cmZ].
  assert (F : forall p, In p (picks elems) -> (psumZ (fst p) a * cmZ k (snd p) = 0)%Z).
  { intros p Hp. apply in_picks in Hp. destruct Hp as [E1 E2]. apply orb_prop in Hk. destruct Hk as [Ha|Hk].
    - rewrite symvs_odd by (auto; rewrite forallb_forall in H; auto). lia.
    - rewrite IH by (auto; rewrite E2; auto). lia. }
  induction (picks elems) as [|p l IHl]; [reflexivity|]. cbn [fold_right]. rewrite IHl by (intros; apply F; right; auto).
  assert (E := F p (or_introl eq_refl)). destruct (psumZ (fst p) a); lia.
Qed.

(** Rational data: the coordinates have the common denominator D, the weights Dn. *)
Definition Dn : Z := 72000000000000000000000%Z.
Definition zq (D : Z) (q : Q) : option Z := let z := (Qnum q * D)%Z in if (z mod Zpos (Qden q) =? 0)%Z then Some (z / Zpos (Qden q))%Z else None.
Lemma Dn_pos : (0 < Dn)%Z. Proof. reflexivity. Qed.
Lemma zq_ok D q z : (0 < D)%Z -> zq D q = Some z -> Q2R q = IZR z / IZR D.
Proof.
  intros HD. unfold zq. cbv zeta. destruct (Z.eqb_spec ((Qnum q * D) mod Zpos (Qden q)) 0) as [E|]; [|discriminate]. intros H. injection H as <-.
  apply Z.div_exact in E; [|lia]. apply (f_equal IZR) in E. rewrite !mult_IZR in E. unfold Q2R. apply (IZR_lt 0) in HD.
  assert (0 < IZR (Zpos (Qden q))) by (apply IZR_lt; lia). apply (Rmult_eq_reg_r (IZR D * IZR (Zpos (Qden q)))); [|nra].
  transitivity (IZR (Qnum q) * IZR D); [field; lra|]. rewrite E. field. lra.
Qed.
Fixpoint olist {A B} (f : A -> option B) (l : list A) : option (list B) :=
  match l with [] => Some [] | a :: l' => match f a, olist f l' with Some b, Some r => Some (b :: r) | _, _ => None end end.
Lemma olist_map {A B C} (f : A -> option B) (g : A -> C) (h : B -> C) l : (forall a b, f a = Some b -> g a = h b) -> forall r, olist f l = Some r -> map g l = map h r.
Proof.
  intros H. induction l as [|a l IH]; intros r E; cbn [olist] in E; [injection E as <-; reflexivity|].
  destruct (f a) as [b|] eqn:Ea; [|discriminate]. destruct (olist f l) as [r'|]; [|discriminate]. injection E as <-. cbn [map]. f_equal; auto.
Qed.
Definition qgroup := (Q * list (list Q * nat))%type.
Definition zgrp := (Z * list (list Z * nat))%type.
Definition gR (g : qgroup) : group := (Q2R (fst g), map (fun e => (map Q2R (fst e), snd e)) (snd g)).
Definition zelem (D : Z) (e : list Q * nat) : option (list Z * nat) := match olist (zq D) (fst e) with Some v => Some (v, snd e) | None => None end.
Definition zgroup (D : Z) (g : qgroup) : option zgrp :=
  match zq Dn (fst g), olist (zelem D) (snd g) with Some w, Some e => Some (w, e) | _, _ => None end.
Definition gZ (D : Z) (g : zgrp) : group := (IZR (fst g) / IZR Dn, scaleE (IZR D) (snd g)).
Lemma zelem_ok D e z : (0 < D)%Z -> zelem D e = Some z -> (map Q2R (fst e), snd e) = (map (fun z => IZR z / IZR D) (fst z), snd z).
Proof.
  intros HD. unfold zelem. destruct (olist (zq D) (fst e)) as [v|] eqn:E; [|discriminate]. intros H. injection H as <-. cbn [fst snd]. f_equal.
  exact (olist_map (zq D) Q2R (fun z => IZR z / IZR D) (fst e) (fun q z => zq_ok D q z HD) v E).
Qed.
Lemma zgroup_ok D g z : (0 < D)%Z -> zgroup D g = Some z -> gR g = gZ D z.
Proof.
  intros HD. unfold zgroup. destruct (zq Dn (fst g)) as [w|] eqn:E; [|discriminate]. destruct (olist (zelem D) (snd g)) as [e|] eqn:E'; [|discriminate].
  intros H. injection H as <-. unfold gR, gZ. cbn [fst snd]. f_equal; [apply zq_ok; auto; apply Dn_pos|]. unfold scaleE.
  exact (olist_map (zelem D) _ _ (snd g) (fun a b => zelem_ok D a b HD) e E').
Qed.

Definition ok_groupb (n : nat) (g : qgroup) : bool :=
  (list_sum (map snd (snd g)) =? n)%nat && forallb (fun e => match fst e with [] => false | _ => true end) (snd g).
Lemma ok_groupb_ok n g : ok_groupb n g = true -> ok_group n (gR g).
Proof.
  unfold ok_groupb, ok_group, gR. rewrite andb_true_iff, Nat.eqb_eq, forallb_forall. cbn [snd]. intros [<- H]. rewrite map_map. split; [reflexivity|].
  intros e He. apply in_map_iff in He. destruct He as [e' [<- He']]. apply H in He'. cbn [fst]. destruct (fst e'); [discriminate|]. intros E. discriminate.
Qed.

Definition over (V : R) (gs : list group) : list group := map (fun g => (fst g * / V, snd g)) gs.
Lemma apply_over V gs f : apply (sym_rule (over V gs)) f = apply (sym_rule gs) f * / V.
Proof.
  rewrite !apply_sym_rule. unfold over. rewrite map_map. cbn [fst snd]. rewrite <- Rsum_map_scal_r. apply Rsum_map_ext. intros. ring.
Qed.
Definition zmom (zgs : list zgrp) (k : list nat) : Z := fold_right (fun g s => (fst g * cmZ k (snd g) + s)%Z) 0%Z zgs.
Definition tmom (tgs : list zgrp) (k : list nat) : Z := fold_right (fun g s => match cmT k (snd g) with Z0 => s | c => (fst g * c + s)%Z end) 0%Z tgs.
Definition tabG (d : nat) (zgs : list zgrp) : list zgrp := map (fun g => (fst g, tabE d (snd g))) zgs.
Lemma tmom_ok d k zgs : (tdeg k <= d)%nat -> tmom (tabG d zgs) k = zmom zgs k.
Proof.
  intros H. induction zgs as [|g zgs IH]; [reflexivity|]. cbn [tabG map tmom zmom fold_right fst snd]. fold (zmom zgs k). fold (tabG d zgs). fold (tmom (tabG d zgs) k).
  rewrite IH, cmT_ok by auto. destruct (cmZ k (snd g)); lia.
Qed.
Lemma zmom_odd k zgs : existsb Nat.odd k = true -> forallb (fun g : zgrp => forallb symvs (map fst (snd g))) zgs = true -> zmom zgs k = 0%Z.
Proof.
  intros Hk. induction zgs as [|g zgs IH]; [reflexivity|]. cbn [forallb zmom fold_right]. rewrite andb_true_iff. intros [A B]. fold (zmom zgs k). rewrite IH, cmZ_odd by auto. lia.
Qed.
Definition den (D : Z) (e : nat) : Z := (Dn * D ^ Z.of_nat e)%Z.
Lemma den_pos D e : (0 < D)%Z -> 0 < IZR (den D e).
Proof. intros H. apply (IZR_lt 0). unfold den. apply Z.mul_pos_pos; [reflexivity|]. apply Z.pow_pos_nonneg; lia. Qed.
Lemma zmom_R D n zgs k : (0 < D)%Z -> (forall g, In g zgs -> ok_group n (gZ D g)) -> length k = n ->
  apply (sym_rule (map (gZ D) zgs)) (mono k) = IZR (zmom zgs k) / IZR (den D (tdeg k)).
Proof.
  intros HD H Hk. rewrite apply_sym_rule, map_map. apply (IZR_lt 0) in HD. assert (IZR Dn <> 0) by (apply Rgt_not_eq, (IZR_lt 0); reflexivity). assert (IZR D ^ tdeg k <> 0) by (apply pow_nonzero; lra).
  unfold den. rewrite mult_IZR, <- pow_IZR.
  induction zgs as [|g zgs IH]; cbn [map Rsum zmom fold_right]; [unfold Rdiv; ring|]. fold (zmom zgs k). rewrite IH by (intros; apply H; right; auto).
  destruct (H g (or_introl eq_refl)) as [Hs _]. change (snd (gZ D g)) with (scaleE (IZR D) (snd g)) in *. change (fst (gZ D g)) with (IZR (fst g) / IZR Dn). rewrite combine_cmR by (rewrite Hk; auto).
  rewrite cmZ_ok by lra. rewrite plus_IZR, mult_IZR. field. auto.
Qed.

(** Is the error of the rule divided by V at most t, for every V with vl <= 2^64 V <= vh?  A row for the degree e holds vl, vh and
    t vl (rounded down) times the denominator of the moments. *)
Definition s64 : Z := (2 ^ 64)%Z.
Definition row := (Z * Z * Z)%type.
Definition mk_row (D vl vh : Z) (t : Q) (e : nat) : row := let m := den D e in let l := (vl * m)%Z in (l, vh * m, Qnum t * l / Zpos (Qden t))%Z.
Definition near_row (r : row) (z : Z) (i : Q) : bool :=
  let '(l, h, t) := r in let p := Qnum i in let q := Zpos (Qden i) in let z := Z.shiftl (q * z) 64 in let b := (q * t)%Z in
  let e1 := (z - p * l)%Z in let e2 := (z - p * h)%Z in (e1 <=? b)%Z && (- b <=? e1)%Z && (e2 <=? b)%Z && (- b <=? e2)%Z.
Lemma lin_bound (q i v lo hi b : R) : lo <= v <= hi -> - b <= q - i * lo <= b -> - b <= q - i * hi <= b -> - b <= q - i * v <= b.
Proof. intros H1 H2 H3. destruct (Rle_dec 0 i); split; nra. Qed.
Lemma near_row_ok D vl vh t e z i V : (0 < D)%Z -> (0 < vl)%Z -> IZR vl <= V * IZR s64 <= IZR vh -> 0 <= Q2R t -> near_row (mk_row D vl vh t e) z i = true ->
  Rabs (IZR z / IZR (den D e) * / V - Q2R i) <= Q2R t.
Proof.
  intros HD Hl HV Ht H. unfold near_row, mk_row in H. cbv beta iota zeta in H. rewrite !andb_true_iff, !Z.leb_le in H. destruct H as [[[A B] C] E].
  rewrite Z.shiftl_mul_pow2 in A, B, C, E by lia. fold s64 in A, B, C, E. pose proof (den_pos D e HD) as Hm. set (m := den D e) in *.
  assert (S0 : 0 < IZR s64) by (apply (IZR_lt 0); reflexivity). apply (IZR_lt 0) in Hl. assert (V0 : 0 < V) by nra.
  assert (F : (Zpos (Qden t) * (Qnum t * (vl * m) / Zpos (Qden t)) <= Qnum t * (vl * m))%Z) by (apply Z.mul_div_le; lia). set (T := (Qnum t * (vl * m) / Zpos (Qden t))%Z) in *.
  apply IZR_le in A, B, C, E, F. rewrite ?opp_IZR, ?minus_IZR, ?mult_IZR in *. assert (Q0 : 0 < IZR (Zpos (Qden i))) by (apply IZR_lt; lia). assert (Q1 : 0 < IZR (Zpos (Qden t))) by (apply IZR_lt; lia).
  assert (TB : IZR T <= Q2R t * (IZR vl * IZR m)).
  { apply (Rmult_le_reg_l (IZR (Zpos (Qden t)))); auto. eapply Rle_trans; [exact F|]. unfold Q2R. right. field. lra. }
  set (zq' := IZR z * IZR s64 / IZR m). assert (EI : Q2R i = IZR (Qnum i) / IZR (Zpos (Qden i))) by reflexivity.
  assert (G : forall v, - (IZR (Zpos (Qden i)) * IZR T) <= IZR (Zpos (Qden i)) * IZR z * IZR s64 - IZR (Qnum i) * (v * IZR m) <= IZR (Zpos (Qden i)) * IZR T ->
    - (Q2R t * IZR vl) <= zq' - Q2R i * v <= Q2R t * IZR vl).
  { intros v [G1 G2]. assert (X : (zq' - Q2R i * v) * (IZR (Zpos (Qden i)) * IZR m) = IZR (Zpos (Qden i)) * IZR z * IZR s64 - IZR (Qnum i) * (v * IZR m)) by (unfold zq'; rewrite EI; field; lra).
    assert (Y : IZR (Zpos (Qden i)) * IZR T <= Q2R t * IZR vl * (IZR (Zpos (Qden i)) * IZR m)) by nra.
    assert (0 < IZR (Zpos (Qden i)) * IZR m) by nra. split; apply (Rmult_le_reg_r (IZR (Zpos (Qden i)) * IZR m)); auto; rewrite X; lra. }
  pose proof (lin_bound zq' (Q2R i) (V * IZR s64) (IZR vl) (IZR vh) (Q2R t * IZR vl) HV (G (IZR vl) (conj B A)) (G (IZR vh) (conj E C))) as L.
  assert (LV : Q2R t * IZR vl <= Q2R t * (V * IZR s64)) by (apply Rmult_le_compat_l; lra).
  replace (IZR z / IZR m * / V - Q2R i) with ((zq' - Q2R i * (V * IZR s64)) * / (V * IZR s64)) by (unfold zq'; field; lra).
  assert (0 < V * IZR s64) by nra. rewrite Rabs_mult, (Rabs_pos_eq (/ (V * IZR s64))) by (left; apply Rinv_0_lt_compat; auto).
  apply (Rmult_le_reg_r (V * IZR s64)); auto. rewrite Rmult_assoc, Rinv_l, Rmult_1_r by lra. apply Rabs_le. lra.
Qed.
Definition near_fs (D : Z) (n d : nat) (I : list nat -> Q) (qgs : list qgroup) (vl vh : Z) (t : Q) : bool :=
  (0 <? D)%Z && (0 <? vl)%Z && (0 <=? Qnum t)%Z && forallb (ok_groupb n) qgs &&
  match olist (zgroup D) qgs with
  | None => false
  | Some zgs =>
    let sy := forallb (fun g : zgrp => forallb symvs (map fst (snd g))) zgs in
    let tgs := tabG d zgs in
    let rows := map (mk_row D vl vh t) (seq 0 (S d)) in
    forallb (fun l => if (length l <=? n)%nat then
        let k := l ++ repeat 0%nat (n - length l) in
        if sy && existsb Nat.odd k then (Qnum (I k) =? 0)%Z
        else near_row (nth (tdeg k) rows (0, 0, 0)%Z) (tmom tgs k) (I k)
      else true) (parts d)
  end.
Lemma nth_map_seq {A} (f : nat -> A) d e x : (e <= d)%nat -> nth e (map f (seq 0 (S d))) x = f e.
Proof. intros H. rewrite (nth_indep _ x (f 0%nat)) by (rewrite map_length, seq_length; lia). rewrite map_nth, seq_nth by lia. reflexivity. Qed.
Lemma parts_fuel_deg f : forall d mx l, In l (parts_fuel f d mx) -> (tdeg l <= d)%nat.
Proof.
  induction f as [|f IH]; intros d mx l H; cbn [parts_fuel] in H.
  - destruct H as [<-|[]]. unfold tdeg. cbn. lia.
  - destruct H as [<-|H]; [unfold tdeg; cbn; lia|]. apply in_flat_map in H. destruct H as [a [Ha H]]. apply in_seq in Ha. apply in_map_iff in H. destruct H as [l' [<- H]].
    apply IH in H. change (tdeg (a :: l')) with (a + tdeg l')%nat. lia.
Qed.
Lemma parts_deg d l : In l (parts d) -> (tdeg l <= d)%nat.
Proof. apply parts_fuel_deg. Qed.
Lemma tdeg_repeat0' m : tdeg (repeat 0%nat m) = 0%nat.
Proof. induction m as [|m IH]; [reflexivity|]. exact IH. Qed.
Theorem near_fs_ok D n d I qgs vl vh t V : near_fs D n d I qgs vl vh t = true -> IZR vl <= V * IZR s64 <= IZR vh ->
  (forall k k', Permutation k k' -> length k = n -> Q2R (I k) = Q2R (I k')) ->
  points_in_dim n (sym_rule (over V (map gR qgs))) /\
  forall k, length k = n -> (tdeg k <= d)%nat -> Rabs (apply (sym_rule (over V (map gR qgs))) (mono k) - Q2R (I k)) <= Q2R t.
Proof.
  unfold near_fs. rewrite !andb_true_iff, !Z.ltb_lt, Z.leb_le. intros [[[[HD Hl] Ht] Hok] H] HV HI.
  assert (T0 : 0 <= Q2R t). { unfold Q2R. apply (IZR_le 0) in Ht. assert (0 < / IZR (Zpos (Qden t))) by (apply Rinv_0_lt_compat, IZR_lt; lia). nra. }
  assert (OK : forall g, In g (map gR qgs) -> ok_group n g).
  { intros g Hg. apply in_map_iff in Hg. destruct Hg as [q [<- Hq]]. apply ok_groupb_ok. rewrite forallb_forall in Hok. auto. }
  split.
  { apply sym_rule_dim. intros g Hg. unfold over in Hg. apply in_map_iff in Hg. destruct Hg as [g' [<- Hg']]. apply (OK g') in Hg'. exact Hg'. }
  apply (reduce_canon n d (fun k => Rabs (apply (sym_rule (over V (map gR qgs))) (mono k) - Q2R (I k)) <= Q2R t)).
  - intros k k' P L E. rewrite !apply_over in *. rewrite <- (sym_rule_perm n _ k k'), <- (HI k k') by auto. exact E.
  - intros l m Hl' Hn. destruct (olist (zgroup D) qgs) as [zgs|] eqn:Ez; [|discriminate]. cbv zeta in H. rewrite forallb_forall in H. specialize (H l Hl').
    destruct (Nat.leb_spec (length l) n) as [_|]; [|lia]. replace (n - length l)%nat with m in H by lia.
    assert (Dk : (tdeg (l ++ repeat 0%nat m) <= d)%nat) by (rewrite tdeg_app, tdeg_repeat0', Nat.add_0_r; apply parts_deg; auto). set (k := l ++ repeat 0%nat m) in *.
    assert (Hk : length k = n) by (unfold k; rewrite app_length, repeat_length; auto).
    assert (EG : map gR qgs = map (gZ D) zgs) by (exact (olist_map (zgroup D) gR (gZ D) qgs (fun a b => zgroup_ok D a b HD) zgs Ez)).
    rewrite EG in OK. rewrite apply_over, EG. rewrite (zmom_R D n) by (auto; intros g Hg; apply OK; apply in_map; auto).
    destruct (forallb _ zgs && existsb Nat.odd k) eqn:Es.
    + apply andb_true_iff in Es. destruct Es as [E1 E2]. rewrite zmom_odd by auto. apply Z.eqb_eq in H. unfold Q2R at 1. rewrite H.
      replace (_ - _) with 0 by (unfold Rdiv; ring). rewrite Rabs_R0. exact T0.
    + rewrite nth_map_seq, tmom_ok in H by auto. apply (near_row_ok D vl vh); auto.
Qed.
(** At the exponents k the error is more than t. *)
Definition far_row (r : row) (z : Z) (i : Q) : bool :=
  let '(l, h, t) := r in let p := Qnum i in let q := Zpos (Qden i) in let z := Z.shiftl (q * z) 64 in let b := (q * t)%Z in
  let e1 := (z - p * l)%Z in let e2 := (z - p * h)%Z in (b <? e1)%Z && (b <? e2)%Z || (e1 <? - b)%Z && (e2 <? - b)%Z.
Definition far_fs (D : Z) (n : nat) (I : list nat -> Q) (qgs : list qgroup) (vl vh : Z) (t : Q) (k : list nat) : bool :=
  (0 <? D)%Z && (0 <? vl)%Z && (0 <=? Qnum t)%Z && forallb (ok_groupb n) qgs && (length k =? n)%nat &&
  match olist (zgroup D) qgs with
  | None => false
  | Some zgs => let m := den D (tdeg k) in far_row (vl * m, vh * m, Qnum t * (vh * m) / Zpos (Qden t) + 1)%Z (zmom zgs k) (I k)
  end.
Theorem far_fs_ok D n I qgs vl vh t V k : far_fs D n I qgs vl vh t k = true -> IZR vl <= V * IZR s64 <= IZR vh ->
  Q2R t < Rabs (apply (sym_rule (over V (map gR qgs))) (mono k) - Q2R (I k)).
Proof.
  unfold far_fs. rewrite !andb_true_iff, !Z.ltb_lt, Z.leb_le, Nat.eqb_eq. intros [[[[[HD Hl] Ht] Hok] Hk] H] HV.
  assert (T0 : 0 <= Q2R t). { unfold Q2R. apply (IZR_le 0) in Ht. assert (0 < / IZR (Zpos (Qden t))) by (apply Rinv_0_lt_compat, IZR_lt; lia). nra. }
  assert (OK : forall g, In g (map gR qgs) -> ok_group n g).
  { intros g Hg. apply in_map_iff in Hg. destruct Hg as [q [<- Hq]]. apply ok_groupb_ok. rewrite forallb_forall in Hok. auto. }
  destruct (olist (zgroup D) qgs) as [zgs|] eqn:Ez; [|discriminate].
  assert (EG : map gR qgs = map (gZ D) zgs) by (exact (olist_map (zgroup D) gR (gZ D) qgs (fun a b => zgroup_ok D a b HD) zgs Ez)).
  rewrite EG in OK. rewrite apply_over, EG. rewrite (zmom_R D n) by (auto; intros g Hg; apply OK; apply in_map; auto).
  pose proof (den_pos D (tdeg k) HD) as Hm. cbv zeta in H. set (m := den D (tdeg k)) in *. set (z := zmom zgs k) in *. set (i := I k) in *.
  assert (S0 : 0 < IZR s64) by (apply (IZR_lt 0); reflexivity). apply (IZR_lt 0) in Hl. assert (V0 : 0 < V) by nra.
  assert (F : (Qnum t * (vh * m) < Zpos (Qden t) * (Qnum t * (vh * m) / Zpos (Qden t) + 1))%Z) by (pose proof (Z.mul_succ_div_gt (Qnum t * (vh * m)) (Zpos (Qden t)) ltac:(lia)); lia).
  set (T := (Qnum t * (vh * m) / Zpos (Qden t) + 1)%Z) in *. unfold far_row in H. cbv beta iota zeta in H. rewrite orb_true_iff, !andb_true_iff, !Z.ltb_lt in H.
  rewrite Z.shiftl_mul_pow2 in H by lia. fold s64 in H. apply IZR_lt in F. rewrite ?mult_IZR in F.
  assert (Q0 : 0 < IZR (Zpos (Qden i))) by (apply IZR_lt; lia). assert (Q1 : 0 < IZR (Zpos (Qden t))) by (apply IZR_lt; lia).
  assert (TB : Q2R t * (IZR vh * IZR m) < IZR T).
  { apply (Rmult_lt_reg_l (IZR (Zpos (Qden t)))); auto. eapply Rle_lt_trans; [|exact F]. unfold Q2R. right. field. lra. }
  set (y := IZR z / IZR m * / V - Q2R i). assert (EI : Q2R i = IZR (Qnum i) / IZR (Zpos (Qden i))) by reflexivity.
  assert (X : y * (V * IZR s64) * (IZR (Zpos (Qden i)) * IZR m) = IZR (Zpos (Qden i)) * IZR z * IZR s64 - IZR (Qnum i) * (V * IZR s64 * IZR m)) by (unfold y; rewrite EI; field; lra).
  assert (P : 0 < IZR (Zpos (Qden i)) * IZR m) by nra. assert (P' : 0 < V * IZR s64 * (IZR (Zpos (Qden i)) * IZR m)) by (apply Rmult_lt_0_compat; auto; nra).
  assert (TV : Q2R t * (V * IZR s64 * (IZR (Zpos (Qden i)) * IZR m)) < IZR (Zpos (Qden i)) * IZR T).
  { apply Rle_lt_trans with (IZR (Zpos (Qden i)) * (Q2R t * (IZR vh * IZR m))); [|apply Rmult_lt_compat_l; auto].
    replace (Q2R t * (V * IZR s64 * (IZR (Zpos (Qden i)) * IZR m))) with (IZR (Zpos (Qden i)) * (Q2R t * (V * IZR s64 * IZR m))) by ring.
    apply Rmult_le_compat_l; [lra|]. apply Rmult_le_compat_l; auto. apply Rmult_le_compat_r; lra. }
  assert (LI : forall lo hi v a : R, lo <= v <= hi -> forall b, a - IZR (Qnum i) * (lo * IZR m) < b -> a - IZR (Qnum i) * (hi * IZR m) < b -> a - IZR (Qnum i) * (v * IZR m) < b).
  { intros lo hi v a [B1 B2] b G1 G2. destruct (Rle_dec 0 (IZR (Qnum i))) as [N|N]; [|assert (IZR (Qnum i) < 0) by lra].
    - assert (IZR (Qnum i) * (lo * IZR m) <= IZR (Qnum i) * (v * IZR m)) by (apply Rmult_le_compat_l; auto; apply Rmult_le_compat_r; lra). lra.
    - assert (hi * IZR m >= v * IZR m) by (apply Rle_ge, Rmult_le_compat_r; lra). nra. }
  assert (LI' : forall lo hi v a : R, lo <= v <= hi -> forall b, b < a - IZR (Qnum i) * (lo * IZR m) -> b < a - IZR (Qnum i) * (hi * IZR m) -> b < a - IZR (Qnum i) * (v * IZR m)).
  { intros lo hi v a [B1 B2] b G1 G2. destruct (Rle_dec 0 (IZR (Qnum i))) as [N|N]; [|assert (IZR (Qnum i) < 0) by lra].
    - assert (IZR (Qnum i) * (v * IZR m) <= IZR (Qnum i) * (hi * IZR m)) by (apply Rmult_le_compat_l; auto; apply Rmult_le_compat_r; lra). lra.
    - assert (v * IZR m >= lo * IZR m) by (apply Rle_ge, Rmult_le_compat_r; lra). nra. }
  destruct H as [[A B]|[A B]]; apply IZR_lt in A; apply IZR_lt in B; rewrite ?opp_IZR, ?minus_IZR, ?mult_IZR in A, B.
  - pose proof (LI' _ _ _ _ HV _ A B) as G. eapply Rlt_le_trans; [|apply Rle_abs]. apply (Rmult_lt_reg_r _ _ _ P'). lra.
  - pose proof (LI _ _ _ _ HV _ A B) as G. rewrite <- Rabs_Ropp. eapply Rlt_le_trans; [|apply Rle_abs]. apply (Rmult_lt_reg_r _ _ _ P'). lra.
Qed.
