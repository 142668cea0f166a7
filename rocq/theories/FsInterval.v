(** The check of FsNear.v for sets that are symmetric under a change of sign of each coordinate, in interval arithmetic with
    numerators over 2^80. *)
From Coq Require Import Reals List Arith Lia Lra Permutation Bool ZArith QArith Qreals.
From Verif Require Import Spec RsumLemmas CombModel CombProofs Moments SymExact FsNear.
Import ListNotations.
Set Bullet Behavior "Strict Subproofs".
Open Scope R_scope.

Definition iv := (Z * Z)%type.
Definition sS : Z := (2 ^ 80)%Z.
Lemma sS_pos : 0 < IZR sS. Proof. apply (IZR_lt 0). reflexivity. Qed.
Definition iok (b : iv) (x : R) : Prop := 0 <= IZR (fst b) <= x * IZR sS /\ x * IZR sS <= IZR (snd b).
Definition imul (a b : iv) : iv := (Z.shiftr (fst a * fst b) 80, Z.shiftr (snd a * snd b) 80 + 1)%Z.
Definition iadd (a b : iv) : iv := (fst a + fst b, snd a + snd b)%Z.
Definition iscal (c : Z) (b : iv) : iv := (c * fst b, c * snd b)%Z.
Lemma shiftr_bounds z : IZR (Z.shiftr z 80) * IZR sS <= IZR z <= (IZR (Z.shiftr z 80) + 1) * IZR sS.
Proof.
  rewrite Z.shiftr_div_pow2 by lia. fold sS. assert (A := Z.mul_div_le z sS ltac:(reflexivity)). assert (B := Z.mul_succ_div_gt z sS ltac:(reflexivity)).
  apply IZR_le in A. apply IZR_lt in B. rewrite mult_IZR in A, B. rewrite <- Z.add_1_r, plus_IZR in B. lra.
Qed.
Lemma imul_ok a b x y : iok a x -> iok b y -> iok (imul a b) (x * y).
Proof.
  intros [[A0 A1] A2] [[B0 B1] B2]. pose proof sS_pos. pose proof (shiftr_bounds (fst a * fst b)) as [L _]. pose proof (shiftr_bounds (snd a * snd b)) as [_ U].
  rewrite mult_IZR in L, U. assert (X : x * y * IZR sS * IZR sS = x * IZR sS * (y * IZR sS)) by ring. unfold iok, imul. cbn [fst snd]. rewrite plus_IZR.
  assert (IZR (fst a) * IZR (fst b) <= x * IZR sS * (y * IZR sS)) by (apply Rmult_le_compat; lra).
  assert (x * IZR sS * (y * IZR sS) <= IZR (snd a) * IZR (snd b)) by (apply Rmult_le_compat; lra).
  repeat split.
  - apply (IZR_le 0). apply Z.shiftr_nonneg. apply (le_IZR 0) in A0, B0. nia.
  - apply (Rmult_le_reg_r (IZR sS)); lra.
  - apply (Rmult_le_reg_r (IZR sS)); lra.
Qed.
Lemma iadd_ok a b x y : iok a x -> iok b y -> iok (iadd a b) (x + y).
Proof. intros [[A0 A1] A2] [[B0 B1] B2]. unfold iok, iadd. cbn [fst snd]. rewrite !plus_IZR, Rmult_plus_distr_r. lra. Qed.
Lemma iscal_ok c b x : (0 <= c)%Z -> iok b x -> iok (iscal c b) (IZR c * x).
Proof. intros Hc [[A0 A1] A2]. apply (IZR_le 0) in Hc. unfold iok, iscal. cbn [fst snd]. rewrite !mult_IZR. rewrite Rmult_assoc. repeat split; try (apply Rmult_le_compat_l; auto; fail). apply Rmult_le_pos; auto. Qed.

Definition i0 : iv := (0, 0)%Z.
(** Even power sums: entry j is the power sum of the exponent 2 j, entry 0 the number of values. *)
Fixpoint ipows (j : nat) (u2 p : iv) : list iv := match j with O => [] | S j' => let q := imul p u2 in q :: ipows j' u2 q end.
Definition iof (D x : Z) : iv := let q := (Z.abs x * sS / D)%Z in (q, q + 1)%Z.
Definition itab (D : Z) (d : nat) (vs : list Z) : list iv :=
  match vs with
  | [x; _] => let u := iof D x in let u2 := imul u u in (2, 2)%Z :: map (iscal 2) (u2 :: ipows (Nat.div2 d) u2 u2)
  | _ => (1, 1)%Z :: repeat i0 (S (Nat.div2 d))
  end.
Definition irel (D : Z) (d : nat) (t : list iv) (vs : list Z) : Prop :=
  nth 0 t i0 = (Z.of_nat (length vs), Z.of_nat (length vs)) /\
  forall j, (1 <= j)%nat -> (2 * j <= d)%nat -> iok (nth j t i0) (psum (map (fun z => IZR z / IZR D) vs) (2 * j)).
Lemma iof_ok D x : (0 < D)%Z -> iok (iof D x) (Rabs (IZR x / IZR D)).
Proof.
  intros HD. unfold iok, iof. cbn [fst snd]. assert (A := Z.mul_div_le (Z.abs x * sS) D HD). assert (B := Z.mul_succ_div_gt (Z.abs x * sS) D HD).
  assert (C : (0 <= Z.abs x * sS / D)%Z) by (apply Z.div_pos; auto; pose proof (Z.abs_nonneg x); unfold sS; lia). apply (IZR_le 0) in C.
  apply IZR_le in A. apply IZR_lt in B. rewrite !mult_IZR in A, B. rewrite <- Z.add_1_r, plus_IZR in B. rewrite plus_IZR. apply (IZR_lt 0) in HD.
  unfold Rdiv. rewrite Rabs_mult, (Rabs_pos_eq (/ IZR D)) by (left; apply Rinv_0_lt_compat; auto). rewrite <- abs_IZR.
  repeat split; auto; apply (Rmult_le_reg_l (IZR D)); auto.
  - eapply Rle_trans; [exact A|]. right. field. lra.
  - left. eapply Rle_lt_trans; [|exact B]. right. field. lra.
Qed.
Lemma ipows_ok u u2 j : iok u2 (u * u) -> forall p x, iok p x -> forall i, (i < j)%nat -> iok (nth i (ipows j u2 p) i0) (x * (u * u) ^ S i).
Proof.
  intros H2. induction j as [|j IH]; intros p x Hp i Hi; [lia|]. cbn [ipows]. assert (Q := imul_ok p u2 x (u * u) Hp H2). destruct i as [|i]; cbn [nth].
  - rewrite pow_1. exact Q.
  - replace (x * (u * u) ^ S (S i)) with (x * (u * u) * (u * u) ^ S i) by (cbn [pow]; ring). apply IH; auto. lia.
Qed.
Lemma ipows_length u2 j : forall p, length (ipows j u2 p) = j.
Proof. induction j as [|j IH]; intros p; cbn [ipows length]; auto. Qed.
Lemma itab_ok D d vs : (0 < D)%Z -> symvs vs = true -> irel D d (itab D d vs) vs.
Proof.
  intros HD H. destruct vs as [|x [|y [|]]]; try discriminate; cbn [symvs] in H; apply Z.eqb_eq in H; subst; split; try reflexivity; intros j Hj Hd; unfold itab.
  - destruct j as [|j]; [lia|]. cbn [nth]. rewrite nth_repeat. unfold psum. cbn [map Rsum]. unfold Rdiv. rewrite Rmult_0_l, pow_i by lia. unfold iok. cbn. lra.
  - destruct j as [|j]; [lia|]. cbn [nth]. cbv zeta. set (u := iof D x). pose proof (iof_ok D x HD) as Hu. fold u in Hu. set (r := Rabs (IZR x / IZR D)) in *.
    assert (H2 := imul_ok u u r r Hu Hu). set (u2 := imul u u) in *.
    assert (E : psum (map (fun z => IZR z / IZR D) [x; (- x)%Z]) (2 * S j) = IZR 2 * (r * r) ^ S j).
    { unfold psum. cbn [map Rsum]. rewrite opp_IZR. replace (- IZR x / IZR D) with (- (IZR x / IZR D)) by (unfold Rdiv; ring). rewrite !pow_mult. replace ((- (IZR x / IZR D)) ^ 2) with ((IZR x / IZR D) ^ 2) by ring.
      replace (r * r) with ((IZR x / IZR D) ^ 2) by (unfold r; rewrite <- Rabs_mult, Rabs_pos_eq by nra; ring). ring. }
    rewrite E. rewrite (nth_indep _ i0 (iscal 2 i0)).
    + rewrite (map_nth (iscal 2)). apply iscal_ok; [lia|]. destruct j as [|j]; cbn [nth]; [rewrite pow_1; exact H2|].
      replace ((r * r) ^ S (S j)) with (r * r * (r * r) ^ S j) by reflexivity. apply ipows_ok; auto. assert (B := Nat.div2_spec d). rewrite Nat.div2_div. assert ((S (S j) <= d / 2)%nat) by (apply Nat.div_le_lower_bound; lia). lia.
    + rewrite map_length. cbn [length]. rewrite ipows_length, Nat.div2_div. assert ((S j <= d / 2)%nat) by (apply Nat.div_le_lower_bound; lia). lia.
Qed.

Fixpoint icm (k : list nat) (elems : list (list iv * nat)) : iv :=
  match k with
  | [] => (sS, sS)
  | a :: k' => fold_right (fun p s =>
      match a with
      | O => let c := fst (hd i0 (fst p)) in iadd (iscal c (icm k' (snd p))) s
      | _ => let z := nth (Nat.div2 a) (fst p) i0 in match snd z with Z0 => s | _ => iadd (imul z (icm k' (snd p))) s end
      end) i0 (picks elems)
  end.
Definition itabE (D : Z) (d : nat) (elems : list (list Z * nat)) : list (list iv * nat) := map (fun e => (itab D d (fst e), snd e)) elems.
Lemma psum_0 vs : psum vs 0 = INR (length vs).
Proof. unfold psum. induction vs as [|v vs IH]; [reflexivity|]. cbn [map Rsum length]. rewrite S_INR, IH. cbn [pow]. ring. Qed.
Lemma iok_0 : iok i0 0.
Proof. unfold iok. cbn. lra. Qed.
Lemma icm_ok D d k : (0 < D)%Z -> existsb Nat.odd k = false -> (tdeg k <= d)%nat -> forall elems, forallb symvs (map fst elems) = true ->
  iok (icm k (itabE D d elems)) (cmR k (scaleE (IZR D) elems)).
Proof.
  intros HD. induction k as [|a k IH]; intros Hk Hd elems He.
  { cbn [icm cmR]. pose proof sS_pos. unfold iok. cbn [fst snd]. lra. }
  cbn [existsb] in Hk. apply orb_false_elim in Hk. destruct Hk as [Ha Hk]. change (tdeg (a :: k)) with (a + tdeg k)%nat in Hd. cbn [icm cmR].
  unfold itabE, scaleE. rewrite (picks_map (itab D d)), (picks_map (map (fun z => IZR z / IZR D))), map_map. cbn [fst snd].
  assert (F : forall p, In p (picks elems) -> symvs (fst p) = true /\ forallb symvs (map fst (snd p)) = true).
  { intros p Hp. apply in_picks in Hp. destruct Hp as [E1 E2]. rewrite E2. split; auto. rewrite forallb_forall in He. auto. }
  induction (picks elems) as [|p l IHl]; cbn [map Rsum fold_right fst snd]; [apply iok_0|].
  assert (IHl' := IHl (fun q Hq => F q (or_intror Hq))). destruct (F p (or_introl eq_refl)) as [F1 F2]. assert (IHk := IH Hk ltac:(lia) (snd p) F2). fold (itabE D d (snd p)). fold (scaleE (IZR D) (snd p)).
  destruct (itab_ok D d (fst p) HD F1) as [T0 T]. destruct a as [|a].
  - apply iadd_ok; [|exact IHl']. rewrite psum_0, map_length, INR_IZR_INZ. replace (fst (hd i0 (itab D d (fst p)))) with (Z.of_nat (length (fst p))).
    + apply iscal_ok; auto. lia.
    + destruct (itab D d (fst p)) as [|b tb]; cbn [nth hd] in *; [|rewrite T0; reflexivity]. unfold i0 in T0. injection T0 as T0 _. rewrite <- T0. reflexivity.
  - rewrite <- Nat.negb_even in Ha. apply negb_false_iff, Nat.even_spec in Ha. destruct Ha as [j Ej]. assert (Dj : Nat.div2 (S a) = j) by (rewrite Ej; apply Nat.div2_double). rewrite Ej in *. rewrite Dj in IHl' |- *.
    assert (K := T j ltac:(lia) ltac:(lia)). set (z := nth j (itab D d (fst p)) i0) in *. cbv zeta.
    assert (G : iok (imul z (icm k (itabE D d (snd p)))) (psum (map (fun z => IZR z / IZR D) (fst p)) (2 * j) * cmR k (scaleE (IZR D) (snd p)))) by (apply imul_ok; auto).
    destruct (snd z) eqn:Ez; [|apply iadd_ok; auto|apply iadd_ok; auto].
    assert (P0 : psum (map (fun z => IZR z / IZR D) (fst p)) (2 * j) = 0). { destruct K as [[K0 K1] K2]. rewrite Ez in K2. pose proof sS_pos. apply (Rmult_eq_reg_r (IZR sS)); lra. }
    rewrite P0, Rmult_0_l, Rplus_0_l. exact IHl'.
Qed.

Definition igrp := (Z * list (list iv * nat))%type.
Definition imom (igs : list igrp) (k : list nat) : Z * Z :=
  fold_right (fun g s => let c := icm k (snd g) in match fst g with Zneg _ => (fst g * snd c + fst s, fst g * fst c + snd s)%Z | w => (w * fst c + fst s, w * snd c + snd s)%Z end) (0, 0)%Z igs.
Definition itabG (D : Z) (d : nat) (zgs : list zgrp) : list igrp := map (fun g => (fst g, itabE D d (snd g))) zgs.
Lemma imom_ok D d n k zgs : (0 < D)%Z -> existsb Nat.odd k = false -> (tdeg k <= d)%nat -> length k = n -> (forall g, In g zgs -> ok_group n (gZ D g)) ->
  forallb (fun g : zgrp => forallb symvs (map fst (snd g))) zgs = true ->
  IZR (fst (imom (itabG D d zgs) k)) <= apply (sym_rule (map (gZ D) zgs)) (mono k) * (IZR Dn * IZR sS) <= IZR (snd (imom (itabG D d zgs) k)).
Proof.
  intros HD Ho Hd Hk H Hs. rewrite apply_sym_rule, map_map. assert (D0 : IZR Dn <> 0) by (apply Rgt_not_eq, (IZR_lt 0); reflexivity).
  induction zgs as [|g zgs IH]; cbn [map Rsum imom itabG fold_right fst snd]; [lra|]. cbn [forallb] in Hs. apply andb_true_iff in Hs. destruct Hs as [Hg Hs].
  fold (itabG D d zgs). fold (imom (itabG D d zgs) k). specialize (IH (fun g' Hg' => H g' (or_intror Hg')) Hs). destruct (H g (or_introl eq_refl)) as [Hl _].
  change (snd (gZ D g)) with (scaleE (IZR D) (snd g)) in *. change (fst (gZ D g)) with (IZR (fst g) / IZR Dn). rewrite combine_cmR by (rewrite Hk; auto).
  destruct (icm_ok D d k HD Ho Hd (snd g) Hg) as [[C0 C1] C2]. set (c := icm k (itabE D d (snd g))) in *. set (m := cmR k (scaleE (IZR D) (snd g))) in *. rewrite Rmult_plus_distr_r.
  replace (IZR (fst g) / IZR Dn * m * (IZR Dn * IZR sS)) with (IZR (fst g) * (m * IZR sS)) by (field; auto). cbv zeta.
  destruct (fst g) as [|w|w] eqn:Ew; cbn [fst snd]; rewrite !plus_IZR, !mult_IZR; split; apply Rplus_le_compat; try apply IH; try lra;
    try (apply Rmult_le_compat_l; [apply (IZR_le 0); lia|assumption]);
    (apply Rmult_le_compat_neg_l; [apply (IZR_le _ 0); lia|assumption]).
Qed.

Definition near_ifs (D : Z) (n d : nat) (I : list nat -> Q) (qgs : list qgroup) (vl vh : Z) (t : Q) : bool :=
  (0 <? D)%Z && (0 <? vl)%Z && (0 <=? Qnum t)%Z && forallb (ok_groupb n) qgs &&
  match olist (zgroup D) qgs with
  | None => false
  | Some zgs =>
    let igs := itabG D d zgs in let r := mk_row (sS) vl vh t 1 in
    forallb (fun g : zgrp => forallb symvs (map fst (snd g))) zgs &&
    forallb (fun l => if (length l <=? n)%nat then
        let k := l ++ repeat 0%nat (n - length l) in
        if existsb Nat.odd k then (Qnum (I k) =? 0)%Z
        else let m := imom igs k in let i := I k in near_row r (fst m) i && near_row r (snd m) i
      else true) (parts d)
  end.
Lemma Rabs_le_inv' x b : Rabs x <= b -> - b <= x <= b.
Proof. unfold Rabs. destruct (Rcase_abs x); lra. Qed.
Theorem near_ifs_ok D n d I qgs vl vh t V : near_ifs D n d I qgs vl vh t = true -> IZR vl <= V * IZR s64 <= IZR vh ->
  (forall k k', Permutation k k' -> length k = n -> Q2R (I k) = Q2R (I k')) ->
  points_in_dim n (sym_rule (over V (map gR qgs))) /\
  forall k, length k = n -> (tdeg k <= d)%nat -> Rabs (apply (sym_rule (over V (map gR qgs))) (mono k) - Q2R (I k)) <= Q2R t.
Proof.
  unfold near_ifs. rewrite !andb_true_iff, !Z.ltb_lt, Z.leb_le. intros [[[[HD Hl] Ht] Hok] H] HV HI.
  assert (T0 : 0 <= Q2R t). { unfold Q2R. apply (IZR_le 0) in Ht. assert (0 < / IZR (Zpos (Qden t))) by (apply Rinv_0_lt_compat, IZR_lt; lia). nra. }
  assert (OK : forall g, In g (map gR qgs) -> ok_group n g).
  { intros g Hg. apply in_map_iff in Hg. destruct Hg as [q [<- Hq]]. apply ok_groupb_ok. rewrite forallb_forall in Hok. auto. }
  split.
  { apply sym_rule_dim. intros g Hg. unfold over in Hg. apply in_map_iff in Hg. destruct Hg as [g' [<- Hg']]. apply (OK g') in Hg'. exact Hg'. }
  apply (reduce_canon n d (fun k => Rabs (apply (sym_rule (over V (map gR qgs))) (mono k) - Q2R (I k)) <= Q2R t)).
  - intros k k' P L E. rewrite !apply_over in *. rewrite <- (sym_rule_perm n _ k k'), <- (HI k k') by auto. exact E.
  - intros l m Hl' Hn. destruct (olist (zgroup D) qgs) as [zgs|] eqn:Ez; [|discriminate]. cbv zeta in H. apply andb_true_iff in H. destruct H as [Hs H]. rewrite forallb_forall in H. specialize (H l Hl').
    destruct (Nat.leb_spec (length l) n) as [_|]; [|lia]. replace (n - length l)%nat with m in H by lia.
    assert (Dk : (tdeg (l ++ repeat 0%nat m) <= d)%nat) by (rewrite tdeg_app, tdeg_repeat0', Nat.add_0_r; apply parts_deg; auto). set (k := l ++ repeat 0%nat m) in *.
    assert (Hk : length k = n) by (unfold k; rewrite app_length, repeat_length; auto).
    assert (EG : map gR qgs = map (gZ D) zgs) by (exact (olist_map (zgroup D) gR (gZ D) qgs (fun a b => zgroup_ok D a b HD) zgs Ez)).
    rewrite EG in OK. rewrite apply_over, EG. assert (OK' : forall g, In g zgs -> ok_group n (gZ D g)) by (intros g Hg; apply OK; apply in_map; auto).
    destruct (existsb Nat.odd k) eqn:Es.
    + rewrite (zmom_R D n), zmom_odd by auto. apply Z.eqb_eq in H. unfold Q2R at 1. rewrite H.
      replace (_ - _) with 0 by (unfold Rdiv; ring). rewrite Rabs_R0. exact T0.
    + apply andb_true_iff in H. destruct H as [N1 N2]. pose proof (imom_ok D d n k zgs HD Es Dk Hk OK' Hs) as [B1 B2].
      assert (HS : (0 < sS)%Z) by reflexivity.
      apply (near_row_ok sS vl vh t 1 _ _ V HS Hl HV T0) in N1. apply (near_row_ok sS vl vh t 1 _ _ V HS Hl HV T0) in N2.
      set (x := apply (sym_rule (map (gZ D) zgs)) (mono k)) in *. set (m1 := fst (imom (itabG D d zgs) k)) in *. set (m2 := snd (imom (itabG D d zgs) k)) in *.
      assert (ED : IZR (den sS 1) = IZR Dn * IZR sS) by (unfold den; rewrite mult_IZR; change (Z.of_nat 1) with 1%Z; rewrite Z.pow_1_r; reflexivity). rewrite ED in N1, N2.
      assert (P : 0 < IZR Dn * IZR sS) by (apply Rmult_lt_0_compat; [apply (IZR_lt 0); reflexivity|apply sS_pos]).
      assert (V0 : 0 < V). { apply (IZR_lt 0) in Hl. assert (0 < IZR s64) by (apply (IZR_lt 0); reflexivity). nra. }
      assert (IV : 0 < / V) by (apply Rinv_0_lt_compat; auto).
      assert (C1 : IZR m1 / (IZR Dn * IZR sS) * / V <= x * / V). { apply Rmult_le_compat_r; [lra|]. apply (Rmult_le_reg_r (IZR Dn * IZR sS)); auto. unfold Rdiv. rewrite Rmult_assoc, Rinv_l by lra. lra. }
      assert (C2 : x * / V <= IZR m2 / (IZR Dn * IZR sS) * / V). { apply Rmult_le_compat_r; [lra|]. apply (Rmult_le_reg_r (IZR Dn * IZR sS)); auto. unfold Rdiv. rewrite (Rmult_assoc (IZR m2)), Rinv_l by lra. lra. }
      apply Rabs_le_inv' in N1. apply Rabs_le_inv' in N2. apply Rabs_le. lra.
Qed.
