(** The conical product rules t2.stroud_t2_7_1 and t3.stroud_t3_7_1, and the product rules in the plain form for the sphere. *)
From Coq Require Import Reals List Arith Lia Lra String ZArith QArith Qreals Bool.
From Verif Require Import Spec Spec1 RsumLemmas IntegralSpec IntegralProofs PyBase CombModel SymmModel OrbitModel SchemeTools Tower TowerMoments NearTools FixSpec DecSpec DecModel DecTools LegSpec LegTools S2Families T2Lether T2Model T3Model U3Model RestModel RestProofs.
Import ListNotations.
Local Notation length := List.length.
Set Bullet Behavior "Strict Subproofs".
Open Scope R_scope.

Lemma columns4 (px py pz pu : list R) : length px = length py -> length px = length pz -> length px = length pu ->
  columns (length px) [px; py; pz; pu] = map (fun i => [fst (fst (fst i)); snd (fst (fst i)); snd (fst i); snd i]) (List.combine (List.combine (List.combine px py) pz) pu).
Proof.
  intros L L' L''. unfold columns. revert py pz pu L L' L''. induction px as [|x px IH]; intros [|y py] [|z pz] [|u pu] L L' L''; try discriminate; auto.
  cbn [length seq map List.combine fst snd nth]. f_equal. rewrite <- (IH py pz pu) by (cbn in L, L', L''; lia). rewrite <- seq_shift, map_map. reflexivity.
Qed.
Lemma plain4_index {A} (w x y z u : A -> R) (l : list A) d :
  t3_scheme [("plain"%string, (map w l, [map x l; map y l; map z l; map u l]))] d = Some (mk_scheme 3 (map (fun a => (w a, [x a; y a; z a; u a])) l) d).
Proof.
  unfold t3_scheme, t3_expand_str. cbn [resolve lookup]. unfold lookup. cbn [t3_table find fst String.eqb Ascii.eqb Bool.eqb option_map snd bind].
  unfold t3_expand, gen_expand. cbn [map fst snd gen_points_only]. unfold gen_key_points, t3_cols. cbn [t3_arity length Nat.eqb forallb].
  rewrite !map_length, Nat.eqb_refl. cbn [andb bind length t3_orbit seq map fst snd List.combine tile List.concat repeat].
  rewrite <- (map_length x l), columns4 by (rewrite !map_length; auto). unfold tile. cbn [repeat List.concat]. rewrite !app_nil_r. do 2 f_equal.
  unfold mk_rule. cbn [fst snd]. rewrite !combine_map2', !map_map. cbn [fst snd nth]. rewrite combine_map2'. apply map_ext. intros. reflexivity.
Qed.
(** The rule with integer data over a common denominator. *)
Definition DD : Z := (10 ^ 20)%Z.
Definition conZ (l : list (Z * Z)) (a m : nat) : Z := fold_right Z.add 0%Z (map (fun bs => fst bs * (snd bs ^ Z.of_nat a * (DD - snd bs) ^ Z.of_nat m))%Z l).
Definition conR (l : list (R * R)) (a m : nat) : R := Rsum (map (fun bs => fst bs * (snd bs ^ a * (1 - snd bs) ^ m)) l).
Definition of_Z (l : list (Z * Z)) : list (R * R) := map (fun bs => (IZR (fst bs) / IZR DD, IZR (snd bs) / IZR DD)) l.
Lemma DD_pos : 0 < IZR DD. Proof. apply (IZR_lt 0). reflexivity. Qed.
Definition conQ (l : list (Z * Z)) (a m : nat) : Q := (inject_Z (conZ l a m) / inject_Z (DD ^ Z.of_nat (1 + a + m)))%Q.
Lemma IZR_Zpow z n : IZR (z ^ Z.of_nat n) = IZR z ^ n.
Proof. rewrite <- pow_IZR. auto. Qed.
Lemma conQ_ok l a m : conR (of_Z l) a m = Q2R (conQ l a m).
Proof.
  pose proof DD_pos as P. assert (PD : 0 < IZR DD ^ (1 + a + m)) by (apply pow_lt; auto).
  unfold conQ. rewrite Q2R_divnz by (rewrite Q2R_IZR, IZR_Zpow; lra). rewrite !Q2R_IZR, IZR_Zpow. apply (Rmult_eq_reg_r (IZR DD ^ (1 + a + m))); [|lra].
  unfold Rdiv. rewrite Rmult_assoc, Rinv_l, Rmult_1_r by lra. unfold conR, of_Z, conZ. induction l as [|[b s] l IH]; cbn [map Rsum fold_right fst snd]; [ring|].
  rewrite Rmult_plus_distr_r, IH, plus_IZR. f_equal. rewrite !mult_IZR, !IZR_Zpow, minus_IZR.
  replace (1 - IZR s / IZR DD) with ((IZR DD - IZR s) / IZR DD) by (field; lra). unfold Rdiv. rewrite !Rpow_mult_distr, !pow_inv, !pow_add, pow_1. field. repeat split; try apply pow_nonzero; lra.
Qed.
Definition con1Z : list (Z * Z) :=
  [(13550691343150120000, 5710419611452533000); (20346456801026850000, 27684301363814150000); (12984754760822470000, 58359043236893180000); (3118097095000554000, 86024013565622510000)]%Z.
Definition con2Z : list (Z * Z) :=
  [(11088841561126850000, 4850054944699245000); (14345878979921670000, 23860073755184560000); (6863388717292915000, 51704729510435220000); (1035224074991912000, 79585141789676570000)]%Z.
Lemma con1_ok : conical_1 = of_Z con1Z.
Proof. unfold conical_1, of_Z, con1Z, DD. cbn [map fst snd]. change (10 ^ 20)%Z with 100000000000000000000%Z. repeat (apply f_equal2; [apply f_equal2; lra|]). reflexivity. Qed.
Lemma con2_ok : conical_2 = of_Z con2Z.
Proof. unfold conical_2, of_Z, con2Z, DD. cbn [map fst snd]. change (10 ^ 20)%Z with 100000000000000000000%Z. repeat (apply f_equal2; [apply f_equal2; lra|]). reflexivity. Qed.
Definition betaQ (a b : nat) : Q := (inject_Z (zfact a * zfact b) / inject_Z (zfact (a + b + 1)))%Q.
Lemma betaQ_ok a b : Q2R (betaQ a b) = INR (fact a) * INR (fact b) / INR (fact (a + b + 1)).
Proof. unfold betaQ. rewrite Q2R_divnz by (rewrite zfact_fact; apply INR_fact_neq_0). rewrite inject_Z_mult, Q2R_mult, !zfact_fact. auto. Qed.
(** The Gauss rule moved to [0, 1]. *)
Definition half_rule (leggauss : nat -> list R * list R) : list (R * R) :=
  List.combine (map (fun w => w / 2) (snd (leggauss 4%nat))) (map (fun x => (x + 1) / 2) (fst (leggauss 4%nat))).
Lemma half_rule_beta leggauss b c : leggauss_ok leggauss -> (b + c <= 7)%nat -> conR (half_rule leggauss) b c = Q2R (betaQ b c).
Proof.
  intros HL H. destruct (HL 4%nat ltac:(lia)) as [L1 [L2 X]]. rewrite betaQ_ok. unfold half_rule, conR. set (q := List.combine (snd (leggauss 4%nat)) (fst (leggauss 4%nat))) in X.
  assert (E : List.combine (map (fun w => w / 2) (snd (leggauss 4%nat))) (map (fun x => (x + 1) / 2) (fst (leggauss 4%nat))) = map (fun wx => (fst wx / 2, (snd wx + 1) / 2)) q).
  { unfold q. generalize (snd (leggauss 4%nat)), (fst (leggauss 4%nat)). intros l. induction l as [|a l IH]; intros [|x l']; cbn [map List.combine]; auto. cbn [fst snd]. f_equal. auto. }
  rewrite E, map_map. cbn [fst snd]. pose proof (leg_beta 7 q c b X H) as Z. unfold apply1 in Z.
  transitivity (1/2 * Rsum (map (fun wx => fst wx * (((snd wx + 1) / 2) ^ b * (1 - (snd wx + 1) / 2) ^ c)) q)); [rewrite <- (Rsum_map_scal (1/2)); apply Rsum_map_ext; intros; field|].
  rewrite Z. field. apply INR_fact_neq_0.
Qed.
Definition qin (e t : Q) : bool := (Qle_bool e t && Qle_bool (- e) t)%bool.
Lemma qin_ok e t : qin e t = true -> Rabs (Q2R e) <= Q2R t.
Proof. unfold qin. rewrite andb_true_iff, !Qle_bool_iff. intros [A B]. apply Qle_Rle in A, B. rewrite Q2R_opp in B. apply Rabs_le. lra. Qed.
(** The two one-dimensional rules against the moments a! (m + j)! / (a + m + j + 1)! of their weights (1 - s)^j. *)
Definition check1 (l : list (Z * Z)) (j : nat) (t : Q) : bool :=
  forallb (fun k => match k with [a; m] => qin (conQ l a m - betaQ a (m + j))%Q t | _ => false end) (kmonos 2 7).
Lemma check1_ok l j t a m : check1 l j t = true -> (a + m <= 7)%nat -> Rabs (Q2R (conQ l a m) - Q2R (betaQ a (m + j))) <= Q2R t.
Proof.
  intros C H. unfold check1 in C. rewrite forallb_forall in C. assert (D : (tdeg [a; m] <= 7)%nat) by (unfold tdeg; cbn; lia). specialize (C [a; m] (kmonos_all 2 7 [a; m] eq_refl D)).
  apply qin_ok in C. rewrite Q2R_minus in C. exact C.
Qed.
Lemma con1_check : check1 con1Z 1 (1 # 1000000000000000) = true. Proof. vm_compute. reflexivity. Qed.
Lemma con2_check : check1 con2Z 2 (1 # 1000000000000000) = true. Proof. vm_compute. reflexivity. Qed.
Lemma betaQ_bounds a b : 0 <= Q2R (betaQ a b) <= 1.
Proof.
  rewrite betaQ_ok. pose proof (INR_fact_lt_0 a) as A. pose proof (INR_fact_lt_0 b) as B. pose proof (INR_fact_lt_0 (a + b + 1)) as C. split.
  - apply Rmult_le_pos; [nra|]. left. apply Rinv_0_lt_compat. auto.
  - apply (Rmult_le_reg_r (INR (fact (a + b + 1)))); auto. unfold Rdiv. rewrite Rmult_assoc, Rinv_l, Rmult_1_r, Rmult_1_l by lra. rewrite <- mult_INR. apply le_INR.
    clear. induction b as [|b IH]; [cbn [fact]; rewrite Nat.mul_1_r; apply fact_le; lia|]. replace (a + S b + 1)%nat with (S (a + b + 1)) by lia. cbn [fact] in *. nia.
Qed.
Lemma beta_half a b : (1 <= b)%nat -> 0 <= Q2R (betaQ a b) <= 1/2.
Proof.
  intros H. split; [apply betaQ_bounds|]. rewrite betaQ_ok. pose proof (INR_fact_lt_0 (a + b + 1)) as C.
  apply (Rmult_le_reg_r (INR (fact (a + b + 1)))); auto. unfold Rdiv. rewrite !Rmult_assoc, Rinv_l, Rmult_1_r by lra. rewrite <- mult_INR.
  assert (E : (2 * (fact a * fact b) <= fact (a + b + 1))%nat).
  { destruct b as [|b]; [lia|]. clear. induction b as [|b IH].
    - replace (a + 1 + 1)%nat with (S (S a)) by lia. pose proof (lt_O_fact a). cbn [fact]. nia.
    - replace (a + S (S b) + 1)%nat with (S (a + S b + 1)) by lia. change (fact (S (S b))) with (S (S b) * fact (S b))%nat. change (fact (S (a + S b + 1))) with (S (a + S b + 1) * fact (a + S b + 1))%nat. nia. }
  apply le_INR in E. rewrite mult_INR in E. change (INR 2) with 2 in E. lra.
Qed.
Lemma simplexQ_2 a b c : Q2R (simplexQ 2 [a; b; c]) = 2 * Q2R (betaQ b c) * Q2R (betaQ a (b + c + 1)).
Proof.
  rewrite !betaQ_ok. unfold simplexQ. rewrite Q2R_divnz, !Q2R_mult, Q2R_Qprod, !zfact_fact by (rewrite zfact_fact; apply INR_fact_neq_0). cbn [map Rprod]. rewrite !zfact_fact.
  replace (2 + tdeg [a; b; c])%nat with (a + (b + c + 1) + 1)%nat by (unfold tdeg; cbn; lia). replace (INR (fact 2)) with 2 by (cbn; lra). field. split; apply INR_fact_neq_0.
Qed.
Lemma simplexQ_3 a b c d : Q2R (simplexQ 3 [a; b; c; d]) = 6 * Q2R (betaQ c d) * Q2R (betaQ b (c + d + 1)) * Q2R (betaQ a (b + c + d + 2)).
Proof.
  rewrite !betaQ_ok. unfold simplexQ. rewrite Q2R_divnz, !Q2R_mult, Q2R_Qprod, !zfact_fact by (rewrite zfact_fact; apply INR_fact_neq_0). cbn [map Rprod]. rewrite !zfact_fact.
  replace (3 + tdeg [a; b; c; d])%nat with (a + (b + c + d + 2) + 1)%nat by (unfold tdeg; cbn; lia). replace (b + (c + d + 1) + 1)%nat with (b + c + d + 2)%nat by lia.
  replace (INR (fact 3)) with 6 by (cbn; lra). field. repeat split; apply INR_fact_neq_0.
Qed.
Lemma Rsum_product {A B} (f : A -> R) (g : B -> R) (l : list A) (l' : list B) : Rsum (flat_map (fun a => map (fun b => f a * g b) l') l) = Rsum (map f l) * Rsum (map g l').
Proof. rewrite Rsum_flat_map. induction l as [|a l IH]; cbn [map Rsum]; [ring|]. rewrite IH, Rsum_map_scal. ring. Qed.
Lemma Rsum_scal_list c l : c * Rsum l = Rsum (map (Rmult c) l).
Proof. induction l as [|a l IH]; cbn [map Rsum]; [ring|]. rewrite <- IH. ring. Qed.
Lemma Rsum_triple {A} (f : A -> R) (l : list A) (m : list R) : Rsum (map f l) * Rsum m = Rsum (flat_map (fun a => map (fun v => f a * v) m) l).
Proof. rewrite Rsum_flat_map. induction l as [|a l IH]; cbn [map Rsum]; [ring|]. rewrite <- IH, Rsum_map_scal, map_id. ring. Qed.
Theorem t2_stroud_7_1_ok leggauss : leggauss_ok leggauss -> reaches 1 (simplex_mean 2) 3 7 (t2_stroud_7_1 leggauss).
Proof.
  intros HL. unfold t2_stroud_7_1, with_tol. fold (half_rule leggauss). rewrite plain3_index. cbn [bind].
  apply (reaches_monos 1 (simplex_mean 2) 3 7 (simplexQ 2)); [apply simplex_moments|reflexivity|lra| |].
  - cbn [s_rule]. rewrite List.Forall_map. apply List.Forall_forall. intros. reflexivity.
  - intros k Lk Dk. cbn [s_rule]. destruct k as [|a [|b [|c [|]]]]; try discriminate.
    assert (Hd : (a + b + c <= 7)%nat) by (unfold tdeg in Dk; cbn in Dk; lia).
    replace (apply _ _) with (Q2R (2 * betaQ b c * conQ con1Z a (b + c))).
    + pose proof (check1_ok _ _ _ a (b + c) con1_check ltac:(lia)) as C. pose proof (betaQ_bounds b c) as B0. rewrite simplexQ_2, !Q2R_mult. replace (Q2R 2) with 2 by (unfold Q2R; cbn; lra).
      replace (Q2R (1 # 1000000000000000)) with 1.0e-15 in C by (unfold Q2R; cbn [Qnum Qden]; lra).
      rewrite <- Rmult_minus_distr_l, Rabs_mult, (Rabs_right (2 * Q2R (betaQ b c))) by lra. generalize dependent (Rabs (Q2R (conQ con1Z a (b + c)) - Q2R (betaQ a (b + c + 1)))). intros e C. nra.
    + rewrite !Q2R_mult, <- (half_rule_beta leggauss b c HL) by lia. rewrite <- conQ_ok, <- con1_ok. replace (Q2R 2) with 2 by (unfold Q2R; cbn; lra).
      unfold apply. rewrite map_map. cbn [fst snd mono]. rewrite map_flat_map. unfold conR. rewrite Rmult_assoc, <- Rsum_product, Rsum_scal_list.
      rewrite map_flat_map. f_equal. rewrite !flat_map_concat_map. f_equal. apply map_ext. intros ar. rewrite !map_map. apply map_ext. intros bs. cbn [fst snd].
      rewrite !Rpow_mult_distr, pow_add. ring.
Qed.
Theorem t3_stroud_7_1_ok leggauss : leggauss_ok leggauss -> reaches 1 (simplex_mean 3) 4 7 (t3_stroud_7_1 leggauss).
Proof.
  intros HL. unfold t3_stroud_7_1, with_tol. fold (half_rule leggauss). rewrite plain4_index. cbn [bind].
  apply (reaches_monos 1 (simplex_mean 3) 4 7 (simplexQ 3)); [apply simplex_moments|reflexivity|lra| |].
  - cbn [s_rule]. rewrite List.Forall_map. apply List.Forall_forall. intros. reflexivity.
  - intros k Lk Dk. cbn [s_rule]. destruct k as [|a [|b [|c [|d [|]]]]]; try discriminate.
    assert (Hd : (a + b + c + d <= 7)%nat) by (unfold tdeg in Dk; cbn in Dk; lia).
    replace (apply _ _) with (Q2R (6 * betaQ c d * conQ con1Z b (c + d) * conQ con2Z a (b + c + d))).
    + pose proof (check1_ok _ _ _ b (c + d) con1_check ltac:(lia)) as C1. pose proof (check1_ok _ _ _ a (b + c + d) con2_check ltac:(lia)) as C2.
      replace (Q2R (1 # 1000000000000000)) with 1.0e-15 in C1, C2 by (unfold Q2R; cbn [Qnum Qden]; lra).
      pose proof (betaQ_bounds c d) as B0. pose proof (beta_half b (c + d + 1) ltac:(lia)) as B1. pose proof (beta_half a (b + c + d + 2) ltac:(lia)) as B2. rewrite simplexQ_3, !Q2R_mult. replace (Q2R 6) with 6 by (unfold Q2R; cbn; lra).
      set (x0 := Q2R (betaQ c d)) in *. set (x1 := Q2R (betaQ b (c + d + 1))) in *. set (x2 := Q2R (betaQ a (b + c + d + 2))) in *. clearbody x0 x1 x2.
      generalize dependent (Q2R (conQ con1Z b (c + d))). intros y1 C1. generalize dependent (Q2R (conQ con2Z a (b + c + d))). intros y2 C2.
      replace (6 * x0 * y1 * y2 - 6 * x0 * x1 * x2) with (6 * x0 * ((y1 - x1) * x2 + (y2 - x2) * y1)) by ring. rewrite Rabs_mult, (Rabs_right (6 * x0)) by lra.
      assert (Y1 : Rabs y1 <= 1/2 + 1.0e-15).
      { replace y1 with (x1 + (y1 - x1)) by ring. eapply Rle_trans; [apply Rabs_triang|]. rewrite (Rabs_right x1) by lra. lra. }
      assert (E : Rabs ((y1 - x1) * x2 + (y2 - x2) * y1) <= 1.0e-15 * (1/2) + 1.0e-15 * (1/2 + 1.0e-15)).
      { eapply Rle_trans; [apply Rabs_triang|]. rewrite !Rabs_mult, (Rabs_right x2) by lra. apply Rplus_le_compat; apply Rmult_le_compat; auto using Rabs_pos; lra. }
      set (e := Rabs ((y1 - x1) * x2 + (y2 - x2) * y1)) in *. assert (0 <= e) by apply Rabs_pos. clearbody e. nra.
    + rewrite !Q2R_mult, <- (half_rule_beta leggauss c d HL) by lia. rewrite <- !conQ_ok, <- con1_ok, <- con2_ok. replace (Q2R 6) with 6 by (unfold Q2R; cbn; lra).
      unfold apply. rewrite map_map. cbn [fst snd mono]. rewrite map_flat_map. unfold conR.
      transitivity (6 * (Rsum (map (fun bs => fst bs * (snd bs ^ c * (1 - snd bs) ^ d)) (half_rule leggauss)) *
        Rsum (flat_map (fun b0 => map (fun c0 => (fst b0 * (snd b0 ^ b * (1 - snd b0) ^ (c + d))) * (fst c0 * (snd c0 ^ a * (1 - snd c0) ^ (b + c + d)))) conical_2) conical_1))); [rewrite Rsum_product; ring|].
      rewrite Rsum_triple, Rsum_scal_list, map_flat_map. f_equal. rewrite !flat_map_concat_map. f_equal. apply map_ext. intros ar. rewrite map_map, flat_map_concat_map, !concat_map, !map_map. f_equal.
      apply map_ext. intros bs. rewrite !map_map. apply map_ext. intros ct. destruct ar as [A r], bs as [B s], ct as [C' t]. cbn [fst snd].
      rewrite !Rpow_mult_distr, !pow_add. ring.
Qed.
