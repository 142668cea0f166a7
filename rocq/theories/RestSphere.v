(** u3.mclaren_10, and the two product rules built on it: s3.stroud_14_1 and e3r2.stroud_e3r2_14_1. *)
From Coq Require Import Reals List Arith Lia Lra String ZArith QArith Qreals Bool.
From Verif Require Import Spec Spec1 RsumLemmas IntegralSpec IntegralProofs SphereSpec SphereInt RadialInt PyBase CombModel SymmModel OrbitModel SchemeTools Tower TowerMoments
  S2Model S2Families FixTools NearTools DecSpec DecModel DecTools U3Model GoodModel StengerProofs RestModel RestProofs RestConical.
Import ListNotations.
Local Notation length := List.length.
Set Bullet Behavior "Strict Subproofs".
Open Scope R_scope.

Lemma sphere_moments n : moments (sphere_mean (S n)) (S n) (sphereQ (S n)).
Proof.
  split; [|intros; apply sphereQ_ok; auto; lia]. intros p d H. unfold sphere_mean. rewrite sphere_int_mpeval by (eapply List.Forall_impl; [|exact H]; cbn; tauto).
  unfold Rdiv. rewrite <- Rsum_map_scal_r. apply Rsum_map_ext. intros [c k] Hc. cbn [fst snd]. unfold mp_ok in H. rewrite List.Forall_forall in H. apply H in Hc. cbn [snd] in Hc.
  rewrite <- (sphereQ_ok (S n) k) by first [lia | tauto]. unfold sphere_mean.
  rewrite (sphere_int_ext _ (mono k) (mpeval [(1, k)])) by (intros; unfold mpeval; cbn; ring).
  rewrite sphere_int_mpeval by (repeat constructor; cbn; tauto). cbn [map Rsum fst snd]. unfold Rdiv. ring.
Qed.
(** The twelve images of a point under the even sign changes and the cyclic permutations. *)
Definition tetra (f : point -> R) (x y z : R) : R :=
  let g x y z := f [1 * x; 1 * y; 1 * z] + f [1 * x; -1 * y; -1 * z] + f [-1 * x; -1 * y; 1 * z] + f [-1 * x; 1 * y; -1 * z] in
  g x y z + g y z x + g z x y.
Definition par (k : list nat) : bool := match k with [a; b; c] => Bool.eqb (Nat.odd a) (Nat.odd b) && Bool.eqb (Nat.odd b) (Nat.odd c) | _ => false end.
Lemma m1_pow a : (-1) ^ a = if Nat.odd a then -1 else 1.
Proof. destruct (Nat.odd a) eqn:E; [apply Nat.odd_spec in E; destruct E as [m ->]; rewrite Nat.add_1_r; apply pow_1_odd|]. apply even_half in E. destruct E as [m ->]. apply pow_1_even. Qed.
Lemma tetra_mono k x y z : length k = 3%nat -> tetra (mono k) x y z = if par k then 4 * (mono k [x; y; z] + mono k [y; z; x] + mono k [z; x; y]) else 0.
Proof.
  intros L. destruct k as [|a [|b [|c [|]]]]; try discriminate. unfold tetra, par. cbn [mono]. rewrite !Rpow_mult_distr, !pow1, !m1_pow.
  destruct (Nat.odd a), (Nat.odd b), (Nat.odd c); cbn [Bool.eqb andb]; ring.
Qed.
Lemma pm_roll_rs r s : r <> 0 -> s <> 0 -> Rpm_roll [r; s; 0] = [[r; s; 0]; [r; - s; 0]; [- r; s; 0]; [- r; - s; 0]; [0; r; s]; [0; r; - s]; [0; - r; s]; [0; - r; - s]; [s; 0; r]; [- s; 0; r]; [s; 0; - r]; [- s; 0; - r]].
Proof.
  intros Hr Hs. unfold Rpm_roll, pm_roll, pm. cbn [map length]. rewrite (Reqz_false r), (Reqz_false s) by auto. replace (Reqz 0) with true by (unfold Reqz; destruct (Req_EM_T 0 0); tauto). reflexivity.
Qed.
Definition mclaren_eps : Q := 1 # 20000000000000000.
Lemma u3_mclaren_10_run : exists s, u3_mclaren_10 = Some (s, 1.0e-14) /\ s_degree s = 14%nat /\ length (s_rule s) = 72%nat /\ List.Forall (fun wp => length (snd wp) = 3%nat) (s_rule s) /\
  forall k, length k = 3%nat -> (tdeg k <= 14)%nat -> Rabs (apply (s_rule s) (mono k) - Q2R (sphereQ 3 k)) <= Q2R mclaren_eps /\ (par k = false -> apply (s_rule s) (mono k) = 0).
Proof.
  unfold u3_mclaren_10. cbv zeta.
  destruct (rsqrt_some 5) as (q & E & Pq & Hq); [lra|]. rewrite E. cbn [bind]. assert (Bq : 223/100 < q < 224/100) by (eapply sq_bounds; eauto; lra).
  destruct (rsqrt_some ((5 - 1 * q) / 10)) as (r & E1 & Pr & Hr); [lra|]. rewrite E1. cbn [bind].
  destruct (rsqrt_some ((5 - -1 * q) / 10)) as (s & E2 & Ps & Hs); [lra|]. rewrite E2. cbn [bind].
  assert (Br : 0 < r) by nra. assert (Bs : 0 < s) by nra.
  destruct (rsqrt_some 0.8318603575087328951583062165711519728388) as (z0 & E3 & P0 & H0); [lra|]. rewrite E3. cbn [bind].
  destruct (rsqrt_some 0.5607526046766541293084396308069013490725) as (z1 & E4 & P1 & H1); [lra|]. rewrite E4. cbn [bind].
  destruct (rsqrt_some 0.4118893592345073860321480490176804941547) as (z2 & E5 & P2 & H2); [lra|]. rewrite E5. cbn [bind].
  destruct (rsqrt_some 0.1479981814629634692260834719469411619893) as (z3 & E6 & P3 & H3); [lra|]. rewrite E6. cbn [bind].
  destruct (rsqrt_some 0.04473134613410273910111648293922113227845) as (z4 & E7 & P4 & H4); [lra|]. rewrite E7. cbn [bind].
  destruct (rsqrt_some 0.002768150983039381173906148718103889666260) as (z5 & E8 & P5 & H5); [lra|]. rewrite E8. cbn [bind].
  cbn [map]. rewrite !rdiv_ok by lra. cbn [opt_all bind]. rewrite pm_roll_rs by lra.
  clear E E1 E2 E3 E4 E5 E6 E7 E8.
  eexists. split; [near_lazy; reflexivity|]. split; [reflexivity|]. split; [reflexivity|]. split; [repeat constructor|].
  set (u0 := (z3 - z2) / 2 / s). set (u1 := (z1 - z4) / 2 / s). set (u2 := (z5 - z1) / 2 / s). set (u3 := (z2 - z5) / 2 / s). set (u4 := (z4 - z3) / 2 / s).
  set (v0 := (z4 + z5) / 2 / s). set (v1 := (z5 + z3) / 2 / s). set (v2 := (z2 + z4) / 2 / s). set (v3 := (z3 + z1) / 2 / s). set (v4 := (z1 + z2) / 2 / s).
  set (w0 := (z0 + z1) / 2 / s). set (w1 := (z0 + z2) / 2 / s). set (w2 := (z0 + z3) / 2 / s). set (w3 := (z0 + z4) / 2 / s). set (w4 := (z0 + z5) / 2 / s).
  cbn [s_rule]. intros k Lk Dk.
  match goal with |- context [apply ?q (mono k)] => set (Q := q) end.
  assert (A : forall f, apply Q f = 143/10080 * (tetra f u0 v0 w0 + tetra f u1 v1 w1 + tetra f u2 v2 w2 + tetra f u3 v3 w3 + tetra f u4 v4 w4) + 125/10080 * tetra f r s 0).
  { intros f. assert (O : forall x, -1 * x = - x) by (intros; ring). unfold apply, tetra, Q. cbv zeta. rewrite !O, Ropp_0, !Rmult_1_l. cbn [map Rsum fst snd]. ring. }
  clearbody Q. rewrite A, !tetra_mono by auto. destruct (par k) eqn:Ek.
  - split; [|discriminate].
    repeat match goal with H : ?g * ?g = ?x |- _ => let x' := eval lazy -[Rplus Rmult Rminus Ropp Rdiv Rinv IZR pow PI] in x in progress change (g * g = x') in H end.
    destruct k as [|a [|b [|c [|]]]]; try discriminate. cbn [mono]. unfold par in Ek. destruct (Nat.odd a) eqn:Oa, (Nat.odd b) eqn:Ob, (Nat.odd c) eqn:Oc; try discriminate.
    + apply Nat.odd_spec in Oa, Ob, Oc. destruct Oa as [i ->], Ob as [j ->], Oc as [l ->]. assert (DD' : (tdeg [i; j; l] <= 5)%nat) by (unfold tdeg in *; cbn in *; lia).
      replace (Q2R (sphereQ 3 [2 * i + 1; 2 * j + 1; 2 * l + 1]%nat)) with (Q2R 0) by (unfold sphereQ, rmQ; cbn [existsb]; rewrite Nat.add_1_r, Nat.odd_succ, Nat.even_mul; reflexivity).
      match goal with |- Rabs (?x - _) <= _ => replace x with (apply [(143/10080 * 4 * (u0 * v0 * w0), [u0 ^ 2; v0 ^ 2; w0 ^ 2]); (143/10080 * 4 * (v0 * w0 * u0), [v0 ^ 2; w0 ^ 2; u0 ^ 2]); (143/10080 * 4 * (w0 * u0 * v0), [w0 ^ 2; u0 ^ 2; v0 ^ 2]); (143/10080 * 4 * (u1 * v1 * w1), [u1 ^ 2; v1 ^ 2; w1 ^ 2]); (143/10080 * 4 * (v1 * w1 * u1), [v1 ^ 2; w1 ^ 2; u1 ^ 2]); (143/10080 * 4 * (w1 * u1 * v1), [w1 ^ 2; u1 ^ 2; v1 ^ 2]); (143/10080 * 4 * (u2 * v2 * w2), [u2 ^ 2; v2 ^ 2; w2 ^ 2]); (143/10080 * 4 * (v2 * w2 * u2), [v2 ^ 2; w2 ^ 2; u2 ^ 2]); (143/10080 * 4 * (w2 * u2 * v2), [w2 ^ 2; u2 ^ 2; v2 ^ 2]); (143/10080 * 4 * (u3 * v3 * w3), [u3 ^ 2; v3 ^ 2; w3 ^ 2]); (143/10080 * 4 * (v3 * w3 * u3), [v3 ^ 2; w3 ^ 2; u3 ^ 2]); (143/10080 * 4 * (w3 * u3 * v3), [w3 ^ 2; u3 ^ 2; v3 ^ 2]); (143/10080 * 4 * (u4 * v4 * w4), [u4 ^ 2; v4 ^ 2; w4 ^ 2]); (143/10080 * 4 * (v4 * w4 * u4), [v4 ^ 2; w4 ^ 2; u4 ^ 2]); (143/10080 * 4 * (w4 * u4 * v4), [w4 ^ 2; u4 ^ 2; v4 ^ 2]); (0, [r ^ 2; s ^ 2; 0]); (0, [s ^ 2; 0; r ^ 2]); (0, [0; r ^ 2; s ^ 2])] (mono [i; j; l]))
        by (unfold apply; cbn [map Rsum fst snd mono]; rewrite !pow_add, !pow_mult, !pow_1; ring) end.
      unfold u0, u1, u2, u3, u4, v0, v1, v2, v3, v4, w0, w1, w2, w3, w4.
      let env := tw_env in let l := near_gens env in
      lazymatch goal with |- Rabs (apply ?q _ - _) <= _ => let e := nr_reify_rule env q in change q with (rden env e); refine (proj2 (near_check_ok l env 3 5 (fun _ => 0%Q) mclaren_eps e _ _) _ _ _) end;
      [near_gens_ok|vm_compute; reflexivity|reflexivity|exact DD'].
    + apply even_half in Oa, Ob, Oc. destruct Oa as [i ->], Ob as [j ->], Oc as [l ->]. assert (DD' : (tdeg [i; j; l] <= 7)%nat) by (unfold tdeg in *; cbn in *; lia).
      replace (sphereQ 3 [2 * i; 2 * j; 2 * l]%nat) with ((fun k => sphereQ 3 (map (Nat.mul 2) k)) [i; j; l]) by reflexivity.
      match goal with |- Rabs (?x - _) <= _ => replace x with (apply [(143/10080 * 4, [u0 ^ 2; v0 ^ 2; w0 ^ 2]); (143/10080 * 4, [v0 ^ 2; w0 ^ 2; u0 ^ 2]); (143/10080 * 4, [w0 ^ 2; u0 ^ 2; v0 ^ 2]); (143/10080 * 4, [u1 ^ 2; v1 ^ 2; w1 ^ 2]); (143/10080 * 4, [v1 ^ 2; w1 ^ 2; u1 ^ 2]); (143/10080 * 4, [w1 ^ 2; u1 ^ 2; v1 ^ 2]); (143/10080 * 4, [u2 ^ 2; v2 ^ 2; w2 ^ 2]); (143/10080 * 4, [v2 ^ 2; w2 ^ 2; u2 ^ 2]); (143/10080 * 4, [w2 ^ 2; u2 ^ 2; v2 ^ 2]); (143/10080 * 4, [u3 ^ 2; v3 ^ 2; w3 ^ 2]); (143/10080 * 4, [v3 ^ 2; w3 ^ 2; u3 ^ 2]); (143/10080 * 4, [w3 ^ 2; u3 ^ 2; v3 ^ 2]); (143/10080 * 4, [u4 ^ 2; v4 ^ 2; w4 ^ 2]); (143/10080 * 4, [v4 ^ 2; w4 ^ 2; u4 ^ 2]); (143/10080 * 4, [w4 ^ 2; u4 ^ 2; v4 ^ 2]); (125/10080 * 4, [r ^ 2; s ^ 2; 0]); (125/10080 * 4, [s ^ 2; 0; r ^ 2]); (125/10080 * 4, [0; r ^ 2; s ^ 2])] (mono [i; j; l]))
        by (unfold apply; cbn [map Rsum fst snd mono]; rewrite !pow_mult; replace (0 ^ 2) with 0 by ring; ring) end.
      unfold u0, u1, u2, u3, u4, v0, v1, v2, v3, v4, w0, w1, w2, w3, w4.
      let env := tw_env in let l := near_gens env in
      lazymatch goal with |- Rabs (apply ?q _ - _) <= _ => let e := nr_reify_rule env q in change q with (rden env e); refine (proj2 (near_check_ok l env 3 7 (fun k => sphereQ 3 (map (Nat.mul 2) k)) mclaren_eps e _ _) _ _ _) end;
      [near_gens_ok|vm_compute; reflexivity|reflexivity|exact DD'].
  - split; [|intros _; ring].
    replace (Q2R (sphereQ 3 k)) with 0; [match goal with |- Rabs ?x <= _ => replace x with 0 by ring end; rewrite Rabs_R0; unfold mclaren_eps, Q2R; cbn [Qnum Qden]; lra|].
    unfold sphereQ, rmQ. destruct k as [|a [|b [|c [|]]]]; try discriminate. unfold par in Ek. cbn [existsb].
    destruct (Nat.odd a), (Nat.odd b), (Nat.odd c); try discriminate; cbn [orb]; symmetry; apply Q2R_0.
Qed.

(** Radial rules times a rule for the sphere. *)
Lemma radial_apply (C : R) (g : R * R -> R * point -> R * point) (rad : list (R * R)) (U : rule) k : List.Forall (fun wp => length (snd wp) = length k) U ->
  (forall ar bv, g ar bv = (C * (fst ar * fst bv), map (Rmult (snd ar)) (snd bv))) ->
  apply (flat_map (fun ar => map (g ar) U) rad) (mono k) = C * conR rad (tdeg k) 0 * apply U (mono k).
Proof.
  intros HU Hg. unfold conR. induction rad as [|[A r] rad IH]; cbn [flat_map map Rsum].
  - unfold apply at 1. cbn [map Rsum]. ring.
  - unfold apply at 1. rewrite map_app, Rsum_app. fold (apply (flat_map (fun ar => map (g ar) U) rad) (mono k)). rewrite IH. clear IH. rewrite map_map. cbn [fst snd pow].
    rewrite (Rsum_map_ext _ (fun bv => C * A * r ^ tdeg k * (fst bv * mono k (snd bv)))).
    + rewrite Rsum_map_scal. fold (apply U (mono k)). ring.
    + intros [B v] Hv. rewrite Hg. cbn [fst snd]. rewrite List.Forall_forall in HU. apply HU in Hv. cbn [snd] in Hv. rewrite mono_scale by auto. ring.
Qed.
(** [lo] and [hi] enclose the moments of the radial rule, [g] are the exact even ones. *)
Definition radial_check (lo hi g : nat -> Q) (b : Q) (k : list nat) : bool :=
  let n := tdeg k in let S := sphereQ 3 k in
  let t := Qminmax.Qmax (hi n - g (n / 2)%nat) (g (n / 2)%nat - lo n) in
  if par k then Qle_bool 0 S && Qle_bool 0 (lo n) && Qle_bool (t * S + hi n * mclaren_eps) b else true.
Lemma radial_bound c U lo hi g h b k : length k = 3%nat -> (tdeg k <= 14)%nat -> (0 <= Q2R b) -> forallb (radial_check lo hi g b) (kmonos 3 14) = true ->
  Q2R (lo (tdeg k)) <= c <= Q2R (hi (tdeg k)) -> (forall m, (m <= 7)%nat -> Q2R (h m) = Q2R (g m) * Q2R (/ riseQ (qnat 3) m)) ->
  Rabs (U - Q2R (sphereQ 3 k)) <= Q2R mclaren_eps -> (par k = false -> U = 0) -> Rabs (c * U - Q2R (rmQ h k)) <= Q2R b.
Proof.
  intros Lk Dk B0 CH Hc Hh HU HP. rewrite forallb_forall in CH. specialize (CH k (kmonos_all 3 14 k Lk Dk)). unfold radial_check in CH.
  assert (E : Q2R (rmQ h k) = Q2R (g (tdeg k / 2)%nat) * Q2R (sphereQ 3 k)).
  { unfold sphereQ, rmQ. destruct (existsb Nat.odd k); [rewrite Q2R_0; ring|]. rewrite !Q2R_mult, Hh by (apply (Nat.div_le_mono _ 14 2); lia). ring. }
  rewrite E. set (S := Q2R (sphereQ 3 k)) in *. destruct (par k) eqn:Ep.
  - apply andb_prop in CH. destruct CH as [CH CH3]. apply andb_prop in CH. destruct CH as [CH1 CH2]. apply Qle_bool_imp_le, Qle_Rle in CH1, CH2. rewrite Q2R_0 in CH1, CH2. fold S in CH1. apply Qle_bool_imp_le, Qle_Rle in CH3. rewrite Q2R_plus, !Q2R_mult in CH3. fold S in CH3.
    set (t := Qminmax.Qmax _ _) in CH3. assert (T : Rabs (c - Q2R (g (tdeg k / 2)%nat)) <= Q2R t).
    { pose proof (Qle_Rle _ _ (Qminmax.Q.le_max_l (hi (tdeg k) - g (tdeg k / 2)%nat) (g (tdeg k / 2)%nat - lo (tdeg k)))) as M1.
      pose proof (Qle_Rle _ _ (Qminmax.Q.le_max_r (hi (tdeg k) - g (tdeg k / 2)%nat) (g (tdeg k / 2)%nat - lo (tdeg k)))) as M2. fold t in M1, M2. rewrite !Q2R_minus in M1, M2. apply Rabs_le. lra. }
    replace (c * U - _) with ((c - Q2R (g (tdeg k / 2)%nat)) * S + c * (U - S)) by ring. eapply Rle_trans; [apply Rabs_triang|]. rewrite !Rabs_mult, (Rabs_right S), (Rabs_right c) by lra.
    eapply Rle_trans; [|exact CH3]. apply Rplus_le_compat; [apply Rmult_le_compat_r; auto|]. apply Rmult_le_compat; auto using Rabs_pos; lra.
  - rewrite HP by auto. replace S with 0; [rewrite !Rmult_0_r, Rminus_0_r, Rabs_R0; auto|]. unfold S, sphereQ, rmQ. destruct k as [|a' [|b' [|c' [|]]]]; try discriminate. unfold par in Ep. cbn [existsb].
    destruct (Nat.odd a'), (Nat.odd b'), (Nat.odd c'); try discriminate; cbn [orb]; symmetry; apply Q2R_0.
Qed.
(** Rounding to multiples of 10^-25. *)
Definition flo (q : Q) : Q := (Qnum q * 10 ^ 25 / Zpos (Qden q)) # (10 ^ 25).
Definition fhi (q : Q) : Q := (Qnum q * 10 ^ 25 / Zpos (Qden q) + 1) # (10 ^ 25).
(** s3.stroud_14_1 *)
Definition s3radZ : list (Z * Z) :=
  [(3284025994586210000, 32425342340380970000); (9804813271549834000, 61337143270059080000); (12626367286460190000, 83603110732663620000); (7618126780737085000, 96816023950762610000)]%Z.
(** Enclosures of the moments, as tables. *)
Definition enclosed_in (lo hi : list Q) (f g : nat -> Q) : bool :=
  forallb (fun n => Qle_bool (nth n lo 0%Q) (f n) && Qle_bool (g n) (nth n hi 0%Q)) (seq 0 15).
Lemma enclosed_in_ok lo hi f g n : enclosed_in lo hi f g = true -> (n <= 14)%nat -> Q2R (nth n lo 0%Q) <= Q2R (f n) /\ Q2R (g n) <= Q2R (nth n hi 0%Q).
Proof.
  intros H Hn. unfold enclosed_in in H. rewrite forallb_forall in H. specialize (H n). rewrite in_seq in H. specialize (H ltac:(lia)). apply andb_prop in H. destruct H as [A B].
  split; apply Qle_Rle, Qle_bool_imp_le; auto.
Qed.
(** The moments of a radial rule against a table, in ball arithmetic; scaled by 2^20 to keep the precision. *)
Definition rad_ex (l : list (Z * Z)) : list (ex * list ex) := map (fun bs => (EDiv (EZ (2 ^ 20 * fst bs)) (EZ DD), [EDiv (EZ (snd bs)) (EZ DD)])) l.
Definition rad_near (l : list (Z * Z)) (T : list Q) (t : Q) : bool := near_check [] 1 14 (fun k => nth (hd 0%nat k) T 0%Q) t (rad_ex l).
Definition scQ : Q := 1 # 1048576.
Lemma scQ_ok : Q2R scQ = / 1048576. Proof. unfold scQ, Q2R. cbn [Qnum Qden]. lra. Qed.
Lemma rad_near_ok l T t n : rad_near l T t = true -> (n <= 14)%nat -> Q2R ((nth n T 0%Q - t) * scQ) <= conR (of_Z l) n 0 <= Q2R ((nth n T 0%Q + t) * scQ).
Proof.
  intros H Hn. assert (D : (tdeg [n] <= 14)%nat) by (unfold tdeg; cbn; lia). pose proof (proj2 (near_check_ok [] [] 1 14 _ t (rad_ex l) I H) [n] eq_refl D) as E. cbn [hd] in E.
  rewrite !Q2R_mult, Q2R_minus, Q2R_plus, scQ_ok. set (T0 := Q2R (nth n T 0%Q)) in *. set (t0 := Q2R t) in *. clearbody T0 t0.
  replace (apply (rden [] (rad_ex l)) (mono [n])) with (conR (of_Z l) n 0 * 1048576) in E.
  - set (c := conR (of_Z l) n 0) in *. clearbody c. pose proof (Rle_abs (c * 1048576 - T0)). pose proof (Rle_abs (- (c * 1048576 - T0))) as M. rewrite Rabs_Ropp in M. lra.
  - unfold conR, of_Z, rad_ex, apply, rden. rewrite !map_map, <- Rsum_map_scal_r. apply Rsum_map_ext. intros [b s] _. cbn [fst snd map eden mono pow]. rewrite !mult_IZR. change (IZR (2 ^ 20)) with 1048576. unfold Rdiv. ring.
Qed.
Definition s3T : list Q := Eval vm_compute in map (fun n => flo (conQ s3radZ n 0 / scQ)) (seq 0 15).
Definition s3t : Q := 1 # 1000000000000.
Definition s3lo : list Q := Eval vm_compute in map (fun n => flo (3 * ((nth n s3T 0%Q - s3t) * scQ))) (seq 0 15).
Definition s3hi : list Q := Eval vm_compute in map (fun n => fhi (3 * ((nth n s3T 0%Q + s3t) * scQ))) (seq 0 15).
Lemma map_nth_seq {A B} (f : A -> B) l d : map (fun i => f (nth i l d)) (seq 0 (length l)) = map f l.
Proof. induction l as [|x l IH]; cbn [length seq map nth]; auto. f_equal. rewrite <- seq_shift, map_map. apply IH. Qed.
Lemma s3_stroud_14_1_ok : reaches 1 (ball_mean 3) 3 14 s3_stroud_14_1_full.
Proof.
  destruct u3_mclaren_10_run as (u & E & _ & L72 & D3 & HU). unfold s3_stroud_14_1_full. rewrite E. cbn [bind fst]. clear E. unfold s3_stroud_14_1. cbv zeta.
  set (U := s_rule u) in *. unfold with_tol. cbn [bind].
  assert (R : scale_rule 3 (flat_map (fun i => map (fun j => (nth i [3.284025994586210e-02; 9.804813271549834e-02; 1.262636728646019e-01; 7.618126780737085e-02] 0 * fst (nth j U (0, [])),
     map (fun x => nth i [3.242534234038097e-01; 6.133714327005908e-01; 8.360311073266362e-01; 9.681602395076261e-01] 0 * x) (snd (nth j U (0, []))))) (seq 0 72)) (seq 0 4)) =
    flat_map (fun ar => map (fun bv => (3 * (fst ar * fst bv), map (Rmult (snd ar)) (snd bv))) U) (of_Z s3radZ)).
  { unfold scale_rule. rewrite map_flat_map, <- L72. change (seq 0 4) with [0; 1; 2; 3]%nat. unfold of_Z, s3radZ. cbn [map flat_map fst snd]. cbn [nth].
    assert (G : forall A r A' r', A = A' -> r = r' -> map (fun wp : R * point => (fst wp * 3, snd wp)) (map (fun j => (A * fst (nth j U (0, [])), map (fun x => r * x) (snd (nth j U (0, []))))) (seq 0 (length U)))
       = map (fun bv => (3 * (A' * fst bv), map (Rmult r') (snd bv))) U).
    { intros A r A' r' -> ->. rewrite map_map. cbn [fst snd]. rewrite (map_nth_seq (fun bv => (A' * fst bv * 3, map (fun x => r' * x) (snd bv)))). apply map_ext. intros [b v]. cbn [fst snd]. f_equal. ring. }
    unfold DD. change (10 ^ 20)%Z with 100000000000000000000%Z. repeat (apply f_equal2; [apply G; lra|]). reflexivity. }
  rewrite R. clear R.
  apply (reaches_monos 1 (ball_mean 3) 3 14 (ballQ 3)); [apply ball_moments|reflexivity|lra| |]; cbn [s_rule].
  - apply List.Forall_forall. intros wp Hw. apply in_flat_map in Hw. destruct Hw as [ar [_ Hw]]. apply in_map_iff in Hw. destruct Hw as [bv [<- Hb]]. cbn [snd]. rewrite map_length. rewrite List.Forall_forall in D3. apply D3; auto.
  - intros k Lk Dk. rewrite (radial_apply 3 _ (of_Z s3radZ) U k); [|rewrite Lk; auto|reflexivity].
    replace (1 * 1.0e-14) with (Q2R (1 # 100000000000000)) by (unfold Q2R; cbn [Qnum Qden]; lra). destruct (HU k Lk Dk) as [U1 U2].
    apply (radial_bound _ _ (fun n => nth n s3lo 0%Q) (fun n => nth n s3hi 0%Q) (fun m => 3 / qnat (3 + 2 * m))%Q (fun m => / riseQ (qnat 3 + 2) m)%Q); [exact Lk|exact Dk| | | | |exact U1|exact U2].
    + unfold Q2R; cbn [Qnum Qden]; lra.
    + vm_compute. reflexivity.
    + assert (N : rad_near s3radZ s3T s3t = true) by (vm_compute; reflexivity). apply (rad_near_ok _ _ _ (tdeg k)) in N; auto.
      assert (E : enclosed_in s3lo s3hi (fun n => 3 * ((nth n s3T 0%Q - s3t) * scQ))%Q (fun n => 3 * ((nth n s3T 0%Q + s3t) * scQ))%Q = true) by (vm_compute; reflexivity).
      apply (enclosed_in_ok _ _ _ _ (tdeg k)) in E; [|exact Dk]. destruct E as [E1 E2]. rewrite (Q2R_mult 3) in E1. rewrite (Q2R_mult 3) in E2. replace (Q2R 3) with 3 in E1, E2 by (unfold Q2R; cbn; lra). lra.
    + intros m Hm. rewrite <- Q2R_mult. apply Qeq_eqR. do 8 (destruct m as [|m]; [vm_compute; reflexivity|]). lia.
Qed.
(** e3r2.stroud_e3r2_14_1 *)
Definition e3radZ : list (Z * Z) :=
  [(22650437327930350000, 72355101875284020000); (19080848008589960000, 146855328921666900000); (2539731378612040000, 226658058453184400000); (40329557505501350, 319099320178152700000)]%Z.
Definition e3T : list Q := Eval vm_compute in map (fun n => flo (conQ e3radZ n 0 / scQ)) (seq 0 15).
Definition e3t : Q := 1 # 100000000.
Definition e3lo : list Q := Eval vm_compute in map (fun n => flo (4 * ((nth n e3T 0%Q - e3t) * scQ) / spQhi)) (seq 0 15).
Definition e3hi : list Q := Eval vm_compute in map (fun n => fhi (4 * ((nth n e3T 0%Q + e3t) * scQ) / spQlo)) (seq 0 15).
Lemma e3_enclosed n : (n <= 14)%nat -> Q2R (nth n e3lo 0%Q) <= 4 / sqrt PI * conR (of_Z e3radZ) n 0 <= Q2R (nth n e3hi 0%Q).
Proof.
  intros Hn. pose proof sp_bounds as [L U]. assert (0 < Q2R spQlo) by (unfold spQlo, Q2R; cbn [Qnum Qden]; lra).
  assert (N : rad_near e3radZ e3T e3t = true) by (vm_compute; reflexivity). apply (rad_near_ok _ _ _ n) in N; auto.
  assert (E : enclosed_in e3lo e3hi (fun n => 4 * ((nth n e3T 0%Q - e3t) * scQ) / spQhi)%Q (fun n => 4 * ((nth n e3T 0%Q + e3t) * scQ) / spQlo)%Q = true) by (vm_compute; reflexivity).
  assert (P : forallb (fun n => Qle_bool 0 ((nth n e3T 0%Q - e3t) * scQ)) (seq 0 15) = true) by (vm_compute; reflexivity). rewrite forallb_forall in P. specialize (P n). rewrite in_seq in P. specialize (P ltac:(lia)).
  apply Qle_bool_imp_le, Qle_Rle in P. rewrite Q2R_0 in P.
  apply (enclosed_in_ok _ _ _ _ n) in E; auto. destruct E as [E1 E2]. rewrite Q2R_divnz, (Q2R_mult 4) in E1 by lra. rewrite Q2R_divnz, (Q2R_mult 4) in E2 by lra. replace (Q2R 4) with 4 in E1, E2 by (unfold Q2R; cbn; lra).
  replace (4 / sqrt PI * conR (of_Z e3radZ) n 0) with (4 * conR (of_Z e3radZ) n 0 * / sqrt PI) by (unfold Rdiv; ring). unfold Rdiv in E1, E2.
  assert (/ Q2R spQhi <= / sqrt PI) by (apply Rinv_le_contravar; lra). assert (/ sqrt PI <= / Q2R spQlo) by (apply Rinv_le_contravar; lra).
  assert (0 < / Q2R spQhi) by (apply Rinv_0_lt_compat; lra).
  split; [eapply Rle_trans; [exact E1|]|eapply Rle_trans; [|exact E2]]; apply Rmult_le_compat; lra.
Qed.
Lemma e3r2_run : exists u, u3_mclaren_10 = Some (u, 1.0e-14) /\ List.Forall (fun wp => length (snd wp) = 3%nat) (s_rule u) /\
  e3r2_stroud_14_1 = Some (mk_scheme 3 (flat_map (fun ar => map (fun bv => (4 / sqrt PI * (fst ar * fst bv), map (Rmult (snd ar)) (snd bv))) (s_rule u)) (of_Z e3radZ)) 14, 8.903e-14) /\
  (forall k, length k = 3%nat -> (tdeg k <= 14)%nat -> Rabs (apply (s_rule u) (mono k) - Q2R (sphereQ 3 k)) <= Q2R mclaren_eps /\ (par k = false -> apply (s_rule u) (mono k) = 0)).
Proof.
  destruct u3_mclaren_10_run as (u & E & _ & L72 & D3 & HU). exists u. split; auto. split; auto. split; auto. unfold e3r2_stroud_14_1. rewrite E. cbn [bind fst].
  rewrite rsqrt_ok by (left; apply PI_RGT_0). cbn [bind]. cbv zeta. do 3 f_equal.
  replace radial_e3r2 with (of_Z e3radZ) by (unfold radial_e3r2, of_Z, e3radZ, DD; cbn [map fst snd]; change (10 ^ 20)%Z with 100000000000000000000%Z; repeat (apply f_equal2; [apply f_equal2; lra|]); reflexivity).
  rewrite !flat_map_concat_map. f_equal. apply map_ext. intros ar. apply map_ext. intros bv. f_equal.
  assert (sqrt PI <> 0) by (apply Rgt_not_eq, sqrt_lt_R0, PI_RGT_0). field. auto.
Qed.
Lemma e3r2_stroud_14_1_ok : reaches 40 (enr2_mean 3) 3 14 e3r2_stroud_14_1.
Proof.
  destruct e3r2_run as (u & _ & D3 & E & HU). rewrite E. clear E. set (U := s_rule u) in *.
  apply (reaches_monos 40 (enr2_mean 3) 3 14 (enr2Q 3)); [apply enr2_moments|reflexivity|lra| |]; cbn [s_rule].
  - apply List.Forall_forall. intros wp Hw. apply in_flat_map in Hw. destruct Hw as [ar [_ Hw]]. apply in_map_iff in Hw. destruct Hw as [bv [<- Hb]]. cbn [snd]. rewrite map_length. rewrite List.Forall_forall in D3. apply D3; auto.
  - intros k Lk Dk. rewrite (radial_apply (4 / sqrt PI) _ (of_Z e3radZ) U k); [|rewrite Lk; auto|reflexivity].
    replace (40 * 8.903e-14) with (Q2R (356120 # 100000000000000000)) by (unfold Q2R; cbn [Qnum Qden]; lra). destruct (HU k Lk Dk) as [U1 U2].
    apply (radial_bound _ _ (fun n => nth n e3lo 0%Q) (fun n => nth n e3hi 0%Q) (fun m => riseQ (qnat 3) m / inject_Z (2 ^ Z.of_nat m))%Q (fun m => / inject_Z (2 ^ Z.of_nat m))%Q); [exact Lk|exact Dk| | | | |exact U1|exact U2].
    + unfold Q2R; cbn [Qnum Qden]; lra.
    + vm_compute. reflexivity.
    + apply e3_enclosed; auto.
    + intros m Hm. rewrite <- Q2R_mult. apply Qeq_eqR. do 8 (destruct m as [|m]; [vm_compute; reflexivity|]). lia.
Qed.
Lemma e3r2_stroud_14_1_miss : misses 20 (enr2_mean 3) 3 14 e3r2_stroud_14_1.
Proof.
  destruct e3r2_run as (u & _ & D3 & E & HU). rewrite E. clear E. set (U := s_rule u) in *. eexists _, _, [14; 0; 0]%nat. repeat split; cbn [s_rule]; [cbn; lia|].
  rewrite (radial_apply (4 / sqrt PI) _ (of_Z e3radZ) U) by (auto; reflexivity). change (tdeg [14; 0; 0]%nat) with 14%nat.
  destruct (HU [14; 0; 0]%nat eq_refl ltac:(cbn; lia)) as [U1 _]. pose proof (e3_enclosed 14 (le_n _)) as C. rewrite (enr2Q_ok 3) by (auto; lia).
  set (c := 4 / sqrt PI * conR (of_Z e3radZ) 14 0) in *. set (v := apply U (mono [14; 0; 0]%nat)) in *. clearbody c v.
  replace (Q2R (sphereQ 3 [14; 0; 0]%nat)) with (1/15) in U1 by (rewrite (Qeq_eqR _ (1 # 15)) by (vm_compute; reflexivity); unfold Q2R; cbn [Qnum Qden]; lra).
  replace (Q2R (enr2Q 3 [14; 0; 0]%nat)) with (135135/128) by (rewrite (Qeq_eqR _ (135135 # 128)) by (vm_compute; reflexivity); unfold Q2R; cbn [Qnum Qden]; lra).
  assert (B : Q2R (nth 14 e3hi 0%Q) <= 15 * (135135/128) - 4.06e-11).
  { replace (15 * (135135/128) - 4.06e-11) with (Q2R ((2027025 # 128) - (406 # 10000000000000))) by (rewrite Q2R_minus; unfold Q2R; cbn [Qnum Qden]; lra). apply Qle_Rle. apply Qle_bool_imp_le. vm_compute. reflexivity. }
  assert (B0 : 0 <= Q2R (nth 14 e3lo 0%Q)) by (rewrite <- Q2R_0; apply Qle_Rle, Qle_bool_imp_le; vm_compute; reflexivity).
  unfold mclaren_eps, Q2R at 1 in U1. cbn [Qnum Qden] in U1. assert (U2 : v - 1/15 <= 1 * / 20000000000000000) by (eapply Rle_trans; [apply Rle_abs|exact U1]).
  assert (c * v <= c * (1/15 + 1 * / 20000000000000000)) by (apply Rmult_le_compat_l; lra).
  rewrite Rabs_left by lra. lra.
Qed.
Lemma u3_mclaren_10_ok : reaches 1 (sphere_mean 3) 3 14 u3_mclaren_10.
Proof.
  destruct u3_mclaren_10_run as (u & E & HD & _ & D3 & HU). rewrite E. apply (reaches_monos 1 (sphere_mean 3) 3 14 (sphereQ 3)); auto; [apply (sphere_moments 2)|lra|].
  intros k Lk Dk. eapply Rle_trans; [apply HU; auto|]. unfold mclaren_eps, Q2R. cbn [Qnum Qden]. lra.
Qed.
