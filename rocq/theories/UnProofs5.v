(** Stroud's formula of degree 11 for the sphere: exactness for n = 3, n = 4 and n >= 5. *)
From Coq Require Import Reals List Arith Lia Lra Permutation Bool.
From Verif Require Import Spec RsumLemmas CombSpec CombModel CombProofs CombProofs2 Moments SymExact TnTools TnProofs5
  IntegralSpec IntegralProofs PyBase SymmModel SymmProofs MiscModel CnModel SchemeTools CnTools CnProofs IntegralProofs2 CnProofs4
  SphereSpec SphereInt RadialInt RadialTools RadialDob UnModel UnProofs RootSpec UnModel2 UnProofs2 UnProofs3 UnProofs4.
Import ListNotations.
Set Bullet Behavior "Strict Subproofs".
Open Scope R_scope.

(** Closed form of the weights (up to 2^-n and the fifth power of the scaling). *)
Definition P5 (M : R) : R := M * (M + 2) * (M + 4) * (M + 6) * (M + 8).
Definition V0 (M : R) : R := (125 * M ^ 2 - 1187 * M + 2832) / 72 / P5 M.
Definition V1 (M q : R) : R := ((656 - 125 * M) / 72 + (433 * M - 2272) / 432 * q) / P5 M.
Definition V2 (M q : R) : R := (125 / 72 - 433 / 432 * q) / P5 M.

Ltac df_lits := cbn [df rise Nat.add Nat.mul]; inr_lits.
Lemma uweights_solve M q k : q * q = 3 -> 1 <= M -> In k krange ->
  V0 M / M * ksel k (colU M 0 1) + V1 M q * ksel k (colU M 1 (7 + 4 * q)) + V1 M (- q) * ksel k (colU M 1 (7 - 4 * q))
  + (M - 1) / 2 * V2 M (- q) * ksel k (colU M 2 (7 - 4 * q)) + (M - 1) / 2 * V2 M q * ksel k (colU M 2 (7 + 4 * q)) = df (2 * k) / rise M k.
Proof.
  intros Hq HM Hk. unfold krange in Hk. cbn [In] in Hk. decompose [or] Hk; subst; try contradiction;
    unfold ksel, colU, V0, V1, V2, P5; cbn [nth Nat.sub]; df_lits; q3_field Hq; lra.
Qed.
Lemma dot_ksel5 u c : length u = 5%nat -> length c = 5%nat -> Rsum (map (fun k => ksel k u * ksel k c) krange) = dot u c.
Proof.
  intros Hu Hc. destruct u as [|u0 [|u1 [|u2 [|u3 [|u4 [|? ?]]]]]]; try discriminate Hu. destruct c as [|c0 [|c1 [|c2 [|c3 [|c4 [|? ?]]]]]]; try discriminate Hc.
  unfold krange, ksel, dot. cbn [map Rsum nth Nat.sub List.combine fst snd]. ring.
Qed.

(** One orbit: its weight (scaled), multiplicity, number of large coordinates, their square, the coordinates. *)
Record entry := mk_entry { eW : R; emult : R; em : R; eka : R; eit : list (R * nat) }.
Definition ec (n : nat) (e : entry) : R := INR n + em e * (eka e - 1).
Definition eg (n : nat) (e : entry) : R * (nat -> R) := (2 ^ n * emult e * (1 / ec n e) ^ 5, fun k => ksel k (colU (INR n) (em e) (eka e))).
Definition egroup (n : nat) (e : entry) : R * list (R * nat) := (eW e * ec n e ^ 5 / 2 ^ n, eit e).
Definition entry_ok (n : nat) (e : entry) : Prop := ec n e <> 0 /\ emult e <> 0 /\
  forall k, In k krange -> Rsum (map (fun x => nth 0 x 0 ^ (2 * k)) (opts (eit e))) = fst (eg n e) * snd (eg n e) k.

Lemma un_assemble solve n es ks : linear_solver solve -> (3 <= n)%nat -> (forall k, In k ks -> In k krange) -> In 0%nat ks -> length es = length ks ->
  (forall e, In e es -> entry_ok n e) -> snd (nth 0 (map (eg n) es) gdef) 0%nat <> 0 ->
  (forall j, (0 < j < length es)%nat -> exists u : nat -> R, forall i, (i < length es)%nat ->
     Rsum (map (fun k => u k * snd (nth i (map (eg n) es) gdef) k) ks) = if Nat.eqb i j then 1 else 0) ->
  (forall k, In k ks -> Rsum (map (fun e => eW e * emult e * ksel k (colU (INR n) (em e) (eka e))) es) = df (2 * k) / rise (INR n) k) ->
  exact n 11 (sphereI n) (sym_rule (map pg (map (egroup n) es))) ->
  good_scheme n 11 (sphereI n)
    (let b := map (fun k => ndim_nsphere n (k :: repeat 0%nat (n - 1))) (map (fun k => 2 * k)%nat ks) in
     let A := map (fun k => map (fun p => Rsum (map (fun x => nth 0 x 0 ^ k) p)) (map (fun e => opts (eit e)) es)) (map (fun k => 2 * k)%nat ks) in
     let w := solve A b in
     let '(points, weights) := untangle (List.combine w (map (fun e => opts (eit e)) es)) in
     let! _ := rdiv 1 (ndim_nsphere n (repeat 0%nat n)) in
     Some (mk_scheme n (mk_rule (points, map (fun x => x / ndim_nsphere n (repeat 0%nat n)) weights)) 11)).
Proof.
  intros HS Hn Hks H0 L Hok Hc Hd Hw Hx. cbv zeta.
  assert (P2 : 2 ^ n <> 0) by (apply pow_nonzero; lra).
  assert (Ev : ndim_nsphere n (repeat 0%nat n) = sph0 n).
  { rewrite ndim_nsphere_val by (rewrite ?repeat_length; lia). change (repeat 0%nat n) with ([] ++ repeat 0%nat n). rewrite rmoment_zeros, rm_0, h_sphere_0. ring. }
  rewrite Ev. assert (V := sph0_nz n ltac:(lia)).
  assert (EW : solve (map (fun k => map (fun p => Rsum (map (fun x => nth 0 x 0 ^ k) p)) (map (fun e => opts (eit e)) es)) (map (fun k => 2 * k)%nat ks))
      (map (fun k => ndim_nsphere n (k :: repeat 0%nat (n - 1))) (map (fun k => 2 * k)%nat ks)) = map (fun g => fst g * sph0 n) (map (egroup n) es)).
  { rewrite (map_map (fun k => 2 * k)%nat). rewrite (map_map (fun k => 2 * k)%nat).
    rewrite (map_ext_in _ (sysrow (map (eg n) es)) ks).
    - apply system_unique; auto.
      + intros g Hg. apply in_map_iff in Hg. destruct Hg as [e [<- He]]. destruct (Hok e He) as [C1 [C2 _]]. cbn [eg fst].
        apply Rmult_integral_contrapositive_currified; [apply Rmult_integral_contrapositive_currified; auto|]. apply pow_nonzero. unfold Rdiv. rewrite Rmult_1_l. apply Rinv_neq_0_compat. auto.
      + rewrite map_length. auto.
      + rewrite !map_length. auto.
      + rewrite map_length. auto.
      + rewrite map_length. auto.
      + apply map_ext_in. intros k Hk. rewrite un_rhs by lia. rewrite <- Hw by auto. rewrite <- Rsum_map_scal.
        unfold sysrow. rewrite !map_map. clear - Hok V P2. induction es as [|e es IH]; [reflexivity|].
        cbn [map List.combine Rsum fst snd]. rewrite IH by (intros; apply Hok; right; auto). f_equal. unfold eg, egroup. cbn [fst snd].
        destruct (Hok e (or_introl eq_refl)) as [C1 [C2 _]]. field. auto.
    - intros k Hk. unfold sysrow. rewrite !map_map. apply map_ext_in. intros e He. destruct (Hok e He) as [_ [_ K]]. apply K. auto. }
  rewrite EW. replace (map (fun e => opts (eit e)) es) with (map (fun g => opts (snd g)) (map (egroup n) es)) by (rewrite map_map; reflexivity).
  rewrite scheme_of_groups by auto. eexists. split; [reflexivity|]. auto.
Qed.

(** Removing the scaling from a term of a moment equation. *)
Lemma uscaled W c p G vs vs' cs N l : c <> 0 -> p <> 0 -> list_sum l = 5%nat -> length cs = length vs -> vs' = map (fun v => v / c) vs ->
  W * c ^ 5 / p * (G * p * pavg vs' cs N l) = W * (G * pavg vs cs N l).
Proof.
  intros Hc Hp Hd Hl Hv. replace (W * c ^ 5 / p * (G * p * pavg vs' cs N l)) with (W * c ^ 5 * (G * pavg vs' cs N l)) by (field; auto).
  apply scaled_term; auto.
Qed.
Lemma entry0_ok n W t : (3 <= n)%nat -> t * t = 1 / INR n -> entry_ok n (mk_entry W (1 / INR n) 0 1 (it0 n t)).
Proof.
  intros Hn Ht. assert (B : 3 <= INR n) by (replace 3 with (INR 3) by (simpl; lra); apply le_INR; auto).
  unfold entry_ok, eg, ec. cbn [eW emult em eka eit fst snd]. split; [lra|]. split.
  - apply Rgt_not_eq, Rdiv_lt_0_compat; lra.
  - intros k Hk. rewrite usum0 by (auto; lia). replace (INR n + 0 * (1 - 1)) with (INR n) by ring. field. lra.
Qed.
Lemma entry1_ok n W s r ka : (3 <= n)%nat -> INR n + 1 * (ka - 1) <> 0 -> sq_is s r (INR n + 1 * (ka - 1)) ka -> entry_ok n (mk_entry W 1 1 ka (it1 n s r)).
Proof.
  intros Hn Hc [Hs Hr]. unfold entry_ok, eg, ec. cbn [eW emult em eka eit fst snd]. split; [exact Hc|]. split; [lra|].
  intros k Hk. rewrite (usum1 n s r ka) by (auto; lia). ring.
Qed.
Lemma entry2_ok n W s r ka : (3 <= n)%nat -> INR n + 2 * (ka - 1) <> 0 -> sq_is s r (INR n + 2 * (ka - 1)) ka -> entry_ok n (mk_entry W ((INR n - 1) / 2) 2 ka (it2 n s r)).
Proof.
  intros Hn Hc [Hs Hr]. assert (B : 3 <= INR n) by (replace 3 with (INR 3) by (simpl; lra); apply le_INR; auto).
  unfold entry_ok, eg, ec. cbn [eW emult em eka eit fst snd]. split; [exact Hc|]. split; [lra|].
  intros k Hk. rewrite (usum2 n s r ka) by (auto; lia). reflexivity.
Qed.
Lemma term0 n W t l : (3 <= n)%nat -> list_sum l = 5%nat -> t * t = 1 / INR n ->
  fst (egroup n (mk_entry W (1 / INR n) 0 1 (it0 n t))) * (gnum (pg (egroup n (mk_entry W (1 / INR n) 0 1 (it0 n t)))) *
    pavg (psq (it0 n t)) (pcnt (it0 n t)) (INR n) l) = W * (1 * pavg [1] [INR n] (INR n) l).
Proof.
  intros Hn Hl Ht. assert (B : 3 <= INR n) by (replace 3 with (INR 3) by (simpl; lra); apply le_INR; auto).
  unfold egroup, pg, ec. cbn [fst snd eW em eka eit]. rewrite gnum0. replace (INR n + 0 * (1 - 1)) with (INR n) by ring.
  unfold psq, pcnt, it0. cbn [map fst snd]. rewrite Ht. rewrite <- (Rmult_1_l (2 ^ n)) at 2.
  apply (uscaled W (INR n) (2 ^ n) 1 [1]); auto; try lra. apply pow_nonzero. lra.
Qed.
Lemma term1 n W s r ka l : (3 <= n)%nat -> list_sum l = 5%nat -> INR n + 1 * (ka - 1) <> 0 -> sq_is s r (INR n + 1 * (ka - 1)) ka ->
  fst (egroup n (mk_entry W 1 1 ka (it1 n s r))) * (gnum (pg (egroup n (mk_entry W 1 1 ka (it1 n s r)))) *
    pavg (psq (it1 n s r)) (pcnt (it1 n s r)) (INR n) l) = W * (INR n * pavg [ka; 1] [1; INR n - 1] (INR n) l).
Proof.
  intros Hn Hl Hc [Hs Hr]. unfold egroup, pg, ec. cbn [fst snd eW em eka eit]. rewrite gnum1 by lia.
  unfold psq, pcnt, it1. cbn [map fst snd]. rewrite Hs, Hr, minus_INR by lia. change (INR 1) with 1.
  apply (uscaled W (INR n + 1 * (ka - 1)) (2 ^ n) (INR n) [ka; 1]); auto. apply pow_nonzero. lra.
Qed.
Lemma term2 n W s r ka l : (3 <= n)%nat -> list_sum l = 5%nat -> INR n + 2 * (ka - 1) <> 0 -> sq_is s r (INR n + 2 * (ka - 1)) ka ->
  fst (egroup n (mk_entry W ((INR n - 1) / 2) 2 ka (it2 n s r))) * (gnum (pg (egroup n (mk_entry W ((INR n - 1) / 2) 2 ka (it2 n s r)))) *
    pavg (psq (it2 n s r)) (pcnt (it2 n s r)) (INR n) l) = W * (INR n * (INR n - 1) / 2 * pavg [ka; 1] [2; INR n - 2] (INR n) l).
Proof.
  intros Hn Hl Hc [Hs Hr]. unfold egroup, pg, ec. cbn [fst snd eW em eka eit]. rewrite gnum2 by lia.
  unfold psq, pcnt, it2. cbn [map fst snd]. rewrite Hs, Hr, minus_INR by lia. replace (INR 2) with 2 by (simpl; lra).
  apply (uscaled W (INR n + 2 * (ka - 1)) (2 ^ n) (INR n * (INR n - 1) / 2) [ka; 1]); auto. apply pow_nonzero. lra.
Qed.
Lemma norm0 n t : (1 <= n)%nat -> t * t = 1 / INR n -> Rsum (map (fun it => INR (snd it) * (fst it * fst it)) (it0 n t)) = 1.
Proof. intros Hn Ht. cbn [it0 map fst snd Rsum]. rewrite Ht. assert (1 <= INR n) by (apply (le_INR 1); auto). field. lra. Qed.
Lemma norm1 n s r ka : (1 <= n)%nat -> INR n + 1 * (ka - 1) <> 0 -> sq_is s r (INR n + 1 * (ka - 1)) ka ->
  Rsum (map (fun it => INR (snd it) * (fst it * fst it)) (it1 n s r)) = 1.
Proof. intros Hn Hc [Hs Hr]. cbn [it1 map fst snd Rsum]. rewrite Hs, Hr, minus_INR by lia. change (INR 1) with 1. field. lra. Qed.
Lemma norm2 n s r ka : (2 <= n)%nat -> INR n + 2 * (ka - 1) <> 0 -> sq_is s r (INR n + 2 * (ka - 1)) ka ->
  Rsum (map (fun it => INR (snd it) * (fst it * fst it)) (it2 n s r)) = 1.
Proof. intros Hn Hc [Hs Hr]. cbn [it2 map fst snd Rsum]. rewrite Hs, Hr, minus_INR by lia. replace (INR 2) with 2 by (simpl; lra). field. lra. Qed.

Ltac split_in H := cbn [In] in H; decompose [or] H; clear H; subst; try contradiction.
Ltac do_parts Hl Hs := vm_compute in Hl; decompose [or] Hl; clear Hl; subst; try contradiction; try (exfalso; clear - Hs; cbn in Hs; lia);
    cbn [map fst snd pavg length seq decR nth Rsum Rprod Nat.sub]; df_lits.

Theorem un_stroud_1969_5 solve n : linear_solver solve -> (5 <= n)%nat -> good_scheme n 11 (sphereI n) (un_stroud_1969 solve n).
Proof.
  intros HS Hn. unfold un_stroud_1969. apply bind_guard; [apply Nat.ltb_lt; lia|].
  destruct (un_points_run n ltac:(lia)) as (q & t & s1 & r1 & s2 & r2 & v1 & u1 & v2 & u2 & -> & P & Q & Ht & H1 & H2 & H3 & H4). cbn [bind].
  destruct (q3_bounds q P Q) as [Q1 Q2]. assert (Q' : - q * - q = 3) by (rewrite <- Q; ring).
  assert (B : 5 <= INR n) by (replace 5 with (INR 5) by (simpl; lra); apply le_INR; auto).
  assert (E4 : (4 <=? n)%nat = true) by (apply Nat.leb_le; lia). assert (E5 : (5 <=? n)%nat = true) by (apply Nat.leb_le; lia).
  unfold upts, un_stroud_1969_range. rewrite E4, E5. cbn [app].
  set (es := [mk_entry (V0 (INR n)) (1 / INR n) 0 1 (it0 n t); mk_entry (V1 (INR n) q) 1 1 (7 + 4 * q) (it1 n s1 r1);
    mk_entry (V1 (INR n) (- q)) 1 1 (7 - 4 * q) (it1 n s2 r2); mk_entry (V2 (INR n) (- q)) ((INR n - 1) / 2) 2 (7 - 4 * q) (it2 n v1 u1);
    mk_entry (V2 (INR n) q) ((INR n - 1) / 2) 2 (7 + 4 * q) (it2 n v2 u2)]).
  apply (un_assemble solve n es krange HS ltac:(lia)); auto.
  - cbn; auto.
  - intros e He. unfold es in He. split_in He; [apply entry0_ok|apply entry1_ok|apply entry1_ok|apply entry2_ok|apply entry2_ok]; auto; try lia; lra.
  - cbn [es map nth eg snd em eka]. unfold ksel, colU. cbn [nth Nat.sub]. replace (INR n + 0 * (1 - 1)) with (INR n) by ring.
    apply Rmult_integral_contrapositive_currified; [lra|]. apply pow_nonzero. lra.
  - destruct (udual1_dot (INR n) q) as (a1 & a2 & a3 & a4 & a5); try lra; auto.
    destruct (udual1_dot (INR n) (- q)) as (b1 & b2 & b3 & b4 & b5); try lra; auto.
    destruct (udual2_dot (INR n) q) as (c1 & c2 & c3 & c4 & c5); try lra; auto.
    destruct (udual2_dot (INR n) (- q)) as (e1 & e2 & e3 & e4 & e5); try lra; auto.
    replace (7 + 4 * - q) with (7 - 4 * q) in * by ring. replace (7 - 4 * - q) with (7 + 4 * q) in * by ring.
    intros j Hj. cbn [es length] in Hj. cbn [es length].
    assert (Hj' : In j [1; 2; 3; 4]%nat) by (cbn; lia). cbn [In] in Hj'.
    destruct Hj' as [<-|[<-|[<-|[<-|[]]]]];
    [exists (fun k => ksel k (udual1 (INR n) q))|exists (fun k => ksel k (udual1 (INR n) (- q)))|exists (fun k => ksel k (udual2 (INR n) (- q)))|exists (fun k => ksel k (udual2 (INR n) q))];
    intros i Hi; do 5 (destruct i as [|i]; [cbn [es map nth eg snd em eka Nat.eqb]; rewrite dot_ksel5 by reflexivity; assumption|]); exfalso; clear - Hi; cbn in Hi; lia.
  - intros k Hk. cbn [es map Rsum eW emult em eka]. rewrite <- (uweights_solve (INR n) q k) by (auto; lra). field. lra.
  - apply (sphere_exact_groups n 5); [lia| | |].
    + intros g Hg. cbn [es map] in Hg. split_in Hg; cbn [egroup eit snd it0 it1 it2 map list_sum fold_right]; lia.
    + intros g Hg. cbn [es map] in Hg. split_in Hg; cbn [egroup eit snd]; [apply norm0|eapply norm1|eapply norm1|eapply norm2|eapply norm2]; eauto; try lia; lra.
    + intros l Hl Hs Hlen. cbn [es map Rsum].
      rewrite (term0 n), (term1 n), (term1 n), (term2 n), (term2 n) by (auto; try lia; lra).
      unfold V0, V1, V2, P5. generalize dependent (INR n). intros M. intros.
      do_parts Hl Hs; q3_field Q; lra.
Qed.

(* ------------------------------------------------ n = 4 *)
Definition krange4 : list nat := [0; 2; 3; 4]%nat.
Definition krange3 : list nat := [0; 2; 3]%nat.
Definition Y1 (q : R) : R := 13 / 138240 - q / 18432.
Definition Y2 (q : R) : R := 181 / 276480 + 209 / 552960 * q.
Lemma INR4 : INR 4 = 4. Proof. simpl. lra. Qed.
Ltac do_parts_len Hl Hs Hlen := vm_compute in Hl; decompose [or] Hl; clear Hl; subst; try contradiction; try (exfalso; clear - Hs; cbn in Hs; lia); try (exfalso; clear - Hlen; cbn in Hlen; lia);
    cbn [map fst snd pavg length seq decR nth Rsum Rprod Nat.sub]; df_lits.
Theorem un_stroud_1969_4 solve : linear_solver solve -> good_scheme 4 11 (sphereI 4) (un_stroud_1969 solve 4).
Proof.
  intros HS. unfold un_stroud_1969. apply bind_guard; [reflexivity|].
  destruct (un_points_run 4 ltac:(lia)) as (q & t & s1 & r1 & s2 & r2 & v1 & u1 & v2 & u2 & -> & P & Q & Ht & H1 & H2 & H3 & H4). cbn [bind].
  destruct (q3_bounds q P Q) as [Q1 Q2]. assert (Q' : - q * - q = 3) by (rewrite <- Q; ring). assert (I4 := INR4).
  unfold upts, un_stroud_1969_range. cbn [Nat.leb app].
  set (es := [mk_entry (7 / 138240) (1 / INR 4) 0 1 (it0 4 t); mk_entry (Y1 q) 1 1 (7 + 4 * q) (it1 4 s1 r1);
    mk_entry (Y1 (- q)) 1 1 (7 - 4 * q) (it1 4 s2 r2); mk_entry (Y2 q) ((INR 4 - 1) / 2) 2 (7 - 4 * q) (it2 4 v1 u1)]).
  apply (un_assemble solve 4 es krange4 HS ltac:(lia)); auto.
  - intros k Hk. unfold krange. cbn in *. tauto.
  - cbn; auto.
  - intros e He. unfold es in He. split_in He; [apply entry0_ok|apply entry1_ok|apply entry1_ok|apply entry2_ok]; auto; try lia; rewrite I4; lra.
  - cbn [es map nth eg snd em eka]. rewrite I4. unfold ksel, colU. cbn [nth Nat.sub]. lra.
  - destruct (udual4_1_dot q) as (a1 & a2 & a3 & a4 & a5); auto.
    destruct (udual4_1_dot (- q)) as (b1 & b2 & b3 & b4 & b5); auto.
    destruct (udual4_2_dot q) as (c1 & c2 & c3 & c4); auto.
    replace (7 + 4 * - q) with (7 - 4 * q) in * by ring. replace (7 - 4 * - q) with (7 + 4 * q) in * by ring.
    assert (D : forall u c, length u = 4%nat -> length c = 5%nat -> Rsum (map (fun k => ksel k u * ksel k c) krange4) = dot u c).
    { intros u c Hu Hc. destruct u as [|w0 [|w1 [|w2 [|w3 [|? ?]]]]]; try discriminate Hu. destruct c as [|c0 [|c1' [|c2' [|c3' [|c4' [|? ?]]]]]]; try discriminate Hc.
      unfold krange4, krange3, ksel, dot. cbn [map Rsum nth Nat.sub List.combine fst snd]. ring. }
    intros j Hj. cbn [es length] in Hj. cbn [es length].
    assert (Hj' : In j [1; 2; 3]%nat) by (cbn; lia). cbn [In] in Hj'.
    destruct Hj' as [<-|[<-|[<-|[]]]]; [exists (fun k => ksel k (udual4_1 q))|exists (fun k => ksel k (udual4_1 (- q)))|exists (fun k => ksel k (udual4_2 q))];
    intros i Hi; do 4 (destruct i as [|i]; [cbn [es map nth eg snd em eka Nat.eqb]; rewrite I4, D by reflexivity; assumption|]); exfalso; clear - Hi; cbn in Hi; lia.
  - intros k Hk. cbn [es map Rsum eW emult em eka]. rewrite I4. unfold Y1, Y2. unfold krange4, krange3 in Hk. cbn [In] in Hk.
    decompose [or] Hk; subst; try contradiction; unfold ksel, colU; cbn [nth Nat.sub]; df_lits; q3_field0 Q.
  - apply (sphere_exact_groups 4 5); [lia| | |].
    + intros g Hg. cbn [es map] in Hg. split_in Hg; cbn [egroup eit snd it0 it1 it2 map list_sum fold_right]; lia.
    + intros g Hg. cbn [es map] in Hg. split_in Hg; cbn [egroup eit snd]; [apply norm0|eapply norm1|eapply norm1|eapply norm2]; eauto; try lia; rewrite I4; lra.
    + intros l Hl Hs Hlen. cbn [es map Rsum].
      rewrite (term0 4), (term1 4), (term1 4), (term2 4) by (auto; try lia; rewrite I4; lra).
      unfold Y1, Y2. rewrite I4. do_parts_len Hl Hs Hlen; q3_field0 Q.
Qed.

(* ------------------------------------------------ n = 3 *)
Definition Z1 (q : R) : R := 23 / 13860 - 239 / 249480 * q.
Theorem un_stroud_1969_3 solve : linear_solver solve -> good_scheme 3 11 (sphereI 3) (un_stroud_1969 solve 3).
Proof.
  intros HS. unfold un_stroud_1969. apply bind_guard; [reflexivity|].
  destruct (un_points_run 3 ltac:(lia)) as (q & t & s1 & r1 & s2 & r2 & v1 & u1 & v2 & u2 & -> & P & Q & Ht & H1 & H2 & H3 & H4). cbn [bind].
  destruct (q3_bounds q P Q) as [Q1 Q2]. assert (Q' : - q * - q = 3) by (rewrite <- Q; ring). assert (I3 := INR3).
  unfold upts, un_stroud_1969_range. cbn [Nat.leb app].
  set (es := [mk_entry (1 / 1890) (1 / INR 3) 0 1 (it0 3 t); mk_entry (Z1 q) 1 1 (7 + 4 * q) (it1 3 s1 r1);
    mk_entry (Z1 (- q)) 1 1 (7 - 4 * q) (it1 3 s2 r2)]).
  apply (un_assemble solve 3 es krange3 HS ltac:(lia)); auto.
  - intros k Hk. unfold krange. cbn in *. tauto.
  - cbn; auto.
  - intros e He. unfold es in He. split_in He; [apply entry0_ok|apply entry1_ok|apply entry1_ok]; auto; try lia; rewrite I3; lra.
  - cbn [es map nth eg snd em eka]. rewrite I3. unfold ksel, colU. cbn [nth Nat.sub]. lra.
  - destruct (udual3_1_dot q) as (a1 & a2 & a3); auto.
    destruct (udual3_1_dot (- q)) as (b1 & b2 & b3); auto.
    replace (7 + 4 * - q) with (7 - 4 * q) in * by ring. replace (7 - 4 * - q) with (7 + 4 * q) in * by ring.
    assert (D : forall u c, length u = 3%nat -> length c = 5%nat -> Rsum (map (fun k => ksel k u * ksel k c) krange3) = dot u c).
    { intros u c Hu Hc. destruct u as [|w0 [|w1 [|w2 [|? ?]]]]; try discriminate Hu. destruct c as [|c0 [|c1' [|c2' [|c3' [|c4' [|? ?]]]]]]; try discriminate Hc.
      unfold krange4, krange3, ksel, dot. cbn [map Rsum nth Nat.sub List.combine fst snd]. ring. }
    intros j Hj. cbn [es length] in Hj. cbn [es length].
    assert (Hj' : In j [1; 2]%nat) by (cbn; lia). cbn [In] in Hj'.
    destruct Hj' as [<-|[<-|[]]]; [exists (fun k => ksel k (udual3_1 q))|exists (fun k => ksel k (udual3_1 (- q)))];
    intros i Hi; do 3 (destruct i as [|i]; [cbn [es map nth eg snd em eka Nat.eqb]; rewrite I3, D by reflexivity; assumption|]); exfalso; clear - Hi; cbn in Hi; lia.
  - intros k Hk. cbn [es map Rsum eW emult em eka]. rewrite I3. unfold Z1. unfold krange4, krange3 in Hk. cbn [In] in Hk.
    decompose [or] Hk; subst; try contradiction; unfold ksel, colU; cbn [nth Nat.sub]; df_lits; q3_field0 Q.
  - apply (sphere_exact_groups 3 5); [lia| | |].
    + intros g Hg. cbn [es map] in Hg. split_in Hg; cbn [egroup eit snd it0 it1 it2 map list_sum fold_right]; lia.
    + intros g Hg. cbn [es map] in Hg. split_in Hg; cbn [egroup eit snd]; [apply norm0|eapply norm1|eapply norm1]; eauto; try lia; rewrite I3; lra.
    + intros l Hl Hs Hlen. cbn [es map Rsum].
      rewrite (term0 3), (term1 3), (term1 3) by (auto; try lia; rewrite I3; lra).
      unfold Z1. rewrite I3. do_parts_len Hl Hs Hlen; q3_field0 Q.
Qed.

Theorem un_stroud_1969_exact solve n : linear_solver solve -> (3 <= n)%nat -> good_scheme n 11 (sphereI n) (un_stroud_1969 solve n).
Proof.
  intros HS Hn. destruct (Nat.eq_dec n 3) as [->|H3]; [apply un_stroud_1969_3; auto|]. destruct (Nat.eq_dec n 4) as [->|H4]; [apply un_stroud_1969_4; auto|].
  apply un_stroud_1969_5; auto. lia.
Qed.
