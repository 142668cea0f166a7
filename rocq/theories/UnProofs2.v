(** Exactness of Stroud's formula of degree 11 for the sphere, in every dimension. *)
From Coq Require Import Reals List Arith Lia Lra Permutation Bool.
From Verif Require Import Spec RsumLemmas CombSpec CombModel CombProofs CombProofs2 Moments SymExact TnTools TnProofs5
  IntegralSpec IntegralProofs PyBase SymmModel SymmProofs MiscModel CnModel SchemeTools CnTools CnProofs IntegralProofs2 CnProofs4
  SphereSpec SphereInt RadialInt RadialTools UnModel UnProofs RootSpec UnModel2.
Import ListNotations.
Set Bullet Behavior "Strict Subproofs".
Open Scope R_scope.

(* ------------------------------------------------ reduction to the top degree *)
Definition bump2 (i : nat) (k : list nat) : list nat := bump i (bump i k).
Lemma bump2_length i k : length (bump2 i k) = length k.
Proof. unfold bump2. rewrite !bump_length. auto. Qed.
Lemma bump2_tdeg i k : (i < length k)%nat -> tdeg (bump2 i k) = (2 + tdeg k)%nat.
Proof. intros H. unfold bump2. rewrite !bump_tdeg; rewrite ?bump_length; auto. Qed.
Lemma mono_bump2 k : forall x, length x = length k ->
  Rsum (map (fun i => mono (bump2 i k) x) (seq 0 (length k))) = mono k x * Rsum (map (fun t => t ^ 2) x).
Proof.
  unfold bump2. induction k as [|a k IH]; intros [|t x] H; try discriminate; [simpl; ring|].
  injection H as H. cbn [length seq map Rsum bump mono]. rewrite <- seq_shift, map_map.
  rewrite (Rsum_map_ext _ (fun i => t ^ a * mono (bump i (bump i k)) x)) by (intros; reflexivity).
  rewrite Rsum_map_scal, IH by auto. simpl. ring.
Qed.
Lemma odd_bump2 k : forall i, existsb Nat.odd (bump2 i k) = existsb Nat.odd k.
Proof.
  unfold bump2. induction k as [|a k IH]; intros [|i]; cbn [bump existsb]; auto.
  rewrite IH. auto.
Qed.
Lemma df_bump2 k : forall i, (i < length k)%nat -> Rprod (map df (bump2 i k)) = (INR (nth i k 0%nat) + 1) * Rprod (map df k).
Proof.
  unfold bump2. induction k as [|a k IH]; intros [|i] H; simpl length in H; try lia.
  - cbn [bump map Rprod nth]. cbn [df]. rewrite plus_INR. cbn [INR]. ring.
  - cbn [bump map Rprod nth]. rewrite IH by lia. ring.
Qed.
Lemma rmoment_bump2 n k : (1 <= n)%nat -> length k = n ->
  Rsum (map (fun i => rmoment (h_sphere n) (bump2 i k)) (seq 0 n)) = rmoment (h_sphere n) k.
Proof.
  intros Hn Hk. unfold rmoment.
  rewrite (Rsum_map_ext _ (fun i => (INR (nth i k 0%nat) + 1) * (if existsb Nat.odd k then 0 else Rprod (map df k) * h_sphere n (S (tdeg k / 2))))).
  - rewrite Rsum_map_scal_r. rewrite <- Hk at 1. rewrite Rsum_nth_INR, Hk. destruct (existsb Nat.odd k) eqn:E; [ring|].
    unfold h_sphere. rewrite rise_S. rewrite (@f_equal _ _ INR (tdeg k) (2 * (tdeg k / 2))%nat).
    + rewrite mult_INR. cbn [INR]. assert (1 <= INR n) by (apply (le_INR 1); auto). pose proof (pos_INR (tdeg k / 2)).
      assert (rise (INR n) (tdeg k / 2) <> 0) by (apply rise_neq; lra). field. split; auto. lra.
    + assert (Ev : Nat.even (tdeg k) = true).
      { clear - E. induction k as [|a k IH]; [reflexivity|]. cbn [existsb] in E. apply orb_false_iff in E. destruct E as [E1 E2].
        change (tdeg (a :: k)) with (a + tdeg k)%nat. rewrite Nat.even_add, IH by auto. rewrite <- Nat.negb_odd, E1. auto. }
      apply Nat.even_spec in Ev. destruct Ev as [j ->]. rewrite (Nat.mul_comm 2 j), Nat.div_mul by lia. lia.
  - intros i Hi. apply in_seq in Hi. rewrite odd_bump2. destruct (existsb Nat.odd k); [ring|]. rewrite df_bump2, bump2_tdeg by lia.
    replace ((2 + tdeg k) / 2)%nat with (S (tdeg k / 2)); [ring|]. replace (2 + tdeg k)%nat with (tdeg k + 1 * 2)%nat by lia.
    rewrite Nat.div_add by lia. lia.
Qed.
(** Exactness for the even monomials of degree 2m is enough when the points are on the sphere. *)
Lemma sphere_exact_top n m q : (1 <= n)%nat -> points_in_dim n q -> (forall w p, In (w, p) q -> Rsum (map (fun t => t ^ 2) p) = 1) ->
  (forall k, length k = n -> existsb Nat.odd k = true -> apply q (mono k) = 0) ->
  (forall k, length k = n -> existsb Nat.odd k = false -> tdeg k = (2 * m)%nat -> apply q (mono k) = sphereI n k) ->
  exact n (2 * m + 1) (sphereI n) q.
Proof.
  intros Hn Hd Hs Ho Ht. split; auto. intros k Hk Hdeg.
  destruct (existsb Nat.odd k) eqn:E.
  { rewrite Ho, sphereI_val by auto. unfold rmoment. rewrite E. auto. }
  assert (Ev : Nat.even (tdeg k) = true).
  { clear - E. induction k as [|a k IH]; [reflexivity|]. cbn [existsb] in E. apply orb_false_iff in E. destruct E as [E1 E2].
    change (tdeg (a :: k)) with (a + tdeg k)%nat. rewrite Nat.even_add, IH by auto. rewrite <- Nat.negb_odd, E1. auto. }
  apply Nat.even_spec in Ev. destruct Ev as [e He]. assert (Hle : (e <= m)%nat) by lia. clear Hdeg.
  remember (m - e)%nat as d eqn:Em. revert k e Hk E He Hle Em.
  induction d as [|d IH]; intros k e Hk E He Hle Em; [apply Ht; auto; lia|].
  rewrite sphereI_val, <- (rmoment_bump2 n) by auto.
  rewrite (apply_ext _ _ (fun x => Rsum (map (fun i => mono (bump2 i k) x) (seq 0 n)))).
  - rewrite (apply_sum q (fun i => mono (bump2 i k))). apply Rsum_map_ext. intros i Hi. apply in_seq in Hi.
    rewrite <- sphereI_val by (rewrite ?bump2_length; auto). apply (IH _ (S e)); rewrite ?bump2_length, ?odd_bump2, ?bump2_tdeg; auto; lia.
  - intros w p Hp. unfold points_in_dim in Hd. rewrite List.Forall_forall in Hd. assert (L := Hd _ Hp). simpl in L.
    rewrite <- Hk. rewrite mono_bump2 by lia. rewrite (Hs w p) by auto. ring.
Qed.

(* ------------------------------------------------ orbits under permutations and sign changes *)
(** Items (v, c): c coordinates equal to +v or -v. *)
Definition porb (items : list (R * nat)) : list (list R * nat) := map (fun it => ([fst it; - fst it], snd it)) items.
Definition pg (g : R * list (R * nat)) : group := (fst g, porb (snd g)).
Definition psq (items : list (R * nat)) : list R := map (fun it => fst it * fst it) items.
Definition pcnt (items : list (R * nat)) : list R := map (fun it => INR (snd it)) items.
Lemma porb_snd items : map snd (porb items) = map snd items.
Proof. unfold porb. rewrite map_map. reflexivity. Qed.
Lemma porb_even g : even_group (pg g).
Proof.
  intros e a He Ha. unfold pg, porb in He. cbn [snd] in He. apply in_map_iff in He. destruct He as [it [<- _]]. cbn [fst]. apply mean_pm_odd. auto.
Qed.
Lemma porb_ok n g : list_sum (map snd (snd g)) = n -> ok_group n (pg g).
Proof.
  intros H. split; [unfold pg; cbn [snd]; rewrite porb_snd; auto|]. intros e He. unfold pg, porb in He. cbn [snd] in He.
  apply in_map_iff in He. destruct He as [it [<- _]]. discriminate.
Qed.
Lemma emeans_porb items i : (i < length items)%nat -> forall a,
  nth i (emeans (porb items)) (fun _ => 0) (2 * a)%nat = nth i (psq items) 0 ^ a.
Proof.
  unfold emeans, porb, psq. intros Hi a. rewrite map_map.
  rewrite (nth_indep _ (fun _ => 0) ((fun it : R * nat => mean (fst ([fst it; - fst it], snd it))) (0, 0%nat))) by (rewrite map_length; auto).
  rewrite (map_nth (fun it : R * nat => mean (fst ([fst it; - fst it], snd it)))).
  rewrite (nth_indep (map _ items) 0 ((fun it : R * nat => fst it * fst it) (0, 0%nat))) by (rewrite map_length; auto).
  rewrite (map_nth (fun it : R * nat => fst it * fst it)). cbn [fst]. apply mean_pm_even.
Qed.
Lemma pair_avg items l : forall cs N, length cs = length items ->
  avg (emeans (porb items)) cs N (map (fun a => 2 * a)%nat l) = pavg (psq items) cs N l.
Proof.
  induction l as [|a l IH]; intros cs N Hl; [reflexivity|]. cbn [map avg pavg]. apply Rsum_map_ext. intros i Hi. apply in_seq in Hi.
  rewrite IH by (rewrite decR_length; auto). rewrite emeans_porb by lia. reflexivity.
Qed.
Lemma gavg_pg g N l : gavg (pg g) N (map (fun a => 2 * a)%nat l) = pavg (psq (snd g)) (pcnt (snd g)) N l.
Proof.
  unfold gavg, pg. cbn [snd]. replace (ecounts (porb (snd g))) with (pcnt (snd g)).
  - apply pair_avg. unfold pcnt. rewrite map_length. auto.
  - unfold ecounts, porb, pcnt. rewrite map_map. reflexivity.
Qed.
Lemma Rsum_sq_variant p q : Forall2 (fun x y => x = y \/ x = - y) p q -> Rsum (map (fun t => t ^ 2) p) = Rsum (map (fun t => t ^ 2) q).
Proof. induction 1 as [|x y p q [E|E] _ IH]; cbn [map Rsum]; auto; rewrite IH, E; ring. Qed.
Lemma porb_norm items p : In p (combine (porb items)) ->
  Rsum (map (fun t => t ^ 2) p) = Rsum (map (fun it => INR (snd it) * (fst it * fst it)) items).
Proof.
  intros Hp. apply in_combine in Hp. rewrite (arrangement_base (fun x y => x = y \/ x = - y) _ (map fst items)) in Hp.
  - destruct Hp as [q [Hq Hp]]. rewrite (Rsum_sq_variant _ _ Hp). rewrite porb_snd in Hq.
    rewrite (Rsum_perm _ _ (Permutation_map _ Hq)). unfold expand. clear.
    induction items as [|[v c] items IH]; [reflexivity|]. cbn [map List.combine concat fst snd]. rewrite map_app, Rsum_app, IH. cbn [Rsum fst snd]. f_equal.
    clear. induction c as [|c IH]; [simpl; ring|]. cbn [repeat map Rsum]. rewrite IH, S_INR. ring.
  - clear. unfold porb. induction items as [|[v c] items IH]; cbn [map]; constructor; auto. intros x. cbn [fst snd In]. split; [intros [E|[E|[]]]|intros [E|E]]; auto.
Qed.
Lemma even_half k : existsb Nat.odd k = false -> exists l, k = map (fun a => 2 * a)%nat l.
Proof.
  induction k as [|a k IH]; intros H; [exists []; auto|]. cbn [existsb] in H. apply orb_false_iff in H. destruct H as [Ha Hk].
  destruct (IH Hk) as [l ->]. rewrite <- Nat.negb_even in Ha. apply negb_false_iff, Nat.even_spec in Ha. destruct Ha as [b ->]. exists (b :: l). reflexivity.
Qed.
Lemma tdeg_double l : tdeg (map (fun a => 2 * a)%nat l) = (2 * tdeg l)%nat.
Proof. induction l as [|a l IH]; [reflexivity|]. cbn [map]. change (tdeg (?x :: ?y)) with (x + tdeg y)%nat. rewrite IH. lia. Qed.

Theorem sphere_exact_groups n m gs : (1 <= n)%nat ->
  (forall g, In g gs -> list_sum (map snd (snd g)) = n) ->
  (forall g, In g gs -> Rsum (map (fun it => INR (snd it) * (fst it * fst it)) (snd g)) = 1) ->
  (forall l, In l (parts m) -> list_sum l = m -> (length l <= n)%nat ->
     Rsum (map (fun g => fst g * (gnum (pg g) * pavg (psq (snd g)) (pcnt (snd g)) (INR n) l)) gs)
     = Rprod (map (fun a => df (2 * a)) l) / rise (INR n) m) ->
  exact n (2 * m + 1) (sphereI n) (sym_rule (map pg gs)).
Proof.
  intros Hn Hc Hs Hm.
  assert (Hok : forall g, In g (map pg gs) -> ok_group n g).
  { intros g Hg. apply in_map_iff in Hg. destruct Hg as [g' [<- Hg]]. apply porb_ok. auto. }
  apply sphere_exact_top; auto.
  - apply sym_rule_dim. exact Hok.
  - intros w p Hp. unfold sym_rule in Hp. apply in_flat_map in Hp.
    destruct Hp as [g [Hg Hp]]. apply in_map_iff in Hg. destruct Hg as [g' [<- Hg]].
    apply in_map_iff in Hp. destruct Hp as [p' [E Hp]]. injection E as <- <-.
    cbn [pg snd] in Hp. rewrite (porb_norm _ _ Hp). auto.
  - intros k Hk Ho. assert (M := sym_rule_moment n _ k 0 Hok ltac:(lia)). cbn [repeat] in M. rewrite app_nil_r in M. rewrite M.
    rewrite map_map. apply Rsum_map_zero. intros g Hg. unfold gavg. rewrite avg_odd; [ring| |auto].
    intros i a Ha. assert (Ev := porb_even g). unfold emeans. destruct (lt_dec i (length (snd (pg g)))) as [L|L].
    + rewrite (nth_indep _ (fun _ => 0) (mean (fst ([] : list R, 0%nat)))) by (rewrite map_length; auto). rewrite (map_nth (fun e => mean (fst e))).
      apply (Ev (nth i (snd (pg g)) ([], 0%nat)) a); auto. apply nth_In. auto.
    + rewrite nth_overflow; auto. rewrite map_length. lia.
  - intros k Hk Ho Hd. destruct (even_half k Ho) as [h ->]. rewrite map_length in Hk. rewrite tdeg_double in Hd.
    destruct (canon_exists h m) as [l [z [Hp Hl]]]; [lia|].
    assert (L := Permutation_length Hp). rewrite app_length, repeat_length in L.
    assert (T := tdeg_perm _ _ Hp). rewrite tdeg_app, tdeg_zeros, Nat.add_0_r in T.
    assert (Hp2 := Permutation_map (fun a => 2 * a)%nat Hp). rewrite map_app, map_rep in Hp2. change (2 * 0)%nat with 0%nat in Hp2.
    rewrite (sym_rule_perm n _ _ _ Hok Hp2) by (rewrite map_length; auto).
    rewrite (sym_rule_moment n) by (rewrite ?map_length; auto; lia). rewrite map_map.
    rewrite (Rsum_map_ext _ (fun g => fst g * (gnum (pg g) * pavg (psq (snd g)) (pcnt (snd g)) (INR n) l))) by (intros g _; rewrite gavg_pg; auto).
    rewrite Hm; [|apply parts_complete; auto; unfold tdeg in *; lia|unfold tdeg in *; lia|lia].
    rewrite sphereI_val by (rewrite ?map_length; auto).
    rewrite (rmoment_perm _ _ _ Hp2), rmoment_zeros. unfold rmoment.
    replace (existsb Nat.odd (map (fun a => 2 * a)%nat l)) with false.
    + rewrite map_map, tdeg_double. rewrite Nat.mul_comm, Nat.div_mul by lia. unfold h_sphere. replace (tdeg l) with m by lia. reflexivity.
    + symmetry. clear. induction l as [|a l IH]; [auto|]. cbn [map existsb]. rewrite IH, Nat.odd_mul. auto.
Qed.
