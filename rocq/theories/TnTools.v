(** Tools for exactness of symmetric rules on the simplex, in barycentric coordinates. *)
From Coq Require Import Reals List Arith Lia Lra Permutation Bool.
From Verif Require Import Spec RsumLemmas CombSpec CombModel CombProofs CombProofs2 Moments SymExact
  IntegralSpec IntegralProofs PyBase MiscModel CnModel SchemeTools CnTools TnBase TnModel.
Import ListNotations.
Open Scope R_scope.

Definition simplexI (n : nat) (k : list nat) : R := simplex_mean n (mono k).

(* ------------------------------------------------------- exponents k + e_i *)
Fixpoint bump (i : nat) (k : list nat) : list nat :=
  match k, i with
  | [], _ => []
  | a :: k', O => S a :: k'
  | a :: k', S i' => a :: bump i' k'
  end.
Lemma bump_length i k : length (bump i k) = length k.
Proof. revert i. induction k; destruct i; simpl; auto. Qed.
Lemma bump_tdeg k : forall i, (i < length k)%nat -> tdeg (bump i k) = S (tdeg k).
Proof.
  unfold tdeg. induction k as [|a k IH]; intros [|i] H; simpl in *; try lia.
  rewrite IH by lia. lia.
Qed.
Lemma mono_bump k : forall x, length x = length k ->
  Rsum (map (fun i => mono (bump i k) x) (seq 0 (length k))) = mono k x * Rsum x.
Proof.
  induction k as [|a k IH]; intros [|t x] H; try discriminate; [simpl; ring|].
  injection H as H. cbn [length seq map Rsum bump mono]. rewrite <- seq_shift, map_map.
  rewrite (Rsum_map_ext _ (fun i => t ^ a * mono (bump i k) x)) by (intros; reflexivity).
  rewrite Rsum_map_scal, IH by auto. simpl. ring.
Qed.
Lemma prodfactR_bump k : forall i, (i < length k)%nat ->
  prodfactR (bump i k) = (INR (nth i k 0%nat) + 1) * prodfactR k.
Proof.
  unfold prodfactR. induction k as [|a k IH]; intros [|i] H; simpl length in H; try lia.
  - cbn [bump map Rprod nth]. change (fact (S a)) with (S a * fact a)%nat. rewrite mult_INR, S_INR. ring.
  - cbn [bump map Rprod nth]. rewrite IH by lia. ring.
Qed.
Lemma Rsum_nth_INR k : Rsum (map (fun i => INR (nth i k 0%nat) + 1) (seq 0 (length k))) = INR (tdeg k) + INR (length k).
Proof.
  induction k as [|a k IH]; [simpl; unfold tdeg; simpl; ring|].
  cbn [length seq map Rsum nth]. rewrite <- seq_shift, map_map. cbn [nth]. rewrite IH.
  change (tdeg (a :: k)) with (a + tdeg k)%nat. rewrite plus_INR, S_INR. ring.
Qed.
Lemma simplexI_bump n k : length k = S n ->
  Rsum (map (fun i => simplexI n (bump i k)) (seq 0 (length k))) = simplexI n k.
Proof.
  intros H. unfold simplexI.
  rewrite (Rsum_map_ext _ (fun i => (INR (nth i k 0%nat) + 1) * (INR (fact n) * prodfactR k / INR (fact (n + S (tdeg k)))))).
  - rewrite Rsum_map_scal_r, Rsum_nth_INR, simplex_mean_mono by auto. unfold simplex_moment.
    rewrite H. replace (n + S (tdeg k))%nat with (S (n + tdeg k)) by lia.
    change (fact (S (n + tdeg k))) with (S (n + tdeg k) * fact (n + tdeg k))%nat.
    rewrite mult_INR, !S_INR, plus_INR. field. split; [apply INR_fact_neq_0|].
    assert (0 <= INR n) by apply pos_INR. assert (0 <= INR (tdeg k)) by apply pos_INR. lra.
  - intros i Hi. apply in_seq in Hi. rewrite simplex_mean_mono by (rewrite bump_length; auto).
    unfold simplex_moment. rewrite prodfactR_bump, bump_tdeg by lia. field. apply INR_fact_neq_0.
Qed.

(** Exactness on the monomials of degree exactly d is enough when the coordinates of each point sum to 1. *)
Lemma simplex_exact_top n d q :
  points_in_dim (n + 1) q -> (forall w p, In (w, p) q -> Rsum p = 1) ->
  (forall k, length k = (n + 1)%nat -> tdeg k = d -> apply q (mono k) = simplexI n k) ->
  exact (n + 1) d (simplexI n) q.
Proof.
  intros Hd Hs Ht. split; auto. intros k Hk Hdeg.
  remember (d - tdeg k)%nat as m eqn:Em. revert k Hk Hdeg Em.
  induction m as [|m IH]; intros k Hk Hdeg Em; [apply Ht; auto; lia|].
  rewrite <- simplexI_bump by lia.
  rewrite (apply_ext _ _ (fun x => Rsum (map (fun i => mono (bump i k) x) (seq 0 (length k))))).
  - rewrite (apply_sum q (fun i => mono (bump i k))). apply Rsum_map_ext. intros i Hi. apply in_seq in Hi.
    apply IH; rewrite ?bump_length, ?bump_tdeg; lia.
  - intros w p Hp. unfold points_in_dim in Hd. rewrite Forall_forall in Hd. assert (L := Hd _ Hp). simpl in L.
    rewrite mono_bump by lia. rewrite (Hs w p) by auto. ring.
Qed.

(* ------------------------------------------------------- groups of points with given values *)
(** weight and (value, count) items; the remaining coordinates are 0. *)
Definition sgroup := (R * list (R * nat))%type.
Definition sg_elems (M : nat) (g : sgroup) : list (list R * nat) :=
  map (fun it => ([fst it], snd it)) (snd g) ++ [([0], (M - list_sum (map snd (snd g)))%nat)].
Definition sg_group (M : nat) (g : sgroup) : group := (fst g, sg_elems M g).
Definition srule (M : nat) (gs : list sgroup) : rule := sym_rule (map (sg_group M) gs).

(** Average of v_{t_1}^{l_1} v_{t_2}^{l_2} ... over the arrangements; zero coordinates contribute nothing. *)
Fixpoint pavg (vs : list R) (cs : list R) (N : R) (l : list nat) : R :=
  match l with
  | [] => 1
  | a :: l' => Rsum (map (fun i => nth i cs 0 / N * nth i vs 0 ^ a * pavg vs (decR i cs) (N - 1) l') (seq 0 (length cs)))
  end.

Lemma decR_app cs c i : (i < length cs)%nat -> decR i (cs ++ [c]) = decR i cs ++ [c].
Proof. revert i. induction cs; intros [|i] H; simpl in *; try lia; auto. f_equal. apply IHcs. lia. Qed.
Lemma avg_pavg vs l : Forall (fun a => (0 < a)%nat) l -> forall cs c N, length cs = length vs ->
  avg (map (fun v => mean [v]) vs ++ [mean [0]]) (cs ++ [c]) N l = pavg vs cs N l.
Proof.
  induction 1 as [|a l Ha Hl IH]; intros cs c N Hc; [reflexivity|].
  cbn [avg pavg]. rewrite app_length. simpl (length [c]). rewrite seq_app, map_app, Rsum_app.
  cbn [seq map Rsum]. rewrite Nat.add_0_l.
  rewrite (app_nth2 (map _ vs)) by (rewrite map_length; lia). rewrite map_length, Hc, Nat.sub_diag. cbn [nth].
  destruct a as [|a]; [lia|]. rewrite mean_z_S.
  match goal with |- ?X + (?Y * 0 * ?Z + 0) = _ => replace (X + (Y * 0 * Z + 0)) with X by ring end.
  rewrite <- Hc. apply Rsum_map_ext. intros i Hi. apply in_seq in Hi.
  rewrite !app_nth1 by (rewrite ?map_length; lia). rewrite decR_app by lia.
  rewrite IH by (rewrite decR_length; auto). f_equal. f_equal.
  rewrite (nth_indep _ (fun _ => 0) (mean [0])) by (rewrite map_length; lia).
  rewrite (map_nth (fun v => mean [v])). apply mean_single.
Qed.

Definition svals (g : sgroup) : list R := map fst (snd g).
Definition scounts (g : sgroup) : list R := map (fun it => INR (snd it)) (snd g).
Lemma gavg_sg M g N l : Forall (fun a => (0 < a)%nat) l ->
  gavg (sg_group M g) N l = pavg (svals g) (scounts g) N l.
Proof.
  intros H. unfold gavg, sg_group, sg_elems, emeans, ecounts. cbn [fst snd].
  rewrite !map_app, !map_map. cbn [map fst snd].
  rewrite <- (avg_pavg (svals g) l H (scounts g) (INR (M - list_sum (map snd (snd g))))).
  - unfold svals, scounts. rewrite map_map. reflexivity.
  - unfold scounts, svals. rewrite !map_length. auto.
Qed.

Lemma sg_ok M g : (list_sum (map snd (snd g)) <= M)%nat -> ok_group M (sg_group M g).
Proof.
  intros H. unfold ok_group, sg_group, sg_elems. cbn [snd]. split.
  - rewrite map_app, map_map, list_sum_app. cbn [map snd].
    replace (map _ (snd g)) with (map snd (snd g)) by (apply map_ext; auto).
    change (list_sum [?x]) with (x + 0)%nat. cbn [list_sum fold_right]. lia.
  - intros e He. apply in_app_or in He. destruct He as [He|[<-|[]]]; [|discriminate].
    apply in_map_iff in He. destruct He as [it [<- _]]. discriminate.
Qed.

Lemma Rsum_base n items : Rsum (base_vector 0 n items) = Rsum (map (fun it => INR (snd it) * fst it) items).
Proof.
  unfold base_vector. rewrite Rsum_app, Rsum_repeat.
  replace (Rsum (concat _)) with (Rsum (map (fun it => INR (snd it) * fst it) items)); [ring|].
  induction items as [|[v c] items IH]; simpl; auto. rewrite Rsum_app, Rsum_repeat, IH. auto.
Qed.

Lemma combine_sg_perm M g p : (list_sum (map snd (snd g)) <= M)%nat ->
  In p (combine (sg_elems M g)) -> Permutation p (base_vector 0 M (snd g)).
Proof.
  intros H Hp. apply in_combine in Hp.
  rewrite (arrangement_base eq _ (map fst (snd g) ++ [0])) in Hp.
  - unfold sg_elems in Hp. rewrite (expand_items 0 M (snd g) (fun x => [x])) in Hp.
    destruct Hp as [q [Hq Hp]]. apply Forall2_eq_iff in Hp. subst. auto.
  - unfold sg_elems. apply Forall2_app.
    + clear. induction (snd g); simpl; constructor; auto. intros v. simpl. split; [intros [->|[]]|intros ->]; auto.
    + constructor; auto. intros v. simpl. split; [intros [->|[]]|intros ->]; auto.
Qed.

Lemma simplexI_perm n k k' : Permutation k k' -> length k = (n + 1)%nat -> simplexI n k = simplexI n k'.
Proof.
  intros H Hk. unfold simplexI. assert (L := Permutation_length H).
  rewrite !simplex_mean_mono by lia. apply simplex_moment_perm; auto.
Qed.

Lemma desc_pos d l : desc d l -> Forall (fun a => (0 < a)%nat) l.
Proof. induction 1; constructor; auto. lia. Qed.

(** (N+1)(N+2)...(N+d) *)
Fixpoint rise (N : R) (d : nat) : R := match d with O => 1 | S e => rise N e * (N + INR (S e)) end.
Lemma rise_fact n d : INR (fact (n + d)) = INR (fact n) * rise (INR n) d.
Proof.
  induction d as [|d IH]; [rewrite Nat.add_0_r; simpl; ring|].
  replace (n + S d)%nat with (S (n + d)) by lia.
  change (fact (S (n + d))) with (S (n + d) * fact (n + d))%nat. rewrite mult_INR, IH.
  cbn [rise]. replace (S (n + d)) with (n + S d)%nat by lia. rewrite plus_INR. ring.
Qed.

Theorem simplex_exact_groups n d gs :
  (forall g, In g gs -> (list_sum (map snd (snd g)) <= n + 1)%nat) ->
  (forall g, In g gs -> Rsum (map (fun it => INR (snd it) * fst it) (snd g)) = 1) ->
  (forall l, In l (parts d) -> list_sum l = d -> (length l <= n + 1)%nat ->
     Rsum (map (fun g => fst g * (gnum (sg_group (n + 1) g) * pavg (svals g) (scounts g) (INR (n + 1)) l)) gs)
     = prodfactR l / rise (INR n) d) ->
  exact (n + 1) d (simplexI n) (srule (n + 1) gs).
Proof.
  intros Hc Hs Hm.
  assert (Hok : forall g, In g (map (sg_group (n + 1)) gs) -> ok_group (n + 1) g).
  { intros g Hg. apply in_map_iff in Hg. destruct Hg as [g' [<- Hg]]. apply sg_ok. auto. }
  apply simplex_exact_top.
  - apply sym_rule_dim. exact Hok.
  - intros w p Hp. unfold srule, sym_rule in Hp. apply in_flat_map in Hp.
    destruct Hp as [g [Hg Hp]]. apply in_map_iff in Hg. destruct Hg as [g' [<- Hg]].
    apply in_map_iff in Hp. destruct Hp as [p' [E Hp]]. injection E as <- <-.
    cbn [sg_group snd] in Hp. apply combine_sg_perm in Hp; auto.
    rewrite (Rsum_perm _ _ Hp), Rsum_base. auto.
  - intros k Hk Hd. destruct (canon_exists k d) as [l [m [Hp Hl]]]; [lia|].
    assert (L := Permutation_length Hp). rewrite app_length, repeat_length in L.
    assert (T := tdeg_perm _ _ Hp). rewrite tdeg_app, tdeg_zeros, Nat.add_0_r in T.
    unfold srule. rewrite (sym_rule_perm (n + 1) _ _ _ Hok Hp Hk).
    rewrite (sym_rule_moment (n + 1)) by (auto; lia).
    rewrite (simplexI_perm _ _ _ Hp Hk). unfold simplexI.
    rewrite simplex_mean_mono by (rewrite app_length, repeat_length; lia).
    rewrite simplex_moment_zeros. unfold simplex_moment. rewrite <- T, Hd, rise_fact.
    rewrite map_map.
    rewrite (Rsum_map_ext _ (fun g => fst g * (gnum (sg_group (n + 1) g) * pavg (svals g) (scounts g) (INR (n + 1)) l))).
    + rewrite Hm.
      * assert (R0 : rise (INR n) d <> 0).
        { intros E. assert (E2 := rise_fact n d). rewrite E in E2.
          assert (E3 := INR_fact_neq_0 (n + d)). apply E3. rewrite E2. ring. }
        field. repeat split; auto; apply INR_fact_neq_0.
      * apply parts_complete; auto. unfold tdeg in *. lia.
      * unfold tdeg in *. lia.
      * lia.
    + intros g _. rewrite gavg_sg by (eapply desc_pos; eauto). reflexivity.
Qed.

(* ------------------------------------------------------- number of points of a group *)
Lemma prodpow_ones l : prodpow (map (fun e : list R * nat => (length (fst e), snd e)) (map (fun it : R * nat => ([fst it], snd it)) l)) = 1%nat.
Proof. induction l as [|[v c] l IH]; cbn; auto. rewrite IH, Nat.pow_1_l. auto. Qed.
Lemma prodfact_app2 l c : prodfact (l ++ [c]) = (prodfact l * fact c)%nat.
Proof. induction l; cbn; [lia|]. rewrite IHl. ring. Qed.

Lemma gnum_sg M g q : (list_sum (map snd (snd g)) <= M)%nat ->
  INR (fact M) = q * INR (prodfact (map snd (snd g)) * fact (M - list_sum (map snd (snd g))))%nat ->
  gnum (sg_group M g) = q.
Proof.
  intros H E. unfold gnum, sg_group. cbn [fst snd].
  assert (L := length_combine (sg_elems M g)). apply (f_equal INR) in L.
  assert (P : prodpow (map (fun e => (length (fst e), snd e)) (sg_elems M g)) = 1%nat).
  { unfold sg_elems. rewrite map_app. cbn [map fst snd length].
    assert (Hp : forall a c, prodpow (a ++ [(1%nat, c)]) = prodpow a).
    { intros a c. induction a as [|[b e] a IH]; cbn; [rewrite Nat.pow_1_l; lia|]. rewrite IH. auto. }
    rewrite Hp. apply prodpow_ones. }
  rewrite P, Nat.mul_1_r in L.
  destruct (sg_ok M g H) as [S _]. cbn [sg_group snd] in S. rewrite S in L.
  assert (C : map snd (sg_elems M g) = map snd (snd g) ++ [(M - list_sum (map snd (snd g)))%nat]).
  { unfold sg_elems. rewrite map_app, map_map. cbn [map snd]. reflexivity. }
  rewrite C, prodfact_app2, mult_INR, E in L.
  apply Rmult_eq_reg_r in L; auto. apply not_0_INR.
  assert (0 < prodfact (map snd (snd g)))%nat by apply prodfact_pos. assert (F := fact_neq_0 (M - list_sum (map snd (snd g)))).
  nia.
Qed.

Lemma factS m : INR (fact (S m)) = (INR m + 1) * INR (fact m).
Proof. change (fact (S m)) with (S m * fact m)%nat. rewrite mult_INR, S_INR. auto. Qed.

Ltac sg_num := intros; apply gnum_sg; [cbn; lia|];
  cbn [snd map list_sum fold_right prodfact fact]; rewrite ?Nat.add_0_r, ?Nat.mul_1_r, ?Nat.mul_1_l.
(** M = c + m with small c: fact M = M (M-1) ... fact m *)
Lemma num_all n w v : gnum (sg_group (n + 1) (w, [(v, (n + 1)%nat)])) = 1.
Proof. sg_num. rewrite Nat.sub_diag. cbn [fact]. rewrite Nat.mul_1_r. ring. Qed.
Lemma num_1 n w v : gnum (sg_group (n + 1) (w, [(v, 1%nat)])) = INR n + 1.
Proof. sg_num. replace (n + 1)%nat with (S n) by lia. rewrite factS. replace (S n - 1)%nat with n by lia. ring. Qed.
Lemma num_n n w v : gnum (sg_group (n + 1) (w, [(v, n)])) = INR n + 1.
Proof.
  sg_num. replace (n + 1 - n)%nat with 1%nat by lia. cbn [fact]. rewrite Nat.mul_1_r.
  replace (n + 1)%nat with (S n) by lia. rewrite factS. ring.
Qed.
Lemma num_n_1 n w u v : gnum (sg_group (n + 1) (w, [(u, n); (v, 1%nat)])) = INR n + 1.
Proof.
  sg_num. replace (n + 1 - (n + 1))%nat with 0%nat by lia. cbn [fact]. rewrite !Nat.mul_1_r.
  replace (n + 1)%nat with (S n) by lia. rewrite factS. ring.
Qed.
Lemma num_1_n n w u v : gnum (sg_group (n + 1) (w, [(u, 1%nat); (v, n)])) = INR n + 1.
Proof.
  sg_num. replace (n + 1 - (1 + n))%nat with 0%nat by lia. cbn [fact]. rewrite !Nat.mul_1_r.
  replace (n + 1)%nat with (S n) by lia. rewrite factS. ring.
Qed.
Ltac small_num n c := sg_num; let m := fresh "m" in
  match goal with |- context [fact (n + 1 - ?x)] => replace (n + 1 - x)%nat with (n + 1 - c)%nat by lia end;
  remember (n + 1 - c)%nat as m; replace (n + 1)%nat with (c + m)%nat by lia;
  let E := fresh in assert (E : INR n + 1 = INR (c + m)) by (rewrite <- S_INR; f_equal; lia);
  replace (INR n) with (INR (c + m) - 1) by lra; clear E;
  cbn [Nat.add]; rewrite ?factS, ?mult_INR, ?S_INR; cbn [INR]; try field.
Lemma num_2 n w v : (1 <= n)%nat -> gnum (sg_group (n + 1) (w, [(v, 2%nat)])) = (INR n + 1) * INR n / 2.
Proof. small_num n 2%nat. Qed.
Lemma num_1_1 n w u v : (1 <= n)%nat -> gnum (sg_group (n + 1) (w, [(u, 1%nat); (v, 1%nat)])) = (INR n + 1) * INR n.
Proof. small_num n 2%nat. Qed.
Lemma num_3 n w v : (2 <= n)%nat -> gnum (sg_group (n + 1) (w, [(v, 3%nat)])) = (INR n + 1) * INR n * (INR n - 1) / 6.
Proof. small_num n 3%nat. Qed.
Lemma num_2_1 n w u v : (2 <= n)%nat ->
  gnum (sg_group (n + 1) (w, [(u, 2%nat); (v, 1%nat)])) = (INR n + 1) * INR n * (INR n - 1) / 2.
Proof. small_num n 3%nat. Qed.
Lemma num_1_2 n w u v : (2 <= n)%nat ->
  gnum (sg_group (n + 1) (w, [(u, 1%nat); (v, 2%nat)])) = (INR n + 1) * INR n * (INR n - 1) / 2.
Proof. small_num n 3%nat. Qed.
Lemma num_111 n w u v x : (2 <= n)%nat ->
  gnum (sg_group (n + 1) (w, [(u, 1%nat); (v, 1%nat); (x, 1%nat)])) = (INR n + 1) * INR n * (INR n - 1).
Proof. small_num n 3%nat. Qed.
Lemma num_4 n w v : (3 <= n)%nat ->
  gnum (sg_group (n + 1) (w, [(v, 4%nat)])) = (INR n + 1) * INR n * (INR n - 1) * (INR n - 2) / 24.
Proof. small_num n 4%nat. Qed.
Lemma num_3_1 n w u v : (3 <= n)%nat ->
  gnum (sg_group (n + 1) (w, [(u, 3%nat); (v, 1%nat)])) = (INR n + 1) * INR n * (INR n - 1) * (INR n - 2) / 6.
Proof. small_num n 4%nat. Qed.
Lemma num_5 n w v : (4 <= n)%nat ->
  gnum (sg_group (n + 1) (w, [(v, 5%nat)])) = (INR n + 1) * INR n * (INR n - 1) * (INR n - 2) * (INR n - 3) / 120.
Proof. small_num n 5%nat. Qed.
Lemma num_n1_2 n w u v : (1 <= n)%nat ->
  gnum (sg_group (n + 1) (w, [(u, (n - 1)%nat); (v, 2%nat)])) = (INR n + 1) * INR n / 2.
Proof.
  intros H. destruct n as [|m]; [lia|]. replace (S m - 1)%nat with m by lia.
  apply gnum_sg; [cbn; lia|]. cbn [snd map list_sum fold_right prodfact].
  replace (S m + 1 - (m + (2 + 0)))%nat with 0%nat by lia. replace (S m + 1)%nat with (S (S m)) by lia.
  change (fact 2) with 2%nat. change (fact 0) with 1%nat.
  rewrite !factS, !S_INR, !mult_INR. cbn [INR]. field.
Qed.
Lemma num_n1_1_1 n w u v x : (1 <= n)%nat ->
  gnum (sg_group (n + 1) (w, [(u, (n - 1)%nat); (v, 1%nat); (x, 1%nat)])) = (INR n + 1) * INR n.
Proof.
  intros H. destruct n as [|m]; [lia|]. replace (S m - 1)%nat with m by lia.
  apply gnum_sg; [cbn; lia|]. cbn [snd map list_sum fold_right prodfact].
  replace (S m + 1 - (m + (1 + (1 + 0))))%nat with 0%nat by lia. replace (S m + 1)%nat with (S (S m)) by lia.
  change (fact 1) with 1%nat. change (fact 0) with 1%nat.
  rewrite !factS, !S_INR, !mult_INR. cbn [INR]. field.
Qed.
Lemma num_n2 n w v : (2 <= n)%nat ->
  gnum (sg_group (n + 1) (w, [(v, (n - 2)%nat)])) = (INR n + 1) * INR n * (INR n - 1) / 6.
Proof.
  intros H. destruct n as [|[|m]]; [lia|lia|]. replace (S (S m) - 2)%nat with m by lia. sg_num.
  replace (S (S m) + 1 - m)%nat with 3%nat by lia. replace (S (S m) + 1)%nat with (S (S (S m))) by lia.
  change (fact 3) with 6%nat. rewrite !factS, mult_INR, !S_INR. cbn [INR]. field.
Qed.
