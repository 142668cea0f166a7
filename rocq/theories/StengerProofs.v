(** Proofs for StengerModel.v: the rules as lists of [combine] groups with rational data, bounds on the divisors, and the tactics
    that turn the check of FsNear.v into [reaches] and [misses]. *)
From Coq Require Import Reals List Arith Lia Lra Permutation Bool ZArith QArith Qreals.
From Coquelicot Require Import Coquelicot.
From Verif Require Import Spec RsumLemmas CombModel CombProofs Moments SymExact PyBase SymmModel SchemeTools CnTools CnModel CnProofs MsModel MsProofs S2Model
  IntegralSpec IntegralProofs SphereSpec SphereInt RadialInt Tower TowerMoments NearTools DecSpec DecTools FsNear FsInterval StengerModel.
Import ListNotations.
Set Bullet Behavior "Strict Subproofs".
Open Scope R_scope.

(** The moments depend on the exponents up to order only. *)
Lemma rmQ_perm h k k' : Permutation k k' -> Q2R (rmQ h k) = Q2R (rmQ h k').
Proof. intros H. rewrite !(rmQ_ok h (fun m => Q2R (h m))) by auto. apply rmoment_perm; auto. Qed.
Lemma ballQ_perm n k k' : Permutation k k' -> length k = n -> Q2R (ballQ n k) = Q2R (ballQ n k').
Proof. intros H _. apply rmQ_perm; auto. Qed.
Lemma enr2Q_perm n k k' : Permutation k k' -> length k = n -> Q2R (enr2Q n k) = Q2R (enr2Q n k').
Proof. intros H _. apply rmQ_perm; auto. Qed.
Lemma enr2_moments n : moments (enr2_mean (S n)) (S n) (enr2Q (S n)).
Proof.
  split; [|intros; apply enr2Q_ok; auto; lia]. intros p d H. destruct gauss_moments as [G [HG _]].
  unfold enr2_mean, radial_mean. assert (HG' : forall a, imp (fun r => r ^ a * exp (- (r * r))) (G a)) by (intros; apply HG).
  rewrite (radial_int_mpeval _ G) by first [exact HG' | eapply List.Forall_impl; [|exact H]; cbn; tauto].
  unfold Rdiv. rewrite <- Rsum_map_scal_r. apply Rsum_map_ext. intros [c k] Hc. cbn [fst snd]. unfold mp_ok in H. rewrite List.Forall_forall in H. apply H in Hc. cbn [snd] in Hc.
  rewrite <- (enr2Q_ok (S n) k) by first [lia | tauto]. unfold enr2_mean, radial_mean. rewrite (radial_int_k _ G n k) by (auto; tauto). unfold Rdiv. ring.
Qed.

(** From the check of the moments to the statements. *)
Lemma reaches_fs D c M nc d I qgs vl vh t V s tol : moments M nc I -> (forall k k', Permutation k k' -> length k = nc -> Q2R (I k) = Q2R (I k')) ->
  IZR vl <= V * IZR s64 <= IZR vh -> s_degree s = d -> 0 < tol -> Q2R t <= c * tol -> s_rule s = sym_rule (over V (map gR qgs)) ->
  near_fs D nc d I qgs vl vh t = true \/ near_ifs D nc d I qgs vl vh t = true -> reaches c M nc d (Some (s, tol)).
Proof.
  intros [HM _] HI HV HD H0 Ht HR H. exists s, tol.
  assert (PE : points_in_dim nc (sym_rule (over V (map gR qgs))) /\ forall k, length k = nc -> (tdeg k <= d)%nat -> Rabs (apply (sym_rule (over V (map gR qgs))) (mono k) - Q2R (I k)) <= Q2R t)
    by (destruct H as [H|H]; [exact (near_fs_ok D nc d I qgs vl vh t V H HV HI)|exact (near_ifs_ok D nc d I qgs vl vh t V H HV HI)]). destruct PE as [P E]. rewrite <- HR in P, E.
  repeat split; auto. intros p Hp. rewrite (HM p d Hp).
  rewrite apply_mpeval. unfold mp_ok in Hp. induction Hp as [|[a k] p [Lk Dk] _ IH]; cbn [map Rsum fst snd] in *.
  - rewrite Rminus_eq_0, Rabs_R0. lra.
  - replace (_ - _) with (a * (apply (s_rule s) (mono k) - Q2R (I k)) + (Rsum (map (fun ck => fst ck * apply (s_rule s) (mono (snd ck))) p) - Rsum (map (fun ck => fst ck * Q2R (I (snd ck))) p))) by ring.
    eapply Rle_trans; [apply Rabs_triang|]. rewrite Rmult_plus_distr_l. apply Rplus_le_compat.
    + rewrite Rabs_mult, (Rmult_comm (c * tol)). apply Rmult_le_compat_l; [apply Rabs_pos|]. eapply Rle_trans; [apply E; auto|auto].
    + apply IH.
Qed.
Lemma misses_fs D c M nc d I qgs vl vh t V s tol k : moments M nc I -> length k = nc -> (tdeg k <= d)%nat ->
  IZR vl <= V * IZR s64 <= IZR vh -> s_degree s = d -> c * tol <= Q2R t -> s_rule s = sym_rule (over V (map gR qgs)) ->
  far_fs D nc I qgs vl vh t k = true -> misses c M nc d (Some (s, tol)).
Proof.
  intros [_ HM] Lk Dk HV HD Ht HR H. exists s, tol, k. repeat split; auto. rewrite HM, HR by auto. eapply Rle_lt_trans; [exact Ht|].
  apply (far_fs_ok D nc I qgs vl vh); auto.
Qed.

(** The data of a rule: entry i of the weights with the fully symmetric set of the given values. *)
Definition fsdQ (n : nat) (ts : list (Q * nat)) : list (list Q * nat) :=
  map (fun it => ([fst it; - fst it]%Q, snd it)) ts ++ [([0%Q], (n - list_sum (map snd ts))%nat)].
Fixpoint stq (n : nat) (B : list Q) (sp : list (nat * list (Q * nat))) : option (list qgroup) :=
  match sp with
  | [] => Some []
  | (i, ts) :: r => match nth_error B i, (list_sum (map snd ts) <=? n)%nat, stq n B r with Some b, true, Some l => Some ((b, fsdQ n ts) :: l) | _, _, _ => None end
  end.
Definition stR (n : nat) (B : list Q) (it : nat * list (Q * nat)) : option (R * list point) :=
  item (map Q2R B) (fst it) (match snd it with [] => Some (Rz n) | ts => Rfsd n (map (fun t => (Q2R (fst t), snd t)) ts) end).
Lemma fsdQ_ok n ts : (list_sum (map snd ts) <= n)%nat ->
  Rfsd n (map (fun t => (Q2R (fst t), snd t)) ts) = Some (combine (map (fun e => (map Q2R (fst e), snd e)) (fsdQ n ts))).
Proof.
  intros H. unfold Rfsd, fsd. rewrite map_map. cbn [snd]. change (map (fun x : Q * nat => snd x) ts) with (map snd ts). destruct (Nat.leb_spec (list_sum (map snd ts)) n) as [_|]; [|lia]. unfold fsdQ. f_equal. f_equal.
  rewrite map_app, !map_map. cbn [map fst snd]. rewrite Q2R_0. f_equal. apply map_ext. intros [q c]. cbn [fst snd]. rewrite Q2R_opp. reflexivity.
Qed.
Lemma Rz_fsd n : Some (Rz n) = Rfsd n [].
Proof. unfold Rfsd, fsd. cbn [map list_sum fold_right app Nat.leb]. rewrite Nat.sub_0_r, Rz_combine. reflexivity. Qed.
Lemma stq_ok n B sp : forall gs, stq n B sp = Some gs -> opt_all (map (stR n B) sp) = Some (gdata (map gR gs)).
Proof.
  induction sp as [|[i ts] sp IH]; intros gs H; cbn [stq] in H; [injection H as <-; reflexivity|].
  destruct (nth_error B i) as [b|] eqn:Eb; [|discriminate]. destruct (Nat.leb_spec (list_sum (map snd ts)) n) as [L|]; [|discriminate].
  destruct (stq n B sp) as [l|]; [|discriminate]. injection H as <-. cbn [map opt_all]. rewrite (IH l eq_refl). unfold stR, item. cbn [fst snd].
  rewrite nth_error_map, Eb. cbn [option_map bind].
  replace (match ts with [] => Some (Rz n) | _ => _ end) with (Rfsd n (map (fun t => (Q2R (fst t), snd t)) ts)) by (destruct ts; [rewrite Rz_fsd|]; reflexivity).
  rewrite fsdQ_ok by auto. reflexivity.
Qed.
Lemma st_run n B sp gs V d (tol : R) : stq n B sp = Some gs -> V <> 0 ->
  (let! data := opt_all (map (stR n B) sp) in let! s := ms_scheme n data V d in Some (s, tol)) =
  Some (mk_scheme n (sym_rule (over V (map gR gs))) d, tol).
Proof.
  intros H HV. rewrite (stq_ok n B sp gs H). cbn [bind]. unfold ms_scheme. destruct (Req_EM_T V 0); [tauto|]. assert (G := mk_rule_gdata (map gR gs)).
  destruct (untangle (gdata (map gR gs))) as [pts ws]. cbn [bind]. unfold Rdiv. rewrite mk_rule_scale, G, sym_rule_scale. reflexivity.
Qed.

(** The lists of data of _stenger.py. *)
Definition sp7 (u v : Q) : list (nat * list (Q * nat)) := [(0%nat, []); (1, [(u, 1)]); (2, [(v, 1)]); (3, [(u, 2)]); (4, [(v, 2)]); (5, [(u, 3)])]%nat.
Definition sp9 (n : nat) (u v : Q) : list (nat * list (Q * nat)) :=
  [(0%nat, []); (1, [(u, 1)]); (2, [(v, 1)]); (3, [(u, 2)]); (4, [(v, 2)]); (5, [(u, 1); (v, 1)]); (6, [(u, 3)]); (7, [(v, 3)])]%nat ++
  (if (3 <? n)%nat then [(8, [(u, 4)])]%nat else []).
Definition sp11 (n : nat) (u v w : Q) : list (nat * list (Q * nat)) :=
  [(0%nat, []); (1, [(u, 1)]); (2, [(v, 1)]); (3, [(w, 1)]); (4, [(u, 2)]); (5, [(v, 2)]); (6, [(w, 2)]); (7, [(u, 1); (v, 1)]); (8, [(u, 1); (w, 1)]);
   (9, [(u, 3)]); (10, [(v, 3)]); (11, [(w, 3)]); (12, [(u, 2); (v, 1)])]%nat ++
  (if (3 <? n)%nat then [(13, [(u, 4)]); (14, [(v, 4)])]%nat else []) ++ (if (4 <? n)%nat then [(15, [(u, 5)])]%nat else []).

(** The divisors. *)
Definition piQlo : Q := (57952155664616982738 # 18446744073709551616)%Q.
Definition piQhi : Q := (57952155664616982740 # 18446744073709551616)%Q.
Definition spQlo : Q := (32696002570115000952 # 18446744073709551616)%Q.
Definition spQhi : Q := (32696002570115000956 # 18446744073709551616)%Q.
Lemma pi_bounds : Q2R piQlo <= PI <= Q2R piQhi.
Proof.
  pose proof pi_ball_ok as H. unfold bok, pi_ball in H. cbn [fst snd] in H. apply Rabs_le_IZR in H. unfold S64, scale in H. change (2 ^ 64)%Z with 18446744073709551616%Z in H.
  unfold piQlo, piQhi, Q2R. cbn [Qnum Qden]. split; lra.
Qed.
Lemma sp_bounds : Q2R spQlo <= sqrt PI <= Q2R spQhi.
Proof.
  pose proof pi_bounds as [L U]. assert (0 < Q2R spQlo) by (unfold spQlo, Q2R; cbn [Qnum Qden]; lra). assert (0 < Q2R spQhi) by (unfold spQhi, Q2R; cbn [Qnum Qden]; lra). split.
  - apply Rsqr_incr_0_var; [|apply sqrt_pos]. rewrite Rsqr_sqrt by (left; apply PI_RGT_0). eapply Rle_trans; [|exact L]. unfold Rsqr. rewrite <- Q2R_mult. apply Qle_Rle. vm_compute. discriminate.
  - apply Rsqr_incr_0_var; [|lra]. rewrite Rsqr_sqrt by (left; apply PI_RGT_0). eapply Rle_trans; [exact U|]. unfold Rsqr. rewrite <- Q2R_mult. apply Qle_Rle. vm_compute. discriminate.
Qed.
Fixpoint qpow (q : Q) (n : nat) : Q := match n with O => 1%Q | S m => Qred (q * qpow q m) end.
Lemma qpow_ok q n : Q2R (qpow q n) = Q2R q ^ n.
Proof. induction n as [|n IH]; cbn [qpow pow]; [apply Q2R_1|]. rewrite Q2R_red, Q2R_mult, IH. reflexivity. Qed.
Lemma pow_bounds lo hi x n : (0 <= lo)%Q -> Q2R lo <= x <= Q2R hi -> Q2R (qpow lo n) <= x ^ n <= Q2R (qpow hi n).
Proof. intros H0 [H1 H2]. rewrite !qpow_ok. apply Qle_Rle in H0. rewrite Q2R_0 in H0. split; apply pow_incr; lra. Qed.
Lemma bal0_3 : bal0 3 = Q2R (4 # 3) * PI.
Proof.
  rewrite !bal0_S. pose proof (W_step_sin 0 0) as A. pose proof (W_step_sin 0 1) as B. cbn [Nat.add INR] in *. rewrite W_00 in A. rewrite W_01 in B |- *.
  replace (W 0 2) with (PI / 2) by lra. replace (W 0 3) with (4 / 3) by lra. unfold bal0. cbn [repeat bal]. unfold Q2R. cbn [Qnum Qden]. field.
Qed.
Lemma bal0_4 : bal0 4 = Q2R (1 # 2) * PI ^ 2.
Proof.
  rewrite bal0_S, bal0_3. pose proof (W_step_sin 0 0) as A. pose proof (W_step_sin 0 2) as B. cbn [Nat.add INR] in *. rewrite W_00 in A.
  replace (W 0 4) with (3 / 8 * PI) by lra. unfold Q2R. cbn [Qnum Qden]. field.
Qed.
Lemma bal0_5 : bal0 5 = Q2R (8 # 15) * PI ^ 2.
Proof.
  rewrite bal0_S, bal0_4. pose proof (W_step_sin 0 1) as A. pose proof (W_step_sin 0 3) as B. cbn [Nat.add INR] in *. rewrite W_01 in A.
  replace (W 0 5) with (16 / 15) by lra. unfold Q2R. cbn [Qnum Qden]. field.
Qed.
Lemma bal0_6 : bal0 6 = Q2R (1 # 6) * PI ^ 3.
Proof.
  rewrite bal0_S, bal0_5. pose proof (W_step_sin 0 0) as A. pose proof (W_step_sin 0 2) as B. pose proof (W_step_sin 0 4) as C. cbn [Nat.add INR] in *. rewrite W_00 in A.
  replace (W 0 6) with (5 / 16 * PI) by lra. unfold Q2R. cbn [Qnum Qden]. field.
Qed.
Definition volQ (n : nat) (p : Q) : Q :=
  Qred (match n with 3%nat => (4 # 3) * qpow p 1 | 4%nat => (1 # 2) * qpow p 2 | 5%nat => (8 # 15) * qpow p 2 | 6%nat => (1 # 6) * qpow p 3 | _ => 0 end)%Q.
Lemma vol_bounds n : (3 <= n <= 6)%nat -> Q2R (volQ n piQlo) <= ndim_nball_volume n <= Q2R (volQ n piQhi).
Proof.
  intros H. unfold ndim_nball_volume. rewrite ball_int_1. assert (0 <= piQlo)%Q by (vm_compute; discriminate).
  assert (P : forall (c : Q) k, 0 <= Q2R c -> Q2R (Qred (c * qpow piQlo k)) <= Q2R c * PI ^ k <= Q2R (Qred (c * qpow piQhi k))).
  { intros c k Hc. rewrite !Q2R_red, !Q2R_mult. destruct (pow_bounds piQlo piQhi PI k H0 pi_bounds). split; apply Rmult_le_compat_l; auto. }
  assert (n = 3 \/ n = 4 \/ n = 5 \/ n = 6)%nat as [-> | [-> | [-> | ->]]] by lia.
  - rewrite bal0_3. assert (P3 := P (4 # 3)%Q 1%nat). rewrite pow_1 in P3. apply P3. unfold Q2R; cbn [Qnum Qden]; lra.
  - rewrite bal0_4. apply (P (1 # 2)%Q 2%nat). unfold Q2R; cbn [Qnum Qden]; lra.
  - rewrite bal0_5. apply (P (8 # 15)%Q 2%nat). unfold Q2R; cbn [Qnum Qden]; lra.
  - rewrite bal0_6. apply (P (1 # 6)%Q 3%nat). unfold Q2R; cbn [Qnum Qden]; lra.
Qed.
Definition spQ (n : nat) (p : Q) : Q := qpow p n.
Lemma sp_pow_bounds n : Q2R (spQ n spQlo) <= sqrt PI ^ n <= Q2R (spQ n spQhi).
Proof. apply pow_bounds; [vm_compute; discriminate|]. apply sp_bounds. Qed.
Lemma vol_nz n : ndim_nball_volume n <> 0.
Proof. unfold ndim_nball_volume. rewrite ball_int_1. apply Rgt_not_eq, bal0_pos. Qed.
Lemma sp_nz n : sqrt PI ^ n <> 0.
Proof. apply pow_nonzero, Rgt_not_eq, sqrt_lt_R0, PI_RGT_0. Qed.

Definition zlo (q : Q) : Z := (Qnum q * s64 / Zpos (Qden q))%Z.
Definition zhi (q : Q) : Z := (Qnum q * s64 / Zpos (Qden q) + 1)%Z.
Lemma z_bounds lo hi V : Q2R lo <= V <= Q2R hi -> IZR (zlo lo) <= V * IZR s64 <= IZR (zhi hi).
Proof.
  intros [H1 H2]. assert (S0 : 0 < IZR s64) by (apply (IZR_lt 0); reflexivity). split.
  - apply Rle_trans with (Q2R lo * IZR s64); [|apply Rmult_le_compat_r; lra]. unfold zlo, Q2R. set (b := Zpos (Qden lo)). assert (0 < IZR b) by (apply (IZR_lt 0); reflexivity).
    assert (P := Z.mul_div_le (Qnum lo * s64) b ltac:(reflexivity)). apply IZR_le in P. rewrite mult_IZR in P. rewrite (mult_IZR (Qnum lo)) in P.
    apply (Rmult_le_reg_l (IZR b)); auto. eapply Rle_trans; [exact P|]. right. field. lra.
  - apply Rle_trans with (Q2R hi * IZR s64); [apply Rmult_le_compat_r; lra|]. unfold zhi, Q2R. set (b := Zpos (Qden hi)). assert (0 < IZR b) by (apply (IZR_lt 0); reflexivity).
    assert (P := Z.mul_succ_div_gt (Qnum hi * s64) b ltac:(reflexivity)). apply Z.lt_le_incl, IZR_le in P. rewrite mult_IZR in P. rewrite <- Z.add_1_r in P. rewrite (mult_IZR b) in P.
    apply (Rmult_le_reg_l (IZR b)); auto. eapply Rle_trans; [|exact P]. right. field. lra.
Qed.
Definition Dp : Z := 1000000000000000%Z.
Lemma st_reaches c M n d I B sp V tol vlo vhi t : moments M n I -> (forall k k', Permutation k k' -> length k = n -> Q2R (I k) = Q2R (I k')) ->
  Q2R vlo <= V <= Q2R vhi -> V <> 0 -> 0 < tol -> Q2R t <= c * tol ->
  match stq n B sp with Some gs => near_ifs Dp n d I gs (zlo vlo) (zhi vhi) t | None => false end = true ->
  reaches c M n d (let! data := opt_all (map (stR n B) sp) in let! s := ms_scheme n data V d in Some (s, tol)).
Proof.
  intros HM HI HV H0 Ht Hc H. destruct (stq n B sp) as [gs|] eqn:E; [|discriminate]. rewrite (st_run n B sp gs) by auto.
  apply (reaches_fs Dp c M n d I gs (zlo vlo) (zhi vhi) t V); auto. apply z_bounds; auto.
Qed.
Lemma st_misses c M n d I B sp V tol vlo vhi t k : moments M n I -> length k = n -> (tdeg k <= d)%nat ->
  Q2R vlo <= V <= Q2R vhi -> V <> 0 -> c * tol <= Q2R t ->
  match stq n B sp with Some gs => far_fs Dp n I gs (zlo vlo) (zhi vhi) t k | None => false end = true ->
  misses c M n d (let! data := opt_all (map (stR n B) sp) in let! s := ms_scheme n data V d in Some (s, tol)).
Proof.
  intros HM Lk Dk HV H0 Hc H. destruct (stq n B sp) as [gs|] eqn:E; [|discriminate]. rewrite (st_run n B sp gs) by auto.
  apply (misses_fs Dp c M n d I gs (zlo vlo) (zhi vhi) t V _ _ k); auto. apply z_bounds; auto.
Qed.
(** The specification of a scheme from its table. *)
Ltac st_table n table k := let tv := eval cbv beta iota delta [table] in (table n) in
  lazymatch tv with Some (?u, ?v, ?w, ?B) => k B constr:(sp11 n u v w)
  | Some (?u, ?v, ?B) => lazymatch B with [_; _; _; _; _; _] => k B constr:(sp7 u v) | _ => k B constr:(sp9 n u v) end end.
Ltac qle := unfold Q2R; cbn [Qnum Qden]; lra.
Ltac st_tol c tol := lazymatch c with IZR ?z => lazymatch tol with Q2R (Qmake ?a ?a') / IZR ?b =>
  let n := eval compute in (z * a)%Z in let m := eval compute in (a' * Z.to_pos b)%positive in constr:((n # m)%Q) end end.
Ltac sn_near table :=
  lazymatch goal with |- reaches ?c ?M ?n ?d (?f ?n) =>
  st_table n table ltac:(fun B sp =>
  let r := eval cbv beta delta [f] in (f n) in
  lazymatch r with context [Some (_, ?tol)] =>
  let t := st_tol c tol in
  apply (st_reaches c M n d (ballQ n) B sp (ndim_nball_volume n) tol (volQ n piQlo) (volQ n piQhi) t (ball_moments n) (ballQ_perm n));
    [apply vol_bounds; lia|apply vol_nz|lra|qle|vm_compute; reflexivity] end) end.
Ltac sn_far table :=
  lazymatch goal with |- misses ?c ?M ?n ?d (?f ?n) =>
  st_table n table ltac:(fun B sp =>
  let r := eval cbv beta delta [f] in (f n) in
  lazymatch r with context [Some (_, ?tol)] =>
  let t := st_tol c tol in
  apply (st_misses c M n d (ballQ n) B sp (ndim_nball_volume n) tol (volQ n piQlo) (volQ n piQhi) t (repeat 0%nat n) (ball_moments n));
    [reflexivity|vm_compute; lia|apply vol_bounds; lia|apply vol_nz|qle|vm_compute; reflexivity] end) end.
Ltac enr2_near table :=
  lazymatch goal with |- reaches ?c ?M ?n ?d (?f ?n) =>
  st_table n table ltac:(fun B sp =>
  let r := eval cbv beta delta [f] in (f n) in
  lazymatch r with context [Some (_, ?tol)] =>
  let t := st_tol c tol in
  apply (st_reaches c M n d (enr2Q n) B sp (sqrt PI ^ n) tol (spQ n spQlo) (spQ n spQhi) t (enr2_moments (n - 1)) (enr2Q_perm n));
    [apply sp_pow_bounds|apply sp_nz|lra|qle|vm_compute; reflexivity] end) end.
Ltac enr2_far table k :=
  lazymatch goal with |- misses ?c ?M ?n ?d (?f ?n) =>
  st_table n table ltac:(fun B sp =>
  let r := eval cbv beta delta [f] in (f n) in
  lazymatch r with context [Some (_, ?tol)] =>
  let t := st_tol c tol in
  apply (st_misses c M n d (enr2Q n) B sp (sqrt PI ^ n) tol (spQ n spQlo) (spQ n spQhi) t k (enr2_moments (n - 1)));
    [reflexivity|vm_compute; lia|apply sp_pow_bounds|apply sp_nz|qle|vm_compute; reflexivity] end) end.

(** _stroud_1967_5.py *)
Lemma from_data_gdata n qgs d : from_data n (gdata (map gR qgs)) d = mk_scheme n (sym_rule (over 1 (map gR qgs))) d.
Proof.
  unfold from_data. rewrite mk_rule_gdata. f_equal. f_equal. unfold over. rewrite <- (map_id (map gR qgs)) at 1. apply map_ext. intros [w e]. cbn [fst snd]. f_equal. field.
Qed.
Lemma repeat_combine (x : R) n : [repeat x n] = combine [([x], n)].
Proof. rewrite combine_single, product_single. reflexivity. Qed.
Lemma Rrd_full n a i b j : (0 < i)%nat -> (0 < j)%nat -> (i + j)%nat = n -> Rrd n [(a, i); (b, j)] = Some (combine [([a], i); ([b], j); ([0], 0%nat)]).
Proof.
  intros Hi Hj <-. unfold Rrd, rd. cbn [map snd fst list_sum fold_right forallb app]. destruct (Nat.ltb_spec 0 i) as [_|]; [|lia]. destruct (Nat.ltb_spec 0 j) as [_|]; [|lia].
  rewrite Nat.add_0_r, Nat.leb_refl, Nat.sub_diag. reflexivity.
Qed.
(** The groups with the parameters eta, lmbda, xi, mu, gamma, A, B, C, with the trailing zero of [rd] if z is true, and with the
    weight of the centre if it is a single point. *)
Definition q67 (z : bool) (n : nat) (par : list Q) (centre : option Q) : list qgroup :=
  match par with
  | [eta; l; x; mu; g; A; B; C] =>
    let tz (e : list (list Q * nat)) := if z then e ++ [([0%Q], 0%nat)] else e in
    [(B, tz [([l], 1%nat); ([x], (n - 1)%nat)]); (B, tz [([- l]%Q, 1%nat); ([- x]%Q, (n - 1)%nat)])] ++
    (if (n =? 2)%nat then [(C, [([mu], 2%nat)]); (C, [([- mu]%Q, 2%nat)])]
     else [(C, tz [([mu], 2%nat); ([g], (n - 2)%nat)]); (C, tz [([- mu]%Q, 2%nat); ([- g]%Q, (n - 2)%nat)])]) ++
    match centre with Some w => [(w, [([0%Q], n)])] | None => [(A, [([eta], n)]); (A, [([- eta]%Q, n)])] end
  | _ => []
  end.
Definition D67 : Z := 30000000000000000%Z.
Lemma reaches_67 c M n d I qgs s tol t r : moments M n I -> (forall k k', Permutation k k' -> length k = n -> Q2R (I k) = Q2R (I k')) -> r = Some (s, tol) ->
  s = from_data n (gdata (map gR qgs)) d -> 0 < tol -> Q2R t <= c * tol -> near_fs D67 n d I qgs s64 s64 t = true -> reaches c M n d r.
Proof.
  intros HM HI -> -> H0 Ht H. rewrite from_data_gdata. apply (reaches_fs D67 c M n d I qgs s64 s64 t 1); auto. lra.
Qed.
Lemma Q2R_two : Q2R 2 = 2. Proof. exact (Q2R_IZR 2). Qed.
Ltac s67_data := unfold gdata, gR; cbn [map fst snd app]; rewrite ?Q2R_opp, ?Q2R_0, ?Q2R_mult, ?repeat_combine, ?Q2R_two; reflexivity.
Ltac s67_near HM HI z table centre :=
  lazymatch goal with |- reaches ?c ?M ?n ?d (?f ?n) =>
  let tv := eval cbv beta iota delta [table] in (table n) in
  lazymatch tv with Some (map Q2R ?par) =>
  let r := eval cbv beta delta [f] in (f n) in
  lazymatch r with context [Some (_, ?tol)] =>
  let t := st_tol c tol in
  let I := lazymatch type of HM with moments _ _ ?I => I end in
  let qgs := eval cbv beta iota zeta delta [q67 app Nat.sub Nat.eqb] in (q67 z n par centre) in
  eapply (reaches_67 c M n d I qgs _ tol t);
  [exact HM|exact HI
  |unfold f, table; cbn [map bind opt_all entry app Nat.eqb Nat.sub]; rewrite ?Rrd_full by lia; cbn [bind opt_all entry app]; reflexivity
  |f_equal; s67_data|lra|qle|vm_compute; reflexivity] end end end.

(** enr2.stroud_1967_5_a(6) is exact. *)
Definition g67 : list group :=
  [(1 / 16, [([sqrt 2], 1%nat); ([0], 5%nat); ([0], 0%nat)]); (1 / 16, [([- sqrt 2], 1%nat); ([- 0], 5%nat); ([0], 0%nat)]);
   (1 / 128, [([- (1)], 2%nat); ([1], 4%nat); ([0], 0%nat)]); (1 / 128, [([- - (1)], 2%nat); ([- (1)], 4%nat); ([0], 0%nat)]);
   (1 / 128, [([1], 6%nat)]); (1 / 128, [([- (1)], 6%nat)])].
Lemma enr2_1967_6_run : enr2_stroud_1967_5_a 6 = Some (mk_scheme 6 (sym_rule g67) 5, 2.7e-14).
Proof.
  unfold enr2_stroud_1967_5_a, enr2_stroud_1967_5_a_table. cbn [map bind opt_all entry app Nat.eqb Nat.sub]. rewrite !Rrd_full by lia. cbn [bind opt_all entry app]. rewrite !repeat_combine.
  rewrite <- mk_rule_gdata. reflexivity.
Qed.
Lemma enr2_1967_6_exact : exact 6 5 (fun k => Q2R (enr2Q 6 k)) (sym_rule g67).
Proof.
  assert (S2 : sqrt 2 * sqrt 2 = 2) by (apply sqrt_sqrt; lra).
  assert (OK : forall g, In g g67 -> ok_group 6 g).
  { intros g Hg. repeat (destruct Hg as [<- | Hg]; [split; [reflexivity|intros e He; repeat (destruct He as [<- | He]; [discriminate|]); destruct He]|]). destruct Hg. }
  split; [apply sym_rule_dim; exact OK|].
  apply (reduce_canon 6 5 (fun k => apply (sym_rule g67) (mono k) = Q2R (enr2Q 6 k))).
  { intros k k' P L E. rewrite <- (sym_rule_perm 6 g67 k k' OK), <- (enr2Q_perm 6 k k') by auto. exact E. }
  intros l m Hl Hn. rewrite apply_sym_rule. unfold g67. cbn [map fst snd Rsum].
  assert (Lk : length (l ++ repeat 0%nat m) = 6%nat) by (rewrite app_length, repeat_length; auto).
  rewrite !combine_cmR by (rewrite Lk; reflexivity). clear Lk. generalize dependent (sqrt 2). intros s S2.
  assert (S4 : s * s * s * s = 4) by nra. vm_compute in Hl.
  repeat (destruct Hl as [<- | Hl]; [cbn [length] in Hn;
    first [replace m with 6%nat by lia | replace m with 5%nat by lia | replace m with 4%nat by lia | replace m with 3%nat by lia | replace m with 2%nat by lia | replace m with 1%nat by lia];
    cbn [repeat app];
    match goal with |- _ = Q2R ?r => let v := eval vm_compute in (Qred r) in rewrite <- (Q2R_red r); change (Qred r) with v end;
    cbn [cmR picks map app fst snd Rsum psum pow]; unfold psum, Q2R; cbn [map Rsum pow Qnum Qden]; lra|]). destruct Hl.
Qed.
