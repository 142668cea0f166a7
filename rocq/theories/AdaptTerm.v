(** When the adaptive integrator stops. *)
From Coq Require Import Reals List Arith Bool Lia Lra Permutation.
From Coquelicot Require Import Coquelicot.
From Verif Require Import Spec Spec1 RsumLemmas NearProofs PyBase AdaptModel AdaptProofs C1Tools QuadProofs IntegralProofs C1Proofs ConvSpec Weier ConvProofs.
Import ListNotations.
Set Bullet Behavior "Strict Subproofs".
Open Scope R_scope.

(** *** Continuous integrands and an absolute tolerance *)
Lemma dot_apply gk f iv j : dot (gk_fx gk f iv j) (map fst gk) = apply1 gk (fun x => f (to_interval iv x) j).
Proof.
  unfold dot, gk_fx, apply1. induction gk as [|[w x] q IH]; [reflexivity|]. cbn [map List.combine Rsum fst snd]. rewrite IH. ring.
Qed.
Lemma dot_map (g : R -> R) gk f iv j : dot (map g (gk_fx gk f iv j)) (map fst gk) = apply1 gk (fun x => g (f (to_interval iv x) j)).
Proof.
  unfold dot, gk_fx, apply1. induction gk as [|[w x] q IH]; [reflexivity|]. cbn [map List.combine Rsum fst snd]. rewrite IH. ring.
Qed.
Lemma to_interval_within u v x : u <= v -> -1 <= x <= 1 -> u <= to_interval (u, v) x <= v.
Proof. intros H Hx. unfold to_interval. cbn [fst snd]. nra. Qed.
Lemma I_tilde_osc gk f u v j w : List.Forall (fun wx => 0 <= fst wx) gk -> points_within gk -> apply1 gk (fun _ => 1) = 2 -> u <= v ->
  (forall x y, u <= x <= v -> u <= y <= v -> Rabs (f x j - f y j) <= w) -> I_tilde gk f (u, v) j <= (v - u) * w.
Proof.
  intros W P S H O. unfold I_tilde. rewrite dot_apply, dot_map, interval_length_abs, Rabs_right by lra.
  assert (Q : weight_sum gk = 2) by (rewrite weight_sum_pos; auto).
  set (avg := 0.5 * apply1 gk (fun x => f (to_interval (u, v) x) j)).
  assert (A : forall wx, In wx gk -> Rabs (f (to_interval (u, v) (snd wx)) j - avg) <= w).
  { intros wx Hw. set (y := f (to_interval (u, v) (snd wx)) j).
    replace (y - avg) with (0.5 * apply1 gk (fun x => y - f (to_interval (u, v) x) j)).
    - rewrite Rabs_mult, (Rabs_right 0.5) by lra. assert (B := apply1_bound gk (fun x => y - f (to_interval (u, v) x) j) w).
      rewrite Q in B. assert (Rabs (apply1 gk (fun x => y - f (to_interval (u, v) x) j)) <= 2 * w); [|lra]. apply B. intros wy Hy.
      unfold points_within in P. rewrite List.Forall_forall in P. apply O; apply to_interval_within; auto.
    - rewrite (apply1_minus gk (fun _ => y)). replace (apply1 gk (fun _ => y)) with (2 * y); [unfold avg; lra|].
      rewrite <- S. unfold apply1. rewrite (Rmult_comm _ y), <- Rsum_map_scal. apply Rsum_map_ext. intros; ring. }
  assert (B := apply1_bound gk (fun x => Rabs (f (to_interval (u, v) x) j - avg)) w). rewrite Q in B.
  assert (C : Rabs (apply1 gk (fun x => Rabs (f (to_interval (u, v) x) j - avg))) <= 2 * w) by (apply B; intros wx Hw; rewrite Rabs_Rabsolu; auto).
  assert (D := Rle_abs (apply1 gk (fun x => Rabs (f (to_interval (u, v) x) j - avg)))). nra.
Qed.

Section Loop.
Context (m : nat) (val err : interval -> nat -> R) (ea : R) (conn : connection) (a b c h : R).
Context (Hc : 0 < c) (Hh : 0 < h).
Context (small : forall iv j, (j < m)%nat -> a <= fst iv -> fst iv < snd iv -> snd iv <= b -> snd iv - fst iv <= h -> err iv j < c * (snd iv - fst iv)).
Definition okiv (k : nat) (iv : interval) : Prop := a <= fst iv /\ fst iv < snd iv /\ snd iv <= b /\ snd iv - fst iv <= h * 2 ^ k.
Definition len (iv : interval) : R := snd iv - fst iv.
Lemma len_ok k iv : okiv k iv -> interval_length iv = len iv.
Proof. intros (_ & H & _). destruct iv as [u v]. cbn in H. rewrite interval_length_abs, Rabs_right; [reflexivity|lra]. Qed.
Lemma split_ok k bad : List.Forall (okiv (S k)) bad -> List.Forall (okiv k) (split_all bad).
Proof.
  intros H. rewrite List.Forall_forall in H. unfold split_all. apply List.Forall_forall. intros iv Hi. apply in_app_or in Hi.
  destruct Hi as [Hi|Hi]; apply in_map_iff in Hi; destruct Hi as (jv & <- & Hj); destruct (H jv Hj) as (A & B & C & D); unfold okiv, midpoint_of in *; cbn [fst snd]; cbn [pow] in D; repeat split; lra.
Qed.
Lemma split_ok0 bad : List.Forall (okiv 0) bad -> List.Forall (okiv 0) (split_all bad).
Proof. intros H. apply split_ok. eapply List.Forall_impl; [|exact H]. intros iv (A & B & C & D). repeat split; auto. cbn [pow] in *. lra. Qed.
Lemma split_total bad : Rsum (map len (split_all bad)) = Rsum (map len bad).
Proof.
  unfold split_all. rewrite map_app, Rsum_app, !map_map. rewrite <- Rsum_map_plus. apply Rsum_map_ext. intros [u v] _. unfold len, midpoint_of. cbn [fst snd]. lra.
Qed.
Lemma total_len k ivs : List.Forall (okiv k) ivs -> Rsum (map interval_length ivs) = Rsum (map len ivs).
Proof. intros H. rewrite List.Forall_forall in H. apply Rsum_map_ext. intros iv Hi. apply (len_ok k). auto. Qed.
Lemma total_pos k ivs : List.Forall (okiv k) ivs -> ivs <> [] -> 0 < Rsum (map len ivs).
Proof.
  intros H N. induction H as [|iv ivs Hi H IH]; [congruence|]. cbn [map Rsum]. destruct Hi as (_ & P & _). unfold len at 1. destruct ivs as [|jv ivs]; [cbn; lra|]. specialize (IH ltac:(discriminate)). lra.
Qed.
Lemma later_abs gv ge ivs iv : Rsum (map interval_length ivs) <> 0 ->
  later_good m val err (Some ea) None conn gv ge ivs iv = true <-> forall j, (j < m)%nat -> err iv j < (ea - ge j) * (interval_length iv / Rsum (map interval_length ivs)).
Proof.
  intros T. unfold later_good. cbn [opt_list map app].
  assert (E : connect conn [all_components m (fun j => if Req_EM_T (Rsum (map interval_length ivs)) 0 then false else Rltb (err iv j) ((ea - ge j) * (interval_length iv / Rsum (map interval_length ivs))))] = true <->
    all_components m (fun j => if Req_EM_T (Rsum (map interval_length ivs)) 0 then false else Rltb (err iv j) ((ea - ge j) * (interval_length iv / Rsum (map interval_length ivs)))) = true).
  { destruct conn; cbn; [rewrite orb_false_r|rewrite andb_true_r]; reflexivity. }
  rewrite E. unfold all_components. rewrite forallb_forall. split.
  - intros H j Hj. specialize (H j ltac:(apply in_seq; lia)). cbn beta in H. destruct (Req_EM_T _ 0); [congruence|]. apply Rltb_true in H. auto.
  - intros H j Hj. apply in_seq in Hj. destruct (Req_EM_T _ 0); [congruence|]. apply Rltb_true. apply H. lia.
Qed.
Lemma loop_terminates : forall k bad ngood num gv ge, List.Forall (okiv k) bad -> (forall j, (j < m)%nat -> c * Rsum (map len bad) <= ea - ge j) ->
  exists v e, adapt_loop m val err (Some ea) None conn 0 None (S (S k)) bad ngood num gv ge = Returned v e.
Proof.
  induction k as [|k IH]; intros bad ngood num gv ge H G.
  - cbn [adapt_loop]. destruct bad as [|iv0 bad0]; [eauto|]. set (bad := iv0 :: bad0) in *. cbn [exceeds].
    replace (existsb _ (split_all bad)) with false.
    2:{ symmetry. apply not_true_iff_false. intros X. apply existsb_exists in X. destruct X as (iv & _ & X). apply Rltb_true in X. assert (Y := length_nonneg iv). lra. }
    assert (H' := split_ok0 bad H). assert (N : split_all bad <> []) by (unfold split_all, bad; discriminate).
    assert (T := total_len 0 _ H'). assert (TP := total_pos 0 _ H' N).
    replace (filter (fun iv => negb (later_good m val err (Some ea) None conn gv ge (split_all bad) iv)) (split_all bad)) with (@nil interval); [eauto|].
    symmetry. assert (Z : forall iv, In iv (split_all bad) -> later_good m val err (Some ea) None conn gv ge (split_all bad) iv = true).
    { intros iv Hi. apply later_abs; [lra|]. intros j Hj. rewrite List.Forall_forall in H'. destruct (H' iv Hi) as (A & B & C & D). cbn [pow] in D. eapply Rlt_le_trans; [apply small; auto; lra|].
      rewrite T, (len_ok 0 iv (H' iv Hi)). specialize (G j Hj). rewrite <- split_total in G. set (t := Rsum (map len (split_all bad))) in *. change (c * len iv <= (ea - ge j) * (len iv / t)).
      replace ((ea - ge j) * (len iv / t)) with ((ea - ge j) / t * len iv) by (field; lra). apply Rmult_le_compat_r; [unfold len; lra|].
      apply Rmult_le_reg_r with t; auto. replace ((ea - ge j) / t * t) with (ea - ge j) by (field; lra). auto. }
    assert (L : forall l', (forall x, In x l' -> In x (split_all bad)) -> filter (fun iv0 => negb (later_good m val err (Some ea) None conn gv ge (split_all bad) iv0)) l' = []).
    { induction l' as [|x l' I]; intros K; [reflexivity|]. cbn [filter]. rewrite Z by (apply K; left; auto). cbn. apply I. intros; apply K; right; auto. }
    apply L. auto.
  - cbn [adapt_loop]. destruct bad as [|iv0 bad0]; [eauto|]. set (bad := iv0 :: bad0) in *. cbn [exceeds].
    replace (existsb _ (split_all bad)) with false.
    2:{ symmetry. apply not_true_iff_false. intros X. apply existsb_exists in X. destruct X as (iv & _ & X). apply Rltb_true in X. assert (Y := length_nonneg iv). lra. }
    assert (H' := split_ok k bad H). assert (N : split_all bad <> []) by (unfold split_all, bad; discriminate).
    assert (T := total_len k _ H'). assert (TP := total_pos k _ H' N).
    apply (IH _ _ _ _ _).
    + apply List.Forall_forall. intros iv Hi. apply filter_In in Hi. rewrite List.Forall_forall in H'. apply H'. tauto.
    + intros j Hj. specialize (G j Hj). rewrite <- split_total in G. set (t := Rsum (map len (split_all bad))) in *.
      set (good := filter (later_good m val err (Some ea) None conn gv ge (split_all bad)) (split_all bad)). set (bad' := filter (fun iv => negb (later_good m val err (Some ea) None conn gv ge (split_all bad) iv)) (split_all bad)).
      assert (PP : Rsum (map len good) + Rsum (map len bad') = t).
      { unfold t. rewrite <- Rsum_app, <- map_app. symmetry. apply Rsum_map_perm. apply partition_perm. }
      assert (SE : sum_over err good j <= (ea - ge j) / t * Rsum (map len good)).
      { unfold sum_over. rewrite <- Rsum_map_scal. apply Rsum_le. intros iv Hi. unfold good in Hi. apply filter_In in Hi. destruct Hi as [Hi Hg]. assert (NZ : Rsum (map interval_length (split_all bad)) <> 0) by lra. apply (proj1 (later_abs gv ge (split_all bad) iv NZ)) with (j := j) in Hg; [|exact Hj].
        rewrite List.Forall_forall in H'. rewrite T, (len_ok k iv (H' iv Hi)) in Hg. fold t in Hg. replace ((ea - ge j) / t * len iv) with ((ea - ge j) * (len iv / t)) by (field; lra). lra. }
      assert (BP : 0 <= Rsum (map len bad')).
      { apply Rsum_nonneg. intros y Hy. apply in_map_iff in Hy. destruct Hy as (iv & <- & Hi). apply filter_In in Hi. rewrite List.Forall_forall in H'. destruct (H' iv (proj1 Hi)) as (_ & Q & _). unfold len. lra. }
      assert (CR : c <= (ea - ge j) / t) by (apply Rmult_le_reg_r with t; auto; replace ((ea - ge j) / t * t) with (ea - ge j) by (field; lra); auto).
      assert (EQ : ea - ge j = (ea - ge j) / t * t) by (field; lra). rewrite <- PP in EQ at 2. rewrite Rmult_plus_distr_l in EQ. assert (c * Rsum (map len bad') <= (ea - ge j) / t * Rsum (map len bad')) by (apply Rmult_le_compat_r; auto). lra.
Qed.
End Loop.

Lemma connect_one conn x : connect conn [x] = x.
Proof. destruct conn; cbn; [apply orb_false_r|apply andb_true_r]. Qed.
(** One constant modulus for finitely many components. *)
Lemma uniform_components m (f : R -> nat -> R) a b eps : a <= b -> 0 < eps -> (forall j, (j < m)%nat -> continuous_on a b (fun x => f x j)) ->
  exists h, 0 < h /\ forall j, (j < m)%nat -> forall x y, a <= x <= b -> a <= y <= b -> Rabs (x - y) < h -> Rabs (f x j - f y j) < eps.
Proof.
  intros H He. induction m as [|m IH]; intros C; [exists 1; split; [lra|intros; lia]|].
  destruct IH as (h1 & H1 & K1); [intros; apply C; lia|]. destruct (continuous_on_uniform a b _ H (C m ltac:(lia)) eps He) as (h2 & H2 & K2).
  exists (Rmin h1 h2). split; [apply Rmin_pos; auto|]. intros j Hj x y Hx Hy Hxy. assert (M1 := Rmin_l h1 h2). assert (M2 := Rmin_r h1 h2). destruct (Nat.eq_dec j m) as [-> |N]; [apply K2; auto; lra|apply K1; auto; [lia|lra]].
Qed.
Theorem adaptive_terminates gk gl m f a b ea conn : List.Forall (fun wx => 0 <= fst wx) gk -> points_within gk -> exact1 0 gk -> a <= b -> 0 < ea ->
  (forall j, (j < m)%nat -> continuous_on a b (fun x => f x j)) ->
  exists fuel v e, integrate_adaptive gk gl m f [(a, b)] (Some ea) None conn 0 None fuel = Returned v e.
Proof.
  intros W P X H He C.
  assert (SW : apply1 gk (fun _ => 1) = 2).
  { rewrite (apply1_ext' gk _ (peval [1])) by (intros; cbn; ring). rewrite X by (cbn; lia). rewrite (RInt_ext _ (fun _ => 1)) by (intros; cbn; ring). rewrite RInt_const. unfold scal. cbn. unfold mult. cbn. ring. }
  assert (W' : forall w, In w (map fst gk) -> 0 <= w). { intros w Hw. apply in_map_iff in Hw. destruct Hw as (wx & <- & Hw). rewrite List.Forall_forall in W. auto. }
  unfold integrate_adaptive, adapt_main. cbn [forallb filter map]. replace (Rleb (fst (a, b)) (snd (a, b))) with true by (symmetry; apply Rleb_true; auto). cbn [andb].
  destruct (first_good m (gl_val gk gl f) (error_estimate gk gl f) (Some ea) None conn (a, b)) eqn:E; cbn [negb filter length].
  - exists 1%nat. cbn [adapt_loop]. cbn. eauto.
  - destruct (Rle_lt_or_eq_dec a b H) as [L| ->].
    2:{ exfalso. unfold first_good in E. cbn [opt_list map app] in E. rewrite connect_one in E. apply not_true_iff_false in E. apply E. unfold all_components. apply forallb_forall. intros j Hj. apply in_seq in Hj. apply Rltb_true.
        eapply Rle_lt_trans; [apply (error_estimate_bounds gk gl f (b, b) j W')|]. eapply Rle_lt_trans; [apply (I_tilde_osc gk f b b j 0); auto|lra].
        intros x y Hx Hy. replace x with b by lra. replace y with b by lra. rewrite Rminus_diag_eq, Rabs_R0 by auto. lra. }
    destruct (uniform_components m f a b (ea / (b - a) / 2) H ltac:(assert (0 < ea / (b - a)) by (apply Rdiv_lt_0_compat; lra); lra) C) as (h & Hh & U).
    destruct (nfloor_ex ((b - a) / (h / 2))) as (n & Hn); [left; apply Rdiv_lt_0_compat; lra|].
    assert (HK : b - a <= h / 2 * 2 ^ S n).
    { assert (Q : INR (S n) <= 2 ^ S n). { clear. induction (S n) as [|k IH]; [cbn; lra|]. rewrite S_INR. cbn [pow]. assert (1 <= 2 ^ k) by (apply pow_R1_Rle; lra). lra. }
      rewrite S_INR in Q. assert ((b - a) / (h / 2) * (h / 2) = b - a) by (field; lra). nra. }
    assert (c0 : 0 < ea / (b - a)) by (apply Rdiv_lt_0_compat; lra).
    assert (small : forall iv j, (j < m)%nat -> a <= fst iv -> fst iv < snd iv -> snd iv <= b -> snd iv - fst iv <= h / 2 -> error_estimate gk gl f iv j < ea / (b - a) * (snd iv - fst iv)).
    { intros [u v] j Hj A1 A2 A3 A4. cbn [fst snd] in *. eapply Rle_lt_trans; [apply (error_estimate_bounds gk gl f (u, v) j W')|].
      eapply Rle_lt_trans; [apply (I_tilde_osc gk f u v j (ea / (b - a) / 2)); auto; [lra|]|nra].
      intros x y Hx Hy. left. apply U; auto; try lra. apply Rabs_def1; lra. }
    destruct (loop_terminates m (gl_val gk gl f) (error_estimate gk gl f) ea conn a b (ea / (b - a)) (h / 2) ltac:(lra) small (S n) [(a, b)] 0 1 (sum_over (gl_val gk gl f) []) (sum_over (error_estimate gk gl f) [])) as (v & e & R).
    + apply List.Forall_cons; [|apply List.Forall_nil]. unfold okiv. cbn [fst snd]. lra.
    + intros j Hj. unfold sum_over, len. cbn [map Rsum fst snd]. right. field. lra.
    + exists (S (S (S n))), v, e. match goal with |- match ?l with _ => _ end = _ => replace l with (Returned v e) by (symmetry; exact R) end. reflexivity.
Qed.

(** *** Both tolerances: an integrand on which the loop never ends *)
Definition gk1 : rule1 := [(5 / 9, - sqrt (3 / 5)); (8 / 9, 0); (5 / 9, sqrt (3 / 5))].
Definition gl1 : rule1 := [(2, 0)].
(** |x - 1/4| cut off at 1/4, and a spike of height A and width 2 delta at 3/4 *)
Definition spike (d x : R) : R := Rmax 0 (1 - Rabs (x - 3 / 4) / d).
Definition trap_fun (A d x : R) : R := Rmin (Rabs (x - 1 / 4)) (1 / 4) + A * spike d x.
Lemma s35 : 0.774 < sqrt (3 / 5) < 0.775 /\ sqrt (3 / 5) * sqrt (3 / 5) = 3 / 5.
Proof.
  assert (S : sqrt (3 / 5) * sqrt (3 / 5) = 3 / 5) by (apply sqrt_sqrt; lra). assert (P := sqrt_pos (3 / 5)). split; [|auto]. split; apply Rnot_le_lt; intros H; nra.
Qed.
Lemma gk1_exact : exact1 5 gk1.
Proof.
  destruct s35 as [_ S]. set (s := sqrt (3 / 5)) in *. apply exact1_of_powers. intros k Hk. unfold apply1, gk1, pow_int. fold s. cbn [map Rsum fst snd].
  destruct k as [|[|[|[|[|[|k]]]]]]; [| | | | | |lia]; cbn [Nat.even pow INR]; try nra.
Qed.
Lemma spike_off d x : 0 < d -> d <= Rabs (x - 3 / 4) -> spike d x = 0.
Proof.
  intros Hd H. unfold spike. apply Rmax_left. assert (1 <= Rabs (x - 3 / 4) / d); [|lra]. apply Rmult_le_reg_r with d; auto. replace (Rabs (x - 3 / 4) / d * d) with (Rabs (x - 3 / 4)) by (field; lra). lra.
Qed.
Lemma spike_range d x : 0 < d -> 0 <= spike d x <= 1.
Proof. intros Hd. unfold spike. split; [apply Rmax_l|]. apply Rmax_lub; [lra|]. assert (0 <= Rabs (x - 3 / 4) / d) by (apply Rmult_le_pos; [apply Rabs_pos|left; apply Rinv_0_lt_compat; auto]). lra. Qed.
Lemma spike_top d : 0 < d -> spike d (3 / 4) = 1.
Proof. intros Hd. unfold spike. replace (3 / 4 - 3 / 4) with 0 by ring. rewrite Rabs_R0. unfold Rdiv. rewrite Rmult_0_l, Rminus_0_r. apply Rmax_right. lra. Qed.
(** values of the rules *)
Lemma gl1_val A d iv j : fst iv <= snd iv -> gl_val gk1 gl1 (fun x _ => trap_fun A d x) iv j = (snd iv - fst iv) * trap_fun A d ((fst iv + snd iv) / 2).
Proof.
  intros H. destruct iv as [u v]. unfold gl_val, gl1, gk_fx, gk1. rewrite interval_length_abs, Rabs_right by (cbn in *; lra). cbn [map odd_positions fst snd]. unfold dot. cbn [List.combine map Rsum fst snd].
  unfold to_interval. cbn [fst snd]. replace (u * (0.5 * (1 - 0)) + v * (0.5 * (1 + 0))) with ((u + v) / 2) by lra. lra.
Qed.
Lemma err3 y1 y2 y3 g u v j : u <= v -> g (to_interval (u, v) (- sqrt (3 / 5))) = y1 -> g ((u + v) / 2) = y2 -> g (to_interval (u, v) (sqrt (3 / 5))) = y3 ->
  let avg := 5 / 18 * y1 + 8 / 18 * y2 + 5 / 18 * y3 in
  let I := (v - u) / 2 * (5 / 9 * Rabs (y1 - avg) + 8 / 9 * Rabs (y2 - avg) + 5 / 9 * Rabs (y3 - avg)) in
  1 / 10 ^ 15 < I -> I <= 200 * ((v - u) * Rabs (avg - y2)) -> error_estimate gk1 gl1 (fun x _ => g x) (u, v) j = I.
Proof.
  intros H E1 E2 E3 avg I HI Hv.
  assert (F : gk_fx gk1 (fun x _ => g x) (u, v) j = [y1; y2; y3]).
  { unfold gk_fx, gk1. cbn [map snd]. rewrite E1, E3. unfold to_interval at 1. cbn [fst snd]. replace (u * (0.5 * (1 - 0)) + v * (0.5 * (1 + 0))) with ((u + v) / 2) by lra. rewrite E2. reflexivity. }
  assert (TI : I_tilde gk1 (fun x _ => g x) (u, v) j = I).
  { unfold I_tilde. rewrite F, interval_length_abs, Rabs_right by lra. unfold dot, gk1. cbn [map List.combine Rsum fst snd]. replace (0.5 * (y1 * (5 / 9) + (y2 * (8 / 9) + (y3 * (5 / 9) + 0)))) with avg by (unfold avg; lra). unfold I. lra. }
  assert (VK : gk_val gk1 (fun x _ => g x) (u, v) j = (v - u) * avg).
  { unfold gk_val. rewrite F, interval_length_abs, Rabs_right by lra. unfold dot, gk1, avg. cbn [map List.combine Rsum fst snd]. lra. }
  assert (VL : gl_val gk1 gl1 (fun x _ => g x) (u, v) j = (v - u) * y2).
  { unfold gl_val. rewrite F, interval_length_abs, Rabs_right by lra. unfold dot, gl1. cbn [odd_positions map List.combine Rsum fst snd]. lra. }
  unfold error_estimate. rewrite TI, VK, VL. assert (P : 0 < 1 / 10 ^ 15) by (apply Rdiv_lt_0_compat; [lra|apply pow_lt; lra]). rewrite (Rabs_right I) by lra. rewrite (proj2 (Rltb_true _ _) HI).
  replace ((v - u) * avg - (v - u) * y2) with ((v - u) * (avg - y2)) by ring. rewrite Rabs_mult, (Rabs_right (v - u)) by lra.
  set (q := 200 * ((v - u) * Rabs (avg - y2)) / I). assert (Q : 1 <= q) by (unfold q; apply Rmult_le_reg_r with I; [lra|]; replace (200 * ((v - u) * Rabs (avg - y2)) / I * I) with (200 * ((v - u) * Rabs (avg - y2))) by (field; lra); lra).
  rewrite Rmin_left; [ring|]. assert (1 <= sqrt q) by (rewrite <- sqrt_1; apply sqrt_le_1; lra). nra.
Qed.
Section Trap.
Context (ea er : R) (Hea : 0 < ea < 1 / 100) (Her : 0 < er < 1 / 100).
Let A := 100 / er.
Let d := er / 800.
Let g := trap_fun A d.
Let f := fun (x : R) (_ : nat) => g x.
Lemma A_big : 10000 < A.
Proof. unfold A. apply Rmult_lt_reg_r with er; [lra|]. replace (100 / er * er) with 100 by (field; lra). lra. Qed.
Lemma A_er : er * A = 100. Proof. unfold A. field. lra. Qed.
Lemma A_d : A * d = 1 / 8. Proof. unfold A, d. field. lra. Qed.
Lemma d_small : 0 < d < 1 / 80000. Proof. unfold d. lra. Qed.
Lemma g_plain x : x <= 1 / 2 -> g x = Rmin (Rabs (x - 1 / 4)) (1 / 4).
Proof. intros H. unfold g, trap_fun. rewrite spike_off; [ring|apply d_small|]. assert (D := d_small). rewrite Rabs_left1 by lra. lra. Qed.
Lemma g_right x : 1 / 2 <= x -> g x = 1 / 4 + A * spike d x.
Proof. intros H. unfold g, trap_fun. rewrite Rmin_right; [reflexivity|]. rewrite Rabs_right; lra. Qed.
Lemma g_away x : 1 / 2 <= x -> 1 / 10 <= Rabs (x - 3 / 4) -> g x = 1 / 4.
Proof. intros H K. rewrite g_right by auto. assert (D := d_small). rewrite spike_off by lra. ring. Qed.
Lemma err_whole : exists I, error_estimate gk1 gl1 f (0, 1) 0 = I /\ 1 / 50 <= I.
Proof.
  destruct s35 as [S _]. set (s := sqrt (3 / 5)) in *. eexists. split.
  - unfold f. apply (err3 (s / 2 - 1 / 4) (1 / 4) (1 / 4) g 0 1 0 ltac:(lra)).
    + fold s. unfold to_interval. cbn [fst snd]. rewrite g_plain by lra. rewrite Rabs_left1, Rmin_left by lra. lra.
    + rewrite g_plain by lra. rewrite Rabs_right, Rmin_left by lra. lra.
    + fold s. unfold to_interval. cbn [fst snd]. apply g_away; [lra|]. rewrite Rabs_right; lra.
    + apply Rlt_trans with (1 / 100); [apply Rmult_lt_compat_l; [lra|]; apply Rinv_lt_contravar; [apply Rmult_lt_0_compat; [lra|apply pow_lt; lra]|]; cbn [pow]; lra|].
      rewrite (Rabs_left1 (s / 2 - 1 / 4 - _)) by lra. rewrite (Rabs_right (1 / 4 - _)) by lra. lra.
    + rewrite (Rabs_left1 (s / 2 - 1 / 4 - _)) by lra. rewrite (Rabs_right (1 / 4 - _)) by lra. rewrite (Rabs_left1 (_ - 1 / 4)) by lra. lra.
  - cbv beta. rewrite (Rabs_left1 (s / 2 - 1 / 4 - _)) by lra. rewrite (Rabs_right (1 / 4 - _)) by lra. lra.
Qed.
Lemma tiny : 1 / 10 ^ 15 < 1 / 100.
Proof. apply Rmult_lt_compat_l; [lra|]; apply Rinv_lt_contravar; [apply Rmult_lt_0_compat; [lra|apply pow_lt; lra]|]; cbn [pow]; lra. Qed.
Lemma err_left : exists I, error_estimate gk1 gl1 f (0, 1 / 2) 0 = I /\ 1 / 25 < I < 1.
Proof.
  destruct s35 as [S _]. set (s := sqrt (3 / 5)) in *. assert (T := tiny).
  assert (B : Rabs (s / 4 - (5 / 18 * (s / 4) + 8 / 18 * 0 + 5 / 18 * (s / 4))) = s / 9 /\ Rabs (0 - (5 / 18 * (s / 4) + 8 / 18 * 0 + 5 / 18 * (s / 4))) = 5 * s / 36 /\ Rabs (5 / 18 * (s / 4) + 8 / 18 * 0 + 5 / 18 * (s / 4) - 0) = 5 * s / 36).
  { split; [|split]; [rewrite Rabs_right by lra; lra|rewrite Rabs_left1 by lra; lra|rewrite Rabs_right by lra; lra]. }
  destruct B as (B1 & B2 & B3). eexists. split.
  - unfold f. apply (err3 (s / 4) 0 (s / 4) g 0 (1 / 2) 0 ltac:(lra)).
    + fold s. unfold to_interval. cbn [fst snd]. rewrite g_plain by lra. rewrite Rabs_left1, Rmin_left by lra. lra.
    + rewrite g_plain by lra. replace ((0 + 1 / 2) / 2 - 1 / 4) with 0 by lra. rewrite Rabs_R0, Rmin_left by lra. lra.
    + fold s. unfold to_interval. cbn [fst snd]. rewrite g_plain by lra. rewrite Rabs_right, Rmin_left by lra. lra.
    + rewrite B1, B2. lra.
    + rewrite B1, B2, B3. lra.
  - cbv beta. rewrite B1, B2. lra.
Qed.
Lemma err_right : error_estimate gk1 gl1 f (1 / 2, 1) 0 = 20 * A / 81.
Proof.
  destruct s35 as [S _]. set (s := sqrt (3 / 5)) in *. assert (T := tiny). assert (HA := A_big). set (a0 := A) in *.
  assert (B : Rabs (1 / 4 - (5 / 18 * (1 / 4) + 8 / 18 * (1 / 4 + a0) + 5 / 18 * (1 / 4))) = 4 / 9 * a0 /\ Rabs (1 / 4 + a0 - (5 / 18 * (1 / 4) + 8 / 18 * (1 / 4 + a0) + 5 / 18 * (1 / 4))) = 5 / 9 * a0 /\ Rabs (5 / 18 * (1 / 4) + 8 / 18 * (1 / 4 + a0) + 5 / 18 * (1 / 4) - (1 / 4 + a0)) = 5 / 9 * a0).
  { split; [|split]; [rewrite Rabs_left1 by lra; lra|rewrite Rabs_right by lra; lra|rewrite Rabs_left1 by lra; lra]. }
  destruct B as (B1 & B2 & B3). unfold f. rewrite (err3 (1 / 4) (1 / 4 + a0) (1 / 4) g (1 / 2) 1 0 ltac:(lra)).
  - rewrite B1, B2. lra.
  - fold s. unfold to_interval. cbn [fst snd]. apply g_away; [lra|]. rewrite Rabs_left1; lra.
  - rewrite g_right by lra. replace ((1 / 2 + 1) / 2) with (3 / 4) by lra. rewrite spike_top by apply d_small. unfold a0. ring.
  - fold s. unfold to_interval. cbn [fst snd]. apply g_away; [lra|]. rewrite Rabs_right; lra.
  - rewrite B1, B2. lra.
  - rewrite B1, B2, B3. lra.
Qed.
(** Sums of midpoint values over a tiling of [1/2, 1] that does not cut across 3/4. *)
Definition beside (iv : interval) : Prop := snd iv <= 3 / 4 \/ 3 / 4 <= fst iv.
Definition phi (x : R) : R := Rmax (3 / 4 - d) (Rmin x (3 / 4 + d)).
Lemma chain_tele (p : R -> R) a b l : chain a b l -> Rsum (map (fun iv => p (snd iv) - p (fst iv)) l) = p b - p a.
Proof.
  revert a. induction l as [|[u v] l IH]; intros a H; cbn in H; cbn [map Rsum fst snd]; [subst; ring|]. destruct H as (-> & Huv & H). rewrite (IH v H). ring.
Qed.
Lemma tiling_tele (p : R -> R) a b l : tiling a b l -> Rsum (map (fun iv => p (snd iv) - p (fst iv)) l) = p b - p a.
Proof. intros (l' & P & C). rewrite <- (chain_tele p a b l' C). apply Rsum_map_perm. apply Permutation_sym; auto. Qed.
Lemma spike_step iv : fst iv <= snd iv -> beside iv -> (snd iv - fst iv) * spike d ((fst iv + snd iv) / 2) <= 2 * (phi (snd iv) - phi (fst iv)).
Proof.
  destruct iv as [u v]. cbn [fst snd]. intros H B. unfold beside in B. cbn [fst snd] in B. assert (D := d_small). set (x := (u + v) / 2).
  assert (M : phi u <= phi x /\ phi x <= phi v).
  { unfold phi, x. unfold Rmax, Rmin. repeat destruct (Rle_dec _ _); lra. }
  destruct (Rle_lt_dec d (Rabs (x - 3 / 4))) as [K|K]; [rewrite spike_off by lra; lra|].
  assert (R := spike_range d x ltac:(lra)). apply Rabs_def2 in K. destruct B as [B|B].
  - assert (phi v - phi x = v - x). { unfold phi, x in *. unfold Rmax, Rmin. repeat destruct (Rle_dec _ _); lra. } unfold x in *. nra.
  - assert (phi x - phi u = x - u). { unfold phi, x in *. unfold Rmax, Rmin. repeat destruct (Rle_dec _ _); lra. } unfold x in *. nra.
Qed.
Lemma total_small l : tiling (1 / 2) 1 l -> List.Forall beside l -> 0 <= sum_over (gl_val gk1 gl1 f) l 0 <= 1.
Proof.
  intros T B. rewrite List.Forall_forall in B. assert (D := d_small). assert (HA := A_big). assert (K := fun iv Hi => tiling_le _ _ l iv T Hi).
  assert (E : sum_over (gl_val gk1 gl1 f) l 0 = Rsum (map (fun iv => (snd iv - fst iv) * (1 / 4 + A * spike d ((fst iv + snd iv) / 2))) l)).
  { unfold sum_over. apply Rsum_map_ext. intros iv Hi. destruct (K iv Hi) as (K1 & K2 & K3). unfold f, g. rewrite gl1_val by auto. f_equal. apply g_right. lra. }
  rewrite E. split.
  - apply Rsum_nonneg. intros y Hy. apply in_map_iff in Hy. destruct Hy as (iv & <- & Hi). destruct (K iv Hi) as (K1 & K2 & K3). assert (Q := spike_range d ((fst iv + snd iv) / 2) ltac:(lra)). apply Rmult_le_pos; [lra|]. assert (0 <= A * spike d ((fst iv + snd iv) / 2)) by (apply Rmult_le_pos; lra). lra.
  - apply Rle_trans with (Rsum (map (fun iv => 1 / 4 * (snd iv - fst iv) + A * 2 * (phi (snd iv) - phi (fst iv))) l)).
    + apply Rsum_le. intros iv Hi. destruct (K iv Hi) as (K1 & K2 & K3). assert (Q := spike_step iv K2 (B iv Hi)). assert (A * ((snd iv - fst iv) * spike d ((fst iv + snd iv) / 2)) <= A * (2 * (phi (snd iv) - phi (fst iv)))) by (apply Rmult_le_compat_l; lra). lra.
    + rewrite Rsum_map_plus, !Rsum_map_scal. rewrite (tiling_tele phi _ _ l T), (tiling_tele (fun x => x) _ _ l T).
      replace (phi 1) with (3 / 4 + d) by (unfold phi; rewrite Rmin_right, Rmax_right by lra; auto). replace (phi (1 / 2)) with (3 / 4 - d) by (unfold phi; rewrite Rmin_left, Rmax_left by lra; auto).
      assert (AD := A_d). lra.
Qed.
Lemma beside_split bad : (forall iv, In iv bad -> fst iv <= snd iv) -> List.Forall beside bad -> List.Forall beside (split_all bad).
Proof.
  intros L H. rewrite List.Forall_forall in H. unfold split_all. apply List.Forall_forall. intros iv Hi. apply in_app_or in Hi.
  destruct Hi as [Hi|Hi]; apply in_map_iff in Hi; destruct Hi as (jv & <- & Hj); specialize (L jv Hj); destruct (H jv Hj) as [Q|Q]; unfold beside, midpoint_of in *; cbn [fst snd]; lra.
Qed.
Lemma gk1_pos : forall w, In w (map fst gk1) -> 0 <= w.
Proof. intros w [<-|[<-|[<-|[]]]]; cbn; lra. Qed.
Lemma stuck mx gv ge : (match mx with Some x => (2 <= x)%nat | None => True end) -> gv 0%nat = 0 -> 1 / 25 < ge 0%nat ->
  forall fuel bad num ngood, bad <> [] -> tiling (1 / 2) 1 bad -> List.Forall beside (split_all bad) -> (num + ngood = 2)%nat ->
  forall gv' ge', gv' 0%nat = gv 0%nat -> ge' 0%nat = ge 0%nat ->
  adapt_loop 1 (gl_val gk1 gl1 f) (error_estimate gk1 gl1 f) (Some ea) (Some er) Any 0 mx fuel bad ngood num gv' ge' = StillRunning.
Proof.
  intros Hmx GV GE. induction fuel as [|fuel IH]; intros bad num ngood NE T B EN gv' ge' EV EE; [reflexivity|].
  cbn [adapt_loop]. destruct bad as [|iv0 bad0]; [congruence|]. set (bad := iv0 :: bad0) in *. rewrite EN.
  replace (exceeds mx 2) with false by (symmetry; unfold exceeds; destruct mx; [apply Nat.ltb_ge; auto|reflexivity]).
  replace (existsb _ (split_all bad)) with false.
  2:{ symmetry. apply not_true_iff_false. intros X. apply existsb_exists in X. destruct X as (iv & _ & X). apply Rltb_true in X. assert (Y := length_nonneg iv). lra. }
  assert (T' : tiling (1 / 2) 1 (split_all bad)) by (apply (tiling_split_all _ _ bad []); auto).
  assert (B' : List.Forall beside (split_all (split_all bad))) by (apply beside_split; auto; intros iv Hi; apply (tiling_le _ _ _ _ T' Hi)).
  assert (S := total_small _ T' B).
  assert (Z : forall iv, In iv (split_all bad) -> later_good 1 (gl_val gk1 gl1 f) (error_estimate gk1 gl1 f) (Some ea) (Some er) Any gv' ge' (split_all bad) iv = false).
  { intros iv Hi. unfold later_good, all_components. cbn [opt_list map app connect existsb seq forallb]. assert (E0 := proj1 (error_estimate_bounds gk1 gl1 f iv 0 gk1_pos)).
    destruct (Req_EM_T (Rsum (map interval_length (split_all bad))) 0) as [_|N]; [reflexivity|].
    assert (TN : 0 <= Rsum (map interval_length (split_all bad))) by (apply Rsum_nonneg; intros y Hy; apply in_map_iff in Hy; destruct Hy as (jv & <- & _); apply length_nonneg).
    assert (Q : 0 <= interval_length iv / Rsum (map interval_length (split_all bad))) by (apply Rmult_le_pos; [apply length_nonneg|left; apply Rinv_0_lt_compat; lra]).
    rewrite (proj2 (Rltb_false (error_estimate gk1 gl1 f iv 0) ((ea - ge' 0%nat) * _))).
    - rewrite (proj2 (Rltb_false (error_estimate gk1 gl1 f iv 0) _)); [reflexivity|]. rewrite EV, GV, EE, Rplus_0_l, Rabs_right by lra. set (sm := sum_over (gl_val gk1 gl1 f) (split_all bad) 0) in *. assert (er * sm - ge 0%nat <= 0) by nra. nra.
    - rewrite EE. nra. }
  assert (L : forall l', (forall x, In x l' -> In x (split_all bad)) ->
    filter (later_good 1 (gl_val gk1 gl1 f) (error_estimate gk1 gl1 f) (Some ea) (Some er) Any gv' ge' (split_all bad)) l' = [] /\
    filter (fun iv => negb (later_good 1 (gl_val gk1 gl1 f) (error_estimate gk1 gl1 f) (Some ea) (Some er) Any gv' ge' (split_all bad) iv)) l' = l').
  { induction l' as [|x l' I]; intros K; [split; reflexivity|]. cbn [filter]. rewrite Z by (apply K; left; auto). cbn [negb]. destruct I as [I1 I2]; [intros; apply K; right; auto|]. rewrite I1, I2. split; reflexivity. }
  destruct (L (split_all bad) (fun x H => H)) as [L1 L2]. rewrite L1, L2. cbn [length].
  apply IH; auto; [unfold split_all, bad; discriminate| |]; unfold sum_over; cbn [map Rsum]; lra.
Qed.
Theorem trap mx fuel : (match mx with Some x => (2 <= x)%nat | None => True end) ->
  integrate_adaptive gk1 gl1 1 f [(0, 1)] (Some ea) (Some er) Any 0 mx fuel = StillRunning.
Proof.
  intros Hmx. destruct err_whole as (I0 & E0 & B0). destruct err_left as (I1 & E1 & B1). assert (E2 := err_right). assert (HA := A_big). assert (AE := A_er). assert (D := d_small).
  assert (V0 : gl_val gk1 gl1 f (0, 1) 0 = 1 / 4). { unfold f, g. rewrite gl1_val by (cbn; lra). cbn [fst snd]. fold g. rewrite g_plain by lra. rewrite Rabs_right, Rmin_left by lra. lra. }
  assert (V1 : gl_val gk1 gl1 f (0, 1 / 2) 0 = 0). { unfold f, g. rewrite gl1_val by (cbn; lra). cbn [fst snd]. fold g. rewrite g_plain by lra. replace ((0 + 1 / 2) / 2 - 1 / 4) with 0 by lra. rewrite Rabs_R0, Rmin_left by lra. lra. }
  assert (V2 : gl_val gk1 gl1 f (1 / 2, 1) 0 = (1 / 4 + A) / 2). { unfold f, g. rewrite gl1_val by (cbn; lra). cbn [fst snd]. fold g. rewrite g_right by lra. replace ((1 / 2 + 1) / 2) with (3 / 4) by lra. rewrite spike_top by lra. lra. }
  unfold integrate_adaptive, adapt_main. cbn [forallb]. rewrite (proj2 (Rleb_true (fst (0, 1)) (snd (0, 1)))) by (cbn; lra). cbn [andb filter].
  assert (FG : first_good 1 (gl_val gk1 gl1 f) (error_estimate gk1 gl1 f) (Some ea) (Some er) Any (0, 1) = false).
  { unfold first_good, all_components. cbn [opt_list map app connect existsb seq forallb]. rewrite E0, V0, Rabs_right by lra. rewrite !(proj2 (Rltb_false _ _)); [reflexivity|nra|lra]. }
  rewrite FG. cbn [negb length].
  destruct fuel as [|fuel]; [reflexivity|]. cbn [adapt_loop].
  replace (exceeds mx (1 + 0)) with false by (symmetry; unfold exceeds; destruct mx; [apply Nat.ltb_ge; lia|reflexivity]).
  assert (SP : split_all [(0, 1)] = [(0, 1 / 2); (1 / 2, 1)]) by (unfold split_all, midpoint_of; cbn [map app fst snd]; replace (0.5 * (0 + 1)) with (1 / 2) by lra; reflexivity).
  match goal with |- context [split_all ?l] => replace (split_all l) with ([(0, 1 / 2); (1 / 2, 1)] : list (R * R)) by (symmetry; exact SP) end. change (list interval) with (list (R * R)). match goal with |- context [existsb ?p ?l] => replace (existsb p l) with false end.
  2:{ symmetry. apply not_true_iff_false. intros X. apply existsb_exists in X. destruct X as (iv & _ & X). apply Rltb_true in X. assert (Y := length_nonneg iv). lra. }
  assert (L1 : interval_length (0, 1 / 2) = 1 / 2) by (rewrite interval_length_abs, Rabs_right by lra; lra).
  assert (L2 : interval_length (1 / 2, 1) = 1 / 2) by (rewrite interval_length_abs, Rabs_right by lra; lra).
  set (gv0 := sum_over (gl_val gk1 gl1 f) []). set (ge0 := sum_over (error_estimate gk1 gl1 f) []).
  assert (LG1 : later_good 1 (gl_val gk1 gl1 f) (error_estimate gk1 gl1 f) (Some ea) (Some er) Any gv0 ge0 [(0, 1 / 2); (1 / 2, 1)] (0, 1 / 2) = true).
  { unfold later_good, all_components. cbn [opt_list map app connect existsb seq forallb Rsum]. rewrite L1, L2. destruct (Req_EM_T (1 / 2 + (1 / 2 + 0)) 0) as [X|_]; [lra|]. unfold gv0, ge0, sum_over. cbn [map Rsum]. rewrite V1, V2, E1.
    rewrite (proj2 (Rltb_true I1 ((er * _ - 0) * _))); [cbn; apply orb_true_r|]. rewrite Rabs_right by lra. nra. }
  assert (LG2 : later_good 1 (gl_val gk1 gl1 f) (error_estimate gk1 gl1 f) (Some ea) (Some er) Any gv0 ge0 [(0, 1 / 2); (1 / 2, 1)] (1 / 2, 1) = false).
  { unfold later_good, all_components. cbn [opt_list map app connect existsb seq forallb Rsum]. rewrite L1, L2. destruct (Req_EM_T (1 / 2 + (1 / 2 + 0)) 0) as [X|_]; [lra|]. unfold gv0, ge0, sum_over. cbn [map Rsum]. rewrite V1, V2, E2.
    rewrite (proj2 (Rltb_false _ ((ea - 0) * _))); [|nra]. rewrite (proj2 (Rltb_false _ ((er * _ - 0) * _))); [reflexivity|]. rewrite Rabs_right by lra. nra. }
  cbn [filter]. rewrite LG1, LG2. cbn [negb length].
  rewrite (stuck mx gv0 (fun _ => I1)); auto; try (unfold gv0; reflexivity); try lra.
  - discriminate.
  - exists [(1 / 2, 1)]. split; [apply Permutation_refl|]. cbn. lra.
  - unfold split_all, midpoint_of. cbn [map app fst snd]. repeat constructor; unfold beside; cbn [fst snd]; lra.
  - unfold gv0, sum_over. cbn [map Rsum]. rewrite V1. lra.
  - unfold ge0, sum_over. cbn [map Rsum]. rewrite E1. lra.
Qed.
End Trap.
