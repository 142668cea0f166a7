(** Tools for rules given by decimal numbers: moments in fixed-point arithmetic, and the effect of perturbed weights. *)
From Coq Require Import Reals List Arith ZArith Bool Lia Lra QArith Qreals.
From Coquelicot Require Import Coquelicot.
From Verif Require Import Spec Spec1 RsumLemmas CombModel AdaptModel PyBase C1Tools Interp Tower IntegralProofs IntegralPoly GwProofs GwBound NearSpec PattersonModel PattersonProofs.
Import ListNotations.
Set Bullet Behavior "Strict Subproofs".
Open Scope R_scope.

Definition norm1 (c : list R) : R := Rsum (map Rabs c).
Lemma norm1_nonneg c : 0 <= norm1 c.
Proof. apply Rsum_nonneg. intros x H. apply in_map_iff in H. destruct H as [y [<- _]]. apply Rabs_pos. Qed.
Lemma norm1_padd c : forall d, norm1 (padd c d) <= norm1 c + norm1 d.
Proof.
  unfold norm1. induction c as [|a c IH]; intros [|b d]; cbn [padd map Rsum]; try lra.
  specialize (IH d). assert (H := Rabs_triang a b). lra.
Qed.
Lemma norm1_scal u c : norm1 (map (Rmult u) c) = Rabs u * norm1 c.
Proof. unfold norm1. rewrite map_map, <- Rsum_map_scal. apply Rsum_map_ext. intros x _. apply Rabs_mult. Qed.
Lemma norm1_lin u v c : norm1 (pmul_lin u v c) <= (Rabs u + Rabs v) * norm1 c.
Proof.
  unfold pmul_lin. eapply Rle_trans; [apply norm1_padd|]. rewrite norm1_scal. replace (norm1 (0 :: map (Rmult v) c)) with (Rabs v * norm1 c); [lra|].
  rewrite <- norm1_scal. unfold norm1. cbn [map Rsum]. rewrite Rabs_R0. ring.
Qed.
Lemma Rsum_abs {A} (f : A -> R) l : Rabs (Rsum (map f l)) <= Rsum (map (fun a => Rabs (f a)) l).
Proof. induction l as [|a l IH]; cbn [map Rsum]; [rewrite Rabs_R0; lra|]. eapply Rle_trans; [apply Rabs_triang|]. lra. Qed.
Lemma Rsum_le {A} (f g : A -> R) l : (forall a, In a l -> f a <= g a) -> Rsum (map f l) <= Rsum (map g l).
Proof. induction l as [|a l IH]; intros H; cbn [map Rsum]; [lra|]. assert (A1 := H a (or_introl eq_refl)). assert (A2 := IH (fun b Hb => H b (or_intror Hb))). lra. Qed.

Theorem near1_of_powers d tol q : (forall k, (k <= d)%nat -> Rabs (apply1 q (fun x => x ^ k) - pow_int k) <= tol) -> near1 d tol q.
Proof.
  intros H c Hc. rewrite (apply1_ext' q _ _ (peval_nth c)).
  rewrite (apply1_sum q (fun i x => nth i c 0 * x ^ i)).
  rewrite (is_RInt_unique _ _ _ _ (is_RInt_peval c (-1) 1)), <- Rsum_map_minus. eapply Rle_trans; [apply Rsum_abs|].
  replace (tol * Rsum (map Rabs c)) with (Rsum (map (fun i => tol * Rabs (nth i c 0)) (seq 0 (length c)))).
  - apply Rsum_le. intros i Hi. apply in_seq in Hi. rewrite apply1_scal.
    replace ((1 ^ S i - (-1) ^ S i) / INR (S i)) with (pow_int i).
    + replace (nth i c 0 * apply1 q (fun x => x ^ i) - nth i c 0 * pow_int i) with (nth i c 0 * (apply1 q (fun x => x ^ i) - pow_int i)) by ring.
      rewrite Rabs_mult, Rmult_comm. apply Rmult_le_compat_r; [apply Rabs_pos|]. apply H. lia.
    + assert (A := is_RInt_unique _ _ _ _ (is_RInt_pow i (-1) 1)). assert (B := is_RInt_unique _ _ _ _ (is_RInt_pow_11 i)). rewrite <- A. symmetry. exact B.
  - rewrite Rsum_map_scal. f_equal. rewrite <- (map_map (fun i => nth i c 0) Rabs). f_equal. f_equal. clear. induction c as [|a c IH]; [auto|]. cbn [length seq map nth]. f_equal. rewrite <- seq_shift, map_map. exact IH.
Qed.
Lemma near1_powers d tol q k : near1 d tol q -> (k <= d)%nat -> Rabs (apply1 q (fun x => x ^ k) - pow_int k) <= tol.
Proof.
  intros H Hk. assert (A := H (xpow k) ltac:(rewrite xpow_length; lia)). rewrite (apply1_ext' q _ _ (peval_xpow k)) in A.
  rewrite (RInt_ext _ _ _ _ (fun x _ => peval_xpow k x)), RInt_xpow in A. replace (Rsum (map Rabs (xpow k))) with 1 in A; [lra|].
  clear. induction k as [|k IH]; cbn; [rewrite Rabs_R1; ring|]. fold (xpow k). rewrite <- IH, Rabs_R0. ring.
Qed.
Lemma near1_le d d' tol tol' q : (d' <= d)%nat -> tol <= tol' -> near1 d tol q -> near1 d' tol' q.
Proof.
  intros Hd Ht H c Hc. eapply Rle_trans; [apply H; lia|]. apply Rmult_le_compat_r; auto. apply norm1_nonneg.
Qed.
Lemma exact1_near1 d q : exact1 d q -> near1 d 0 q.
Proof. intros H c Hc. rewrite H by auto. replace (_ - _) with 0 by ring. rewrite Rabs_R0. lra. Qed.

(* ------------------------------------------------------------------ perturbed weights *)
Definition lag_coef (pts : list R) (i : nat) (l : list nat) : list R :=
  fold_right (fun j c => pmul_lin (- nth j pts 0 / (nth i pts 0 - nth j pts 0)) (/ (nth i pts 0 - nth j pts 0)) c) [1] l.
Lemma lag_coef_eval pts i l x : peval (lag_coef pts i l) x = fold_right Rmult 1 (map (fun j => (x - nth j pts 0) / (nth i pts 0 - nth j pts 0)) l).
Proof. induction l as [|j l IH]; [cbn; ring|]. cbn [lag_coef fold_right map]. fold (lag_coef pts i l). rewrite peval_pmul_lin, IH. f_equal. unfold Rdiv. ring. Qed.
Lemma lag_coef_length pts i l : (length (lag_coef pts i l) <= S (length l))%nat.
Proof. induction l as [|j l IH]; [cbn; lia|]. cbn [lag_coef fold_right length]. fold (lag_coef pts i l). eapply Nat.le_trans; [apply pmul_lin_length|]. lia. Qed.
Definition lag_bound (pts : list R) (i : nat) (l : list nat) : R :=
  fold_right Rmult 1 (map (fun j => (1 + Rabs (nth j pts 0)) / Rabs (nth i pts 0 - nth j pts 0)) l).
Lemma lag_coef_norm pts i l : (forall j, In j l -> nth i pts 0 - nth j pts 0 <> 0) -> norm1 (lag_coef pts i l) <= lag_bound pts i l.
Proof.
  induction l as [|j l IH]; intros H; [unfold norm1; cbn; rewrite Rabs_R1; lra|]. cbn [lag_coef lag_bound fold_right map]. fold (lag_coef pts i l). fold (lag_bound pts i l).
  eapply Rle_trans; [apply norm1_lin|]. assert (N := H j (or_introl eq_refl)). specialize (IH (fun k Hk => H k (or_intror Hk))).
  unfold Rdiv at 1. rewrite Rabs_mult, Rabs_Ropp, Rabs_inv. replace (Rabs (nth j pts 0) * / Rabs (nth i pts 0 - nth j pts 0) + / Rabs (nth i pts 0 - nth j pts 0)) with ((1 + Rabs (nth j pts 0)) / Rabs (nth i pts 0 - nth j pts 0)) by (unfold Rdiv; ring).
  apply Rmult_le_compat_l; auto. apply Rlt_le, Rdiv_lt_0_compat; [assert (A := Rabs_pos (nth j pts 0)); lra|apply Rabs_pos_lt; auto].
Qed.
Lemma apply1_nth u pts f : length u = length pts -> apply1 (List.combine u pts) f = Rsum (map (fun i => nth i u 0 * f (nth i pts 0)) (seq 0 (length pts))).
Proof. intros Lu. rewrite (combine_nth_seq u pts 0 0) by auto. rewrite Lu. unfold apply1. rewrite map_map. auto. Qed.
Lemma weights_close pts w v delta L : NoDup pts -> length w = length pts -> length v = length pts ->
  exact1 (length pts - 1) (List.combine w pts) -> near1 (length pts - 1) delta (List.combine v pts) -> 0 <= delta ->
  (forall i, (i < length pts)%nat -> lag_bound pts i (gp_others (length pts) i) <= L) ->
  forall i, (i < length pts)%nat -> Rabs (nth i v 0 - nth i w 0) <= delta * L.
Proof.
  intros Hd Lw Lv He Hn Hdel HL.
  assert (W : forall u i, length u = length pts -> (i < length pts)%nat -> apply1 (List.combine u pts) (gp_lagrange pts i) = nth i u 0).
  { intros u i Lu Hi. rewrite apply1_nth by auto. rewrite (Rsum_single _ (fun _ => true) _ i); [|apply in_seq; lia|apply seq_NoDup|].
    - rewrite lagrange_at by auto. rewrite Nat.eqb_refl. ring.
    - intros m Hm N. apply in_seq in Hm. rewrite lagrange_at by (auto; lia). destruct (Nat.eqb_spec m i); [congruence|]. ring. }
  intros i Hi. set (c := lag_coef pts i (gp_others (length pts) i)). assert (Ec : forall x, gp_lagrange pts i x = peval c x) by (intros x; symmetry; apply lag_coef_eval).
  assert (Lc : (length c <= S (length pts - 1))%nat) by (assert (A := lag_coef_length pts i (gp_others (length pts) i)); assert (B := others_length (length pts) i Hi); fold c in A; lia).
  rewrite <- (W v i), <- (W w i) by auto. rewrite !(apply1_ext' _ _ _ Ec), (He c Lc). eapply Rle_trans; [apply Hn; auto|]. apply Rmult_le_compat_l; auto.
  eapply Rle_trans; [|apply HL; eauto]. apply lag_coef_norm. intros j Hj. apply others_in in Hj. apply nodup_nth_neq; auto; lia.
Qed.
Theorem near1_transfer pts w v D eps delta L : NoDup pts -> length w = length pts -> length v = length pts -> (forall x, In x pts -> Rabs x <= 1) ->
  exact1 (length pts - 1) (List.combine w pts) -> near1 (length pts - 1) delta (List.combine v pts) -> near1 D eps (List.combine v pts) -> 0 <= delta ->
  (forall i, (i < length pts)%nat -> lag_bound pts i (gp_others (length pts) i) <= L) ->
  near1 D (eps + INR (length pts) * (delta * L)) (List.combine w pts).
Proof.
  intros Hd Lw Lv H1 He Hn HD Hdel HL.
  assert (Dw := weights_close pts w v delta L Hd Lw Lv He Hn Hdel HL).
  apply near1_of_powers. intros k Hk. assert (E1 := near1_powers _ _ _ _ HD Hk).
  replace (apply1 (List.combine w pts) (fun x => x ^ k) - pow_int k) with ((apply1 (List.combine v pts) (fun x => x ^ k) - pow_int k) + (apply1 (List.combine w pts) (fun x => x ^ k) - apply1 (List.combine v pts) (fun x => x ^ k))) by ring.
  eapply Rle_trans; [apply Rabs_triang|]. apply Rplus_le_compat; auto. rewrite !apply1_nth by auto. rewrite <- Rsum_map_minus. eapply Rle_trans; [apply Rsum_abs|].
  replace (INR (length pts) * (delta * L)) with (Rsum (map (fun _ : nat => delta * L) (seq 0 (length pts)))) by (rewrite Rsum_map_const, seq_length; auto).
  apply Rsum_le. intros i Hi. apply in_seq in Hi. replace (nth i w 0 * nth i pts 0 ^ k - nth i v 0 * nth i pts 0 ^ k) with ((nth i w 0 - nth i v 0) * nth i pts 0 ^ k) by ring.
  rewrite Rabs_mult, Rabs_minus_sym. replace (delta * L) with (delta * L * 1) by ring. apply Rmult_le_compat; try apply Rabs_pos; [apply Dw; lia|].
  rewrite <- RPow_abs. replace 1 with (1 ^ k) by apply pow1. apply pow_incr. split; [apply Rabs_pos|]. apply H1. apply nth_In. lia.
Qed.

(* ------------------------------------------------------------------ moments in fixed-point arithmetic *)
(** floor (2^p q) *)
Definition fxd (p : Z) (q : Q) : Z := (Qnum q * 2 ^ p / Zpos (Qden q))%Z.
Definition fx_mul (p a b : Z) : Z := Z.shiftr (a * b) p.
(** The running terms w y^j of all nodes, rounded down. *)
Definition fx_step (p : Z) (ts : list (Z * Z)) : list (Z * Z) := map (fun ty => (fx_mul p (fst ty) (snd ty), snd ty)) ts.
Definition zsum (l : list Z) : Z := fold_right Z.add 0%Z l.
(** 2^p a/b - 2^p/T <= lo and lo + r <= 2^p a/b + 2^p/T *)
Definition fx_close (p T a b lo r : Z) : bool :=
  ((2 ^ p * (a * T - b) <=? lo * (b * T)) && ((lo + r) * (b * T) <=? 2 ^ p * (a * T + b)))%Z.
(** For j = j0 .. j0 + m - 1: the sum of the terms w y^j is 1/(2j+1) up to 1/T. *)
Fixpoint fx_check (p T n : Z) (m : nat) (j : Z) (ts : list (Z * Z)) : bool :=
  match m with
  | O => true
  | S m' => (fx_close p T 1 (2 * j + 1) (zsum (map fst ts)) (n * (2 * j + 1)) && fx_check p T n m' (j + 1) (fx_step p ts))%bool
  end.
Definition fx_start (p : Z) (h : list (Q * Q)) : list (Z * Z) := map (fun wy => (fxd p (fst wy), fxd p (snd wy))) h.

Definition near_term (p : Z) (w y : R) (j : nat) (ty : Z * Z) : Prop :=
  0 <= IZR (fst ty) <= IZR (2 ^ p) * (w * y ^ j) /\ IZR (2 ^ p) * (w * y ^ j) <= IZR (fst ty) + (2 * INR j + 1) /\
  0 <= IZR (snd ty) <= IZR (2 ^ p) * y /\ IZR (2 ^ p) * y <= IZR (snd ty) + 1.
Lemma pow2_pos p : (0 <= p)%Z -> 0 < IZR (2 ^ p).
Proof. intros H. apply IZR_lt. apply Z.pow_pos_nonneg; lia. Qed.
Lemma fxd_bounds p q : (0 <= p)%Z -> IZR (fxd p q) <= IZR (2 ^ p) * Q2R q <= IZR (fxd p q) + 1.
Proof.
  intros Hp. unfold fxd. assert (D : (0 < Zpos (Qden q))%Z) by lia. assert (E := Z.div_mod (Qnum q * 2 ^ p) (Zpos (Qden q)) ltac:(lia)).
  assert (M := Z.mod_pos_bound (Qnum q * 2 ^ p) (Zpos (Qden q)) D). set (v := (Qnum q * 2 ^ p / Zpos (Qden q))%Z) in *.
  assert (DR : 0 < IZR (Zpos (Qden q))) by (apply IZR_lt; auto). assert (ER : IZR (2 ^ p) * Q2R q * IZR (Zpos (Qden q)) = IZR (Qnum q * 2 ^ p)).
  { unfold Q2R. rewrite mult_IZR. field. lra. }
  split; apply (Rmult_le_reg_r (IZR (Zpos (Qden q)))); auto; rewrite ER.
  - rewrite <- mult_IZR. apply IZR_le. lia.
  - rewrite <- (plus_IZR v 1), <- mult_IZR. apply IZR_le. lia.
Qed.
Lemma fx_mul_bounds p a b : (0 <= p)%Z -> IZR (fx_mul p a b) * IZR (2 ^ p) <= IZR a * IZR b <= (IZR (fx_mul p a b) + 1) * IZR (2 ^ p).
Proof.
  intros Hp. unfold fx_mul. rewrite Z.shiftr_div_pow2 by auto. assert (D : (0 < 2 ^ p)%Z) by (apply Z.pow_pos_nonneg; lia).
  assert (E := Z.div_mod (a * b) (2 ^ p) ltac:(lia)). assert (M := Z.mod_pos_bound (a * b) (2 ^ p) D). set (v := (a * b / 2 ^ p)%Z) in *.
  rewrite <- (plus_IZR v 1), <- !mult_IZR. split; apply IZR_le; lia.
Qed.
Lemma fx_mul_nonneg p a b : (0 <= p)%Z -> (0 <= a)%Z -> (0 <= b)%Z -> (0 <= fx_mul p a b)%Z.
Proof. intros Hp Ha Hb. unfold fx_mul. apply Z.shiftr_nonneg. lia. Qed.
Lemma near_term_step p w y j ty : (0 <= p)%Z -> 0 <= w <= 1 -> 0 <= y <= 1 -> near_term p w y j ty -> near_term p w y (S j) (fx_mul p (fst ty) (snd ty), snd ty).
Proof.
  intros Hp Hw Hy [[T0 T1] [T2 [[Y0 Y1] Y2]]]. assert (PS := pow2_pos p Hp). unfold near_term. cbn [fst snd]. set (S' := IZR (2 ^ p)) in *.
  assert (B := fx_mul_bounds p (fst ty) (snd ty) Hp). fold S' in B. set (t' := IZR (fx_mul p (fst ty) (snd ty))) in *. set (t := IZR (fst ty)) in *. set (u := IZR (snd ty)) in *.
  assert (Yj : 0 <= y ^ j <= 1) by (split; [apply pow_le; lra|rewrite <- (pow1 j); apply pow_incr; lra]). set (Z := y ^ j) in *. change (y ^ S j) with (y * Z).
  assert (WZ : 0 <= w * Z <= 1) by nra.
  split; [split|split; [|split; [split|]]]; auto.
  - apply IZR_le. apply fx_mul_nonneg; auto; apply le_IZR; auto.
  - apply (Rmult_le_reg_r S'); auto. apply (Rle_trans _ (t * u)); [lra|]. apply (Rle_trans _ ((S' * (w * Z)) * (S' * y))); [apply Rmult_le_compat; auto|right; ring].
  - rewrite S_INR. apply (Rmult_le_reg_r S'); auto.
    (* S w Z y S <= (t + 2j+1) y S <= t (u + 1) + (2j+1) S <= (t'+1) S + S + (2j+1) S *)
    apply (Rle_trans _ ((t + (2 * INR j + 1)) * (S' * y))).
    { replace (S' * (w * (y * Z)) * S') with ((S' * (w * Z)) * (S' * y)) by ring. apply Rmult_le_compat_r; [nra|auto]. }
    assert (J := pos_INR j). assert (t <= S') by nra. assert (S' * y <= S') by nra.
    apply (Rle_trans _ (t * (u + 1) + (2 * INR j + 1) * S')); [|nra]. rewrite Rmult_plus_distr_r. apply Rplus_le_compat; apply Rmult_le_compat_l; lra.
Qed.
Definition in01 (q : Q) : bool := (Qle_bool 0 q && Qle_bool q 1)%bool.
Lemma in01_ok q : in01 q = true -> 0 <= Q2R q <= 1.
Proof.
  unfold in01. intros H. apply andb_true_iff in H. destruct H as [A B]. apply Qle_bool_iff, Qle_Rle in A, B. rewrite Q2R_0 in A. rewrite Q2R_1 in B. auto.
Qed.
Lemma near_start p w y : (0 <= p)%Z -> in01 w = true -> in01 y = true -> near_term p (Q2R w) (Q2R y) 0 (fxd p w, fxd p y).
Proof.
  intros Hp Hw Hy. assert (A := fxd_bounds p w Hp). assert (B := fxd_bounds p y Hp). unfold near_term. cbn [fst snd pow INR]. rewrite Rmult_1_r.
  assert (N : forall q, in01 q = true -> 0 <= IZR (fxd p q)).
  { intros q Hq. apply IZR_le. unfold fxd. apply Z.div_pos; [|lia]. apply in01_ok in Hq. destruct Hq as [Hq _]. rewrite <- Q2R_0 in Hq. apply Rle_Qle in Hq. unfold Qle in Hq. cbn in Hq. assert (0 < 2 ^ p)%Z by (apply Z.pow_pos_nonneg; lia). nia. }
  specialize (N w Hw) as Nw. specialize (N y Hy) as Ny. repeat split; lra.
Qed.
Definition good_terms (p : Z) (j : nat) (h : list (Q * Q)) (ts : list (Z * Z)) : Prop :=
  Forall2 (fun wy ty => 0 <= Q2R (fst wy) <= 1 /\ 0 <= Q2R (snd wy) <= 1 /\ near_term p (Q2R (fst wy)) (Q2R (snd wy)) j ty) h ts.
Lemma good_step p j h ts : (0 <= p)%Z -> good_terms p j h ts -> good_terms p (S j) h (fx_step p ts).
Proof. intros Hp. unfold good_terms, fx_step. induction 1 as [|wy ty h ts [A [B C]] H IH]; cbn [map]; constructor; auto. split; [auto|]. split; [auto|]. apply near_term_step; auto. Qed.
Lemma good_start p h : (0 <= p)%Z -> forallb (fun wy => (in01 (fst wy) && in01 (snd wy))%bool) h = true -> good_terms p 0 h (fx_start p h).
Proof.
  intros Hp. unfold good_terms, fx_start. induction h as [|wy h IH]; cbn [map forallb]; intros H; constructor.
  - apply andb_true_iff in H. destruct H as [H _]. apply andb_true_iff in H. destruct H as [A B]. split; [apply in01_ok; auto|]. split; [apply in01_ok; auto|]. apply near_start; auto.
  - apply IH. apply andb_true_iff in H. tauto.
Qed.
Lemma good_sum p j h ts : good_terms p j h ts -> let v := IZR (2 ^ p) * Rsum (map (fun wy => Q2R (fst wy) * Q2R (snd wy) ^ j) h) in
  IZR (zsum (map fst ts)) <= v <= IZR (zsum (map fst ts)) + INR (length h) * (2 * INR j + 1).
Proof.
  unfold good_terms. induction 1 as [|wy ty h ts [_ [_ C]] H IH]; [cbn; split; lra|]. cbv zeta in *. cbn [map Rsum zsum fold_right]. fold (zsum (map fst ts)). rewrite plus_IZR.
  cbn [length]. rewrite S_INR. destruct C as [[_ C1] [C2 _]]. rewrite Rmult_plus_distr_l. split; lra.
Qed.
Lemma fx_close_ok p T a b lo r v : (0 <= p)%Z -> (0 < T)%Z -> (0 < b)%Z -> fx_close p T a b lo r = true -> IZR lo <= IZR (2 ^ p) * v <= IZR lo + IZR r -> Rabs (v - IZR a / IZR b) <= / IZR T.
Proof.
  intros Hp HT Hb H [B1 B2]. unfold fx_close in H. apply andb_true_iff in H. destruct H as [H1 H2]. apply Z.leb_le, IZR_le in H1, H2.
  rewrite !mult_IZR, minus_IZR, mult_IZR in H1. rewrite !mult_IZR, !plus_IZR, mult_IZR in H2. assert (PS := pow2_pos p Hp).
  apply IZR_lt in HT, Hb. set (S' := IZR (2 ^ p)) in *. set (T' := IZR T) in *. set (b' := IZR b) in *. set (a' := IZR a) in *.
  assert (PT : 0 < b' * T') by (apply Rmult_lt_0_compat; auto). assert (PP : 0 < S' * (b' * T')) by (apply Rmult_lt_0_compat; auto).
  assert (L1 : S' * (a' * T' - b') <= S' * v * (b' * T')) by (eapply Rle_trans; [exact H1|apply Rmult_le_compat_r; lra]).
  assert (L2 : S' * v * (b' * T') <= S' * (a' * T' + b')) by (eapply Rle_trans; [|exact H2]; apply Rmult_le_compat_r; lra).
  apply Rabs_le. split.
  - apply (Rmult_le_reg_l (S' * (b' * T'))); auto. replace (S' * (b' * T') * - / T') with (- (S' * b')) by (field; lra).
    replace (S' * (b' * T') * (v - a' / b')) with (S' * v * (b' * T') - S' * (a' * T')) by (field; lra). lra.
  - apply (Rmult_le_reg_l (S' * (b' * T'))); auto. replace (S' * (b' * T') * / T') with (S' * b') by (field; lra).
    replace (S' * (b' * T') * (v - a' / b')) with (S' * v * (b' * T') - S' * (a' * T')) by (field; lra). lra.
Qed.
Theorem fx_check_ok p T h : (0 <= p)%Z -> (0 < T)%Z -> forall m j ts, good_terms p j h ts -> fx_check p T (Z.of_nat (length h)) m (Z.of_nat j) ts = true ->
  forall i, (j <= i < j + m)%nat -> Rabs (Rsum (map (fun wy => Q2R (fst wy) * Q2R (snd wy) ^ i) h) - 1 / INR (2 * i + 1)) <= / IZR T.
Proof.
  intros Hp HT. induction m as [|m IH]; intros j ts G H i Hi; [lia|]. cbn [fx_check] in H. apply andb_true_iff in H. destruct H as [H1 H2].
  destruct (Nat.eq_dec i j) as [-> | N].
  - rewrite INR_IZR_INZ. replace (Z.of_nat (2 * j + 1)) with (2 * Z.of_nat j + 1)%Z by lia. eapply fx_close_ok; [exact Hp|exact HT| |exact H1|]; [lia|].
    assert (A := good_sum p j h ts G). cbv zeta in A. rewrite mult_IZR, plus_IZR, mult_IZR, <- !INR_IZR_INZ. exact A.
  - apply (IH (S j) (fx_step p ts)); [apply good_step; auto| |lia]. replace (Z.of_nat (S j)) with (Z.of_nat j + 1)%Z by lia. auto.
Qed.
