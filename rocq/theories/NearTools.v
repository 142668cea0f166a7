(** A checker for rules that are given by decimal numbers: ball arithmetic with 64 fractional bits, all monomials up to a degree
    at once. *)
From Coq Require Import Reals List Arith Lia Lra ZArith QArith Qreals Machin.
From Verif Require Import Spec RsumLemmas Tower.
Import ListNotations.
Set Bullet Behavior "Strict Subproofs".
Open Scope R_scope.

Local Notation bits := 64%Z.
Definition scale : Z := (2 ^ 64)%Z.
Definition ball := (Z * Z)%type.
Definition S64 : R := IZR scale.
(** [b] encloses x: the centre is fst b / 2^64, the radius snd b / 2^64. *)
Definition bok (b : ball) (x : R) : Prop := Rabs (x * S64 - IZR (fst b)) <= IZR (snd b).
Lemma S64_pos : 0 < S64. Proof. unfold S64. apply (IZR_lt 0). reflexivity. Qed.
Lemma bok_radius b x : bok b x -> 0 <= IZR (snd b).
Proof. unfold bok. intros H. pose proof (Rabs_pos (x * S64 - IZR (fst b))). lra. Qed.

Definition bz (z : Z) : ball := ((z * scale)%Z, 0%Z).
Definition badd (a b : ball) : ball := ((fst a + fst b)%Z, (snd a + snd b)%Z).
Definition bopp (a : ball) : ball := ((- fst a)%Z, snd a).
Definition bsub (a b : ball) : ball := badd a (bopp b).
Definition bmul (a b : ball) : ball :=
  let '(m, e) := a in let '(n, f) := b in
  (Z.shiftr (m * n) bits,
   (Z.shiftr (Z.abs m * f + Z.abs n * e + e * f) bits + 2)%Z).
Definition bdiv (a b : ball) : option ball :=
  let '(m, e) := a in let '(n, f) := b in
  if (f <? Z.abs n)%Z
  then Some ((m * scale / n)%Z, (scale * (e * Z.abs n + Z.abs m * f) / (Z.abs n * (Z.abs n - f)) + 2)%Z)
  else None.
Definition bsqrt (a : ball) : option ball :=
  let '(m, e) := a in
  if (e <=? m)%Z
  then let lo := Z.sqrt ((m - e) * scale) in let hi := (Z.sqrt ((m + e) * scale) + 1)%Z in Some (lo, (hi - lo)%Z)
  else None.
Fixpoint bpow (a : ball) (n : nat) : ball := match n with O => bz 1 | S m => bmul a (bpow a m) end.

Lemma bz_ok z : bok (bz z) (IZR z).
Proof. unfold bok, bz, S64. cbn [fst snd]. rewrite mult_IZR. replace (IZR z * IZR scale - IZR z * IZR scale) with 0 by ring. rewrite Rabs_R0. lra. Qed.
Lemma badd_ok a b x y : bok a x -> bok b y -> bok (badd a b) (x + y).
Proof.
  unfold bok, badd. cbn [fst snd]. rewrite !plus_IZR. intros. replace ((x + y) * S64 - _) with ((x * S64 - IZR (fst a)) + (y * S64 - IZR (fst b))) by ring.
  eapply Rle_trans; [apply Rabs_triang|]. lra.
Qed.
Lemma bopp_ok a x : bok a x -> bok (bopp a) (- x).
Proof. unfold bok, bopp. cbn [fst snd]. rewrite opp_IZR. intros. replace (- x * S64 - _) with (- (x * S64 - IZR (fst a))) by ring. rewrite Rabs_Ropp. auto. Qed.
Lemma bsub_ok a b x y : bok a x -> bok b y -> bok (bsub a b) (x - y).
Proof. intros. apply (badd_ok a (bopp b) x (- y)); auto. apply bopp_ok; auto. Qed.
Lemma shiftr_bounds z : IZR (Z.shiftr z bits) <= IZR z / S64 < IZR (Z.shiftr z bits) + 1.
Proof.
  rewrite Z.shiftr_div_pow2 by lia. change (2 ^ 64)%Z with scale. pose proof S64_pos as P. assert (scale > 0)%Z by reflexivity.
  pose proof (Z_div_mod_eq_full z scale) as E. pose proof (Z_mod_lt z scale H) as M. apply (f_equal IZR) in E. rewrite plus_IZR, mult_IZR in E.
  destruct M as [M0 M1]. apply IZR_le in M0. apply IZR_lt in M1. fold S64 in E, M1. split.
  - apply Rmult_le_reg_r with S64; auto. unfold Rdiv. rewrite Rmult_assoc, Rinv_l by lra. lra.
  - apply Rmult_lt_reg_r with S64; auto. unfold Rdiv. rewrite Rmult_assoc, Rinv_l by lra. lra.
Qed.
Lemma Rabs_le_IZR d e : Rabs d <= IZR e -> - IZR e <= d <= IZR e.
Proof. unfold Rabs. destruct (Rcase_abs d); intros; lra. Qed.
Lemma bmul_ok a b x y : bok a x -> bok b y -> bok (bmul a b) (x * y).
Proof.
  destruct a as [m e], b as [n f]. intros Hx Hy. pose proof (bok_radius _ _ Hx) as He. pose proof (bok_radius _ _ Hy) as Hf. unfold bok, bmul in *. cbn [fst snd] in *.
  rewrite !plus_IZR. pose proof S64_pos as P.
  pose proof (shiftr_bounds (m * n)) as B1. pose proof (shiftr_bounds (Z.abs m * f + Z.abs n * e + e * f)) as B2.
  rewrite mult_IZR in B1. rewrite !plus_IZR, !mult_IZR, !abs_IZR in B2.
  set (dx := x * S64 - IZR m) in *. set (dy := y * S64 - IZR n) in *.
  assert (E : x * y * S64 = IZR m * IZR n / S64 + (IZR m * dy + (IZR n * dx + dx * dy)) / S64) by (unfold dx, dy; field; lra).
  replace (x * y * S64 - IZR (Z.shiftr (m * n) 64)) with ((IZR m * IZR n / S64 - IZR (Z.shiftr (m * n) 64)) + (IZR m * dy + (IZR n * dx + dx * dy)) / S64) by (rewrite E; ring).
  assert (A2 : Rabs (IZR m * dy) <= Rabs (IZR m) * IZR f) by (rewrite Rabs_mult; apply Rmult_le_compat_l; auto using Rabs_pos).
  assert (A3 : Rabs (IZR n * dx) <= Rabs (IZR n) * IZR e) by (rewrite Rabs_mult; apply Rmult_le_compat_l; auto using Rabs_pos).
  assert (A4 : Rabs (dx * dy) <= IZR e * IZR f) by (rewrite Rabs_mult; apply Rmult_le_compat; auto using Rabs_pos).
  assert (A1 : Rabs (IZR m * IZR n / S64 - IZR (Z.shiftr (m * n) 64)) <= 1) by (apply Rabs_le; lra).
  assert (A5 : Rabs ((IZR m * dy + (IZR n * dx + dx * dy)) / S64) <= (Rabs (IZR m) * IZR f + Rabs (IZR n) * IZR e + IZR e * IZR f) / S64).
  { unfold Rdiv. rewrite Rabs_mult, (Rabs_right (/ S64)) by (apply Rle_ge, Rlt_le, Rinv_0_lt_compat; auto). apply Rmult_le_compat_r; [apply Rlt_le, Rinv_0_lt_compat; auto|].
    pose proof (Rabs_triang (IZR m * dy) (IZR n * dx + dx * dy)). pose proof (Rabs_triang (IZR n * dx) (dx * dy)). lra. }
  eapply Rle_trans; [apply Rabs_triang|]. lra.
Qed.
Lemma zdiv_bounds a b : (0 < b)%Z -> IZR (a / b) <= IZR a / IZR b < IZR (a / b) + 1.
Proof.
  intros Hb. assert (P : 0 < IZR b) by (apply (IZR_lt 0); auto). pose proof (Z_div_mod_eq_full a b) as E. pose proof (Z_mod_lt a b ltac:(lia)) as M.
  apply (f_equal IZR) in E. rewrite plus_IZR, mult_IZR in E. destruct M as [M0 M1]. apply IZR_le in M0. apply IZR_lt in M1. split.
  - apply Rmult_le_reg_r with (IZR b); auto. unfold Rdiv. rewrite Rmult_assoc, Rinv_l by lra. lra.
  - apply Rmult_lt_reg_r with (IZR b); auto. unfold Rdiv. rewrite Rmult_assoc, Rinv_l by lra. lra.
Qed.
Lemma zdiv_near a b : b <> 0%Z -> Rabs (IZR a / IZR b - IZR (a / b)) <= 1.
Proof.
  intros Hb. destruct (Z_lt_le_dec 0 b) as [H|H].
  - pose proof (zdiv_bounds a b H). apply Rabs_le. lra.
  - pose proof (zdiv_bounds (- a) (- b) ltac:(lia)) as B. rewrite Z.div_opp_opp in B by auto. rewrite !opp_IZR in B.
    assert (IZR b <> 0) by (apply not_0_IZR; auto). replace (- IZR a / - IZR b) with (IZR a / IZR b) in B by (field; auto). apply Rabs_le. lra.
Qed.
Lemma bdiv_ok a b c x y : bok a x -> bok b y -> bdiv a b = Some c -> bok c (x / y).
Proof.
  destruct a as [m e], b as [n f]. intros Hx Hy. pose proof (bok_radius _ _ Hx) as He. pose proof (bok_radius _ _ Hy) as Hf. unfold bdiv, bok in *. cbn [fst snd] in *.
  destruct (Z.ltb_spec f (Z.abs n)) as [L|]; [|discriminate]. intros E. match type of E with Some ?t = _ => assert (Ec : c = t) by congruence end. clear E. rewrite Ec. cbn [fst snd]. pose proof S64_pos as P.
  assert (Hf' : (0 <= f)%Z) by (apply le_IZR; auto).
  set (dx := x * S64 - IZR m) in *. set (dy := y * S64 - IZR n) in *.
  assert (Nn : n <> 0%Z) by lia. assert (Rn : IZR n <> 0) by (apply not_0_IZR; auto). assert (An : 0 < Rabs (IZR n)) by (apply Rabs_pos_lt; auto).
  assert (LR : IZR f < Rabs (IZR n)) by (rewrite <- abs_IZR; apply IZR_lt; auto).
  assert (Ny : Rabs (IZR n) - IZR f <= Rabs (y * S64)).
  { replace (y * S64) with (IZR n + dy) by (unfold dy; ring). pose proof (Rabs_triang_inv (IZR n) (- dy)). rewrite Rabs_Ropp in H. replace (IZR n - - dy) with (IZR n + dy) in H by ring. lra. }
  assert (Yp : 0 < Rabs (y * S64)) by lra. assert (Yn : y * S64 <> 0) by (intros Z; rewrite Z, Rabs_R0 in Yp; lra). assert (Y0 : y <> 0) by (intros Z; apply Yn; rewrite Z; ring).
  assert (E : x / y * S64 - IZR m * S64 / IZR n = S64 * (dx * IZR n - IZR m * dy) / (IZR n * (y * S64))) by (unfold dx, dy; field; repeat split; auto; lra).
  rewrite plus_IZR. pose proof (zdiv_near (m * scale) n Nn) as B. rewrite mult_IZR in B. fold S64 in B.
  pose proof (zdiv_bounds (scale * (e * Z.abs n + Z.abs m * f)) (Z.abs n * (Z.abs n - f)) ltac:(nia)) as B2.
  rewrite !mult_IZR, plus_IZR, !mult_IZR, minus_IZR, !abs_IZR in B2. fold S64 in B2.
  replace (x / y * S64 - IZR (m * scale / n)) with ((x / y * S64 - IZR m * S64 / IZR n) + (IZR m * S64 / IZR n - IZR (m * scale / n))) by ring.
  eapply Rle_trans; [apply Rabs_triang|]. rewrite E.
  assert (Rabs (S64 * (dx * IZR n - IZR m * dy) / (IZR n * (y * S64))) <= S64 * (IZR e * Rabs (IZR n) + Rabs (IZR m) * IZR f) / (Rabs (IZR n) * (Rabs (IZR n) - IZR f))).
  { unfold Rdiv. rewrite Rabs_mult, Rabs_inv, !Rabs_mult, (Rabs_right S64) by lra. apply Rmult_le_compat.
    - apply Rmult_le_pos; [lra|apply Rabs_pos].
    - apply Rlt_le, Rinv_0_lt_compat. apply Rmult_lt_0_compat; auto. apply Rmult_lt_0_compat; auto. apply Rabs_pos_lt; auto.
    - apply Rmult_le_compat_l; [lra|]. eapply Rle_trans; [apply Rabs_triang|]. rewrite Rabs_Ropp, !Rabs_mult. apply Rplus_le_compat; apply Rmult_le_compat; auto using Rabs_pos; lra.
    - rewrite Rabs_mult, (Rabs_right S64) in Ny by lra. apply Rinv_le_contravar; [apply Rmult_lt_0_compat; lra|]. apply Rmult_le_compat_l; lra. }
  lra.
Qed.
Lemma bsqrt_ok a c x g : bok a x -> 0 <= g -> g * g = x -> bsqrt a = Some c -> bok c g.
Proof.
  destruct a as [m e]. intros Hx Hg E. pose proof (bok_radius _ _ Hx) as He. unfold bsqrt, bok in *. cbn [fst snd] in *.
  destruct (Z.leb_spec e m) as [L|]; [|discriminate]. intros H. injection H as <-. cbn [fst snd]. pose proof S64_pos as P.
  assert (He' : (0 <= e)%Z) by (apply le_IZR; auto). assert (SP : (0 < scale)%Z) by reflexivity.
  pose proof (Z.sqrt_spec ((m - e) * scale) ltac:(nia)) as [B1 _]. pose proof (Z.sqrt_spec ((m + e) * scale) ltac:(nia)) as [_ B2].
  pose proof (Z.sqrt_nonneg ((m - e) * scale)) as N1. pose proof (Z.sqrt_nonneg ((m + e) * scale)) as N2.
  set (lo := Z.sqrt ((m - e) * scale)) in *. set (hi := Z.sqrt ((m + e) * scale)) in *.
  apply IZR_le in B1, N1, N2. apply IZR_lt in B2. unfold Z.succ in B2. rewrite !mult_IZR in B1, B2. rewrite !minus_IZR in B1. rewrite !plus_IZR in B2. rewrite minus_IZR, plus_IZR. fold S64 in B1, B2.
  apply Rabs_le_IZR in Hx. set (gs := g * S64). assert (G : gs * gs = x * S64 * S64) by (unfold gs; rewrite <- E; ring). assert (0 <= gs) by (unfold gs; apply Rmult_le_pos; lra).
  assert (IZR lo <= gs) by (apply Rsqr_incr_0_var; auto; unfold Rsqr; nra).
  assert (gs <= IZR hi + 1) by (apply Rsqr_incr_0_var; [unfold Rsqr; nra|lra]).
  apply Rabs_le. lra.
Qed.
Lemma bpow_ok a x n : bok a x -> bok (bpow a n) (x ^ n).
Proof. intros H. induction n as [|n IH]; cbn [bpow pow]; [apply (bz_ok 1)|apply bmul_ok; auto]. Qed.

(** Pi, from the series of 2 arctan (1/3) + arctan (1/7). *)
Definition pi_ball : ball := (57952155664616982739%Z, 1%Z).
Definition pi_term (i : nat) : Q := ((2 # (3 ^ Pos.of_nat (2 * i + 1))) + (1 # (7 ^ Pos.of_nat (2 * i + 1)))) / inject_Z (Z.of_nat (2 * i + 1)).
Fixpoint pi_sum (n : nat) : Q :=
  match n with O => pi_term 0 | S m => Qred (pi_sum m + (if Nat.even n then pi_term n else - pi_term n))%Q end.
Lemma Q2R_pow3 p z n : Q2R (z # (p ^ Pos.of_nat (2 * n + 1))) = IZR z * (/ IZR (Zpos p)) ^ (2 * n + 1).
Proof.
  unfold Q2R. cbn [Qnum Qden]. f_equal. rewrite Pos2Z.inj_pow. replace (Zpos (Pos.of_nat (2 * n + 1))) with (Z.of_nat (2 * n + 1)) by lia.
  rewrite <- pow_IZR, pow_inv. auto.
Qed.
Lemma pi_term_ok n : Q2R (pi_term n) = PI_2_3_7_tg n.
Proof.
  unfold pi_term, PI_2_3_7_tg, Ratan.Ratan_seq. assert (D : Q2R (inject_Z (Z.of_nat (2 * n + 1))) = INR (2 * n + 1)) by (unfold Q2R, inject_Z; cbn [Qnum Qden]; rewrite <- INR_IZR_INZ; lra).
  assert (N : INR (2 * n + 1) <> 0) by (apply not_0_INR; lia).
  unfold Qdiv. rewrite Q2R_mult, Q2R_inv, Q2R_plus, !Q2R_pow3, D; [unfold Rdiv; rewrite Rmult_1_l; ring|].
  intros E. apply Qeq_eqR in E. rewrite D in E. apply N. rewrite E. unfold Q2R. cbn. lra.
Qed.
Lemma pi_sum_ok n : Q2R (pi_sum n) = sum_f_R0 (tg_alt PI_2_3_7_tg) n.
Proof.
  induction n as [|n IH]; cbn [pi_sum sum_f_R0].
  - rewrite pi_term_ok. unfold tg_alt. cbn [pow]. ring.
  - rewrite (Qeq_eqR _ _ (Qred_correct _)), Q2R_plus, IH. f_equal. unfold tg_alt. destruct (Nat.even (S n)) eqn:E.
    + apply Nat.even_spec in E. destruct E as [m E]. rewrite E at 2. rewrite pow_1_even, pi_term_ok. ring.
    + assert (O : Nat.odd (S n) = true) by (unfold Nat.odd; rewrite E; auto). apply Nat.odd_spec in O. destruct O as [m O].
      replace (2 * m + 1)%nat with (S (2 * m)) in O by lia. rewrite O at 2. rewrite pow_1_odd, Q2R_opp, pi_term_ok. ring.
Qed.
Lemma pi_ball_ok : bok pi_ball PI.
Proof.
  pose proof (PI_2_3_7_ineq 10) as [L U]. rewrite <- pi_sum_ok in L, U. change (S (2 * 10)) with 21%nat in L. change (2 * 10)%nat with 20%nat in U.
  assert (QL : Qle_bool (57952155664616982738 # 73786976294838206464) (pi_sum 21) = true) by (vm_compute; reflexivity).
  assert (QU : Qle_bool (pi_sum 20) (57952155664616982740 # 73786976294838206464) = true) by (vm_compute; reflexivity).
  apply Qle_bool_imp_le, Qle_Rle in QL, QU. unfold bok, pi_ball, S64, scale. cbn [fst snd]. change (2 ^ 64)%Z with 18446744073709551616%Z.
  unfold Q2R at 1 in QL. unfold Q2R at 2 in QU. cbn [Qnum Qden] in QL, QU. apply Rabs_le. lra.
Qed.

(** Expressions: [eden] of Tower.v in ball arithmetic. *)
Fixpoint beval (env : list ball) (e : ex) : option ball :=
  match e with
  | EZ z => Some (bz z)
  | EV i => nth_error env i
  | EAdd a b => match beval env a, beval env b with Some x, Some y => Some (badd x y) | _, _ => None end
  | ESub a b => match beval env a, beval env b with Some x, Some y => Some (bsub x y) | _, _ => None end
  | EMul a b => match beval env a, beval env b with Some x, Some y => Some (bmul x y) | _, _ => None end
  | EOpp a => match beval env a with Some x => Some (bopp x) | _ => None end
  | EDiv a b => match beval env a, beval env b with Some x, Some y => bdiv x y | _, _ => None end
  | EPow a n => match beval env a with Some x => Some (bpow x n) | _ => None end
  end.
Lemma beval_ok env l : Forall2 bok l env -> forall e b, beval l e = Some b -> bok b (eden env e).
Proof.
  intros H. assert (HN : forall i b, nth_error l i = Some b -> bok b (nth i env 0)).
  { clear - H. induction H as [|b x l env Hx _ IH]; intros [|i] c; cbn; try discriminate; [congruence|apply IH]. }
  induction e as [z|i|a IHa b IHb|a IHa b IHb|a IHa b IHb|a IHa|a IHa b IHb|a IHa n]; intros c; cbn [beval eden].
  - intros E. injection E as <-. apply bz_ok.
  - apply HN.
  - destruct (beval l a) as [x|], (beval l b) as [y|]; try discriminate. intros E. injection E as <-. apply badd_ok; auto.
  - destruct (beval l a) as [x|], (beval l b) as [y|]; try discriminate. intros E. injection E as <-. apply bsub_ok; auto.
  - destruct (beval l a) as [x|], (beval l b) as [y|]; try discriminate. intros E. injection E as <-. apply bmul_ok; auto.
  - destruct (beval l a) as [x|]; try discriminate. intros E. injection E as <-. apply bopp_ok; auto.
  - destruct (beval l a) as [x|], (beval l b) as [y|]; try discriminate. intros E. apply (bdiv_ok x y); auto.
  - destruct (beval l a) as [x|]; try discriminate. intros E. injection E as <-. apply bpow_ok; auto.
Qed.
(** Generators: pi, or the square root of an expression in the later generators. *)
Inductive gen := GPi | GSqrt (e : ex).
Fixpoint ngens_ok (l : list gen) (env : list R) : Prop :=
  match l, env with
  | [], [] => True
  | GPi :: l', g :: env' => g = PI /\ ngens_ok l' env'
  | GSqrt e :: l', g :: env' => 0 <= g /\ g * g = eden env' e /\ ngens_ok l' env'
  | _, _ => False
  end.
Fixpoint benv (l : list gen) : option (list ball) :=
  match l with
  | [] => Some []
  | GPi :: l' => match benv l' with Some bs => Some (pi_ball :: bs) | None => None end
  | GSqrt e :: l' =>
      match benv l' with
      | Some bs => match beval bs e with Some b => match bsqrt b with Some c => Some (c :: bs) | None => None end | None => None end
      | None => None
      end
  end.
Lemma benv_ok l : forall env bs, ngens_ok l env -> benv l = Some bs -> Forall2 bok bs env.
Proof.
  induction l as [|[|e] l IH]; intros [|g env] bs; cbn [ngens_ok benv]; try tauto.
  - intros _ E. injection E as <-. constructor.
  - intros [-> H]. destruct (benv l) as [bs'|]; [|discriminate]. intros E. injection E as <-. constructor; auto. apply pi_ball_ok.
  - intros [P [Q H]]. destruct (benv l) as [bs'|]; [|discriminate]. destruct (beval bs' e) as [b|] eqn:Eb; [|discriminate]. destruct (bsqrt b) as [c|] eqn:Ec; [|discriminate].
    intros E. injection E as <-. constructor; auto. apply (bsqrt_ok b c (eden env e) g); auto. apply (beval_ok env bs'); auto.
Qed.

(** All monomials of degree at most d, times w. *)
Fixpoint kmonos (n d : nat) : list (list nat) :=
  match n with
  | O => [[]]
  | S n' => (fix go (j a : nat) := map (cons a) (kmonos n' j) ++ match j with O => [] | S j' => go j' (S a) end) d O
  end.
Fixpoint bmonos (p : list ball) (d : nat) (w : ball) : list ball :=
  match p with
  | [] => [w]
  | x :: p' => (fix go (j : nat) (w : ball) := bmonos p' j w ++ match j with O => [] | S j' => go j' (bmul w x) end) d w
  end.
Lemma bmonos_ok p x : Forall2 bok p x -> forall d w v, bok w v -> Forall2 (fun k b => bok b (v * mono k x)) (kmonos (length x) d) (bmonos p d w).
Proof.
  intros H. induction H as [|b t p x Ht Hp IH]; intros d w v Hw; cbn [kmonos bmonos length].
  - constructor; [|constructor]. cbn [mono]. rewrite Rmult_1_r. auto.
  - set (v0 := v). assert (E : v0 = v) by auto. clearbody v0.
    assert (G : forall j a w v, bok w v -> v = v0 * t ^ a -> Forall2 (fun k b => bok b (v0 * mono k (t :: x)))
      ((fix go (j a : nat) := map (cons a) (kmonos (length x) j) ++ match j with O => [] | S j' => go j' (S a) end) j a)
      ((fix go (j : nat) (w : ball) := bmonos p j w ++ match j with O => [] | S j' => go j' (bmul w b) end) j w)).
    { clear - IH Ht. induction j as [|j IHj]; intros a w v Hw Ev.
      - rewrite !app_nil_r. pose proof (IH O w v Hw) as F. revert F. generalize (bmonos p 0 w). intros l. generalize (kmonos (length x) 0). intros ks F.
        induction F as [|k c ks l Hc _ IHF]; cbn [map]; constructor; auto. cbn [mono]. rewrite <- Rmult_assoc, <- Ev. auto.
      - apply Forall2_app; [|apply (IHj (S a) (bmul w b) (v * t)); [apply bmul_ok; auto|rewrite Ev; cbn [pow]; ring]].
        pose proof (IH (S j) w v Hw) as F. revert F. generalize (bmonos p (S j) w). intros l. generalize (kmonos (length x) (S j)). intros ks F.
        induction F as [|k c ks l Hc _ IHF]; cbn [map]; constructor; auto. cbn [mono]. rewrite <- Rmult_assoc, <- Ev. auto. }
    apply (G d O w v); auto. rewrite E. cbn [pow]. ring.
Qed.
Lemma kmonos_all n : forall d k, length k = n -> (tdeg k <= d)%nat -> In k (kmonos n d).
Proof.
  induction n as [|n IH]; intros d [|a k]; cbn [length]; try discriminate; intros L D; cbn [kmonos]; [left; auto|].
  unfold tdeg in D. cbn [list_sum fold_right] in D. fold (list_sum k) in D.
  assert (G : forall j b, (b <= a)%nat -> (a - b + list_sum k <= j)%nat -> In (a :: k) ((fix go (j a : nat) := map (cons a) (kmonos n j) ++ match j with O => [] | S j' => go j' (S a) end) j b)).
  { induction j as [|j IHj]; intros b Hb Hj.
    - apply in_or_app. left. replace a with b by lia. apply in_map. apply IH; [lia|]. unfold tdeg. lia.
    - apply in_or_app. destruct (Nat.eq_dec b a) as [->|Ne]; [left; apply in_map; apply IH; [lia|unfold tdeg; lia]|right; apply IHj; lia]. }
  apply G; lia.
Qed.
Definition vadd (a b : list ball) : list ball := map (fun xy => badd (fst xy) (snd xy)) (List.combine a b).
Fixpoint bmapo (env : list ball) (l : list ex) : option (list ball) :=
  match l with
  | [] => Some []
  | e :: l' => match beval env e, bmapo env l' with Some b, Some bs => Some (b :: bs) | _, _ => None end
  end.
Lemma bmapo_ok env bs : Forall2 bok bs env -> forall l r, bmapo bs l = Some r -> Forall2 bok r (map (eden env) l).
Proof.
  intros H. induction l as [|e l IH]; intros r; cbn [bmapo map]; [intros E; injection E as <-; constructor|].
  destruct (beval bs e) as [b|] eqn:Eb; [|discriminate]. destruct (bmapo bs l) as [r'|]; [|discriminate]. intros E. injection E as <-. constructor; auto. apply (beval_ok env bs); auto.
Qed.
(** The sums of all monomials over the rule. *)
Fixpoint bsums (env : list ball) (n d : nat) (q : list (ex * list ex)) : option (list ball) :=
  match q with
  | [] => Some (map (fun _ => bz 0) (kmonos n d))
  | (w, p) :: q' =>
      match beval env w, bmapo env p, bsums env n d q' with
      | Some bw, Some bp, Some s => if (length p =? n)%nat then Some (vadd (bmonos bp d bw) s) else None
      | _, _, _ => None
      end
  end.
Lemma vadd_ok {A} (f g : A -> R) ks : forall a b, Forall2 (fun k c => bok c (f k)) ks a -> Forall2 (fun k c => bok c (g k)) ks b -> Forall2 (fun k c => bok c (f k + g k)) ks (vadd a b).
Proof.
  induction ks as [|k ks IH]; intros a b Ha Hb; inversion Ha; inversion Hb; subst; unfold vadd in *; cbn [List.combine map fst snd]; constructor; auto. apply badd_ok; auto.
Qed.
Lemma bsums_ok env bs n d : Forall2 bok bs env -> forall q s, bsums bs n d q = Some s ->
  points_in_dim n (rden env q) /\ Forall2 (fun k c => bok c (apply (rden env q) (mono k))) (kmonos n d) s.
Proof.
  intros H. induction q as [|[w p] q IH]; intros s; cbn [bsums].
  - intros E. injection E as <-. split; [constructor|]. induction (kmonos n d) as [|k ks IHk]; cbn [map]; constructor; auto. apply (bz_ok 0).
  - destruct (beval bs w) as [bw|] eqn:Ew; [|discriminate]. destruct (bmapo bs p) as [bp|] eqn:Ep; [|discriminate]. destruct (bsums bs n d q) as [s'|]; [|discriminate].
    destruct (Nat.eqb_spec (length p) n) as [L|]; [|discriminate]. intros E. injection E as <-. destruct (IH s' eq_refl) as [D F]. split.
    + constructor; auto. cbn. rewrite map_length. auto.
    + apply (vadd_ok (fun k => eden env w * mono k (map (eden env) p)) (fun k => apply (rden env q) (mono k))); auto.
      rewrite <- L, <- (map_length (eden env) p). apply bmonos_ok; [apply (bmapo_ok env bs); auto|apply (beval_ok env bs); auto].
Qed.
(** Comparison with rational moments. *)
Definition bq (q : Q) : ball := ((Qnum q * scale / Zpos (Qden q))%Z, 1%Z).
Lemma bq_ok q : bok (bq q) (Q2R q).
Proof.
  unfold bok, bq. cbn [fst snd]. pose proof (zdiv_near (Qnum q * scale) (Zpos (Qden q)) ltac:(lia)) as B. rewrite mult_IZR in B. fold S64 in B. unfold Q2R.
  replace (IZR (Qnum q) * / IZR (Zpos (Qden q)) * S64) with (IZR (Qnum q) * S64 / IZR (Zpos (Qden q))) by (unfold Rdiv; ring). auto.
Qed.
Definition bnear (tol : Z) (a b : ball) : bool := (Z.abs (fst a - fst b) + snd a + snd b <=? tol)%Z.
Definition bfar (tol : Z) (a b : ball) : bool := (tol + snd a + snd b <? Z.abs (fst a - fst b))%Z.
Lemma babs a b x y : bok a x -> bok b y -> Rabs ((x - y) * S64 - IZR (fst a - fst b)) <= IZR (snd a + snd b).
Proof. intros Ha Hb. pose proof (bsub_ok a b x y Ha Hb) as H. unfold bok, bsub, badd, bopp in H. cbn [fst snd] in H. exact H. Qed.
Lemma bnear_ok tol a b x y : bok a x -> bok b y -> bnear tol a b = true -> Rabs (x - y) <= IZR tol / S64.
Proof.
  intros Ha Hb H. apply Z.leb_le, IZR_le in H. rewrite !plus_IZR, abs_IZR in H. pose proof (babs a b x y Ha Hb) as B. rewrite plus_IZR in B. pose proof S64_pos as P.
  apply Rmult_le_reg_r with S64; auto. unfold Rdiv. rewrite Rmult_assoc, Rinv_l, Rmult_1_r by lra. rewrite <- (Rabs_right S64) at 1 by lra. rewrite <- Rabs_mult.
  set (d := IZR (fst a - fst b)) in *. replace ((x - y) * S64) with (((x - y) * S64 - d) + d) by ring. pose proof (Rabs_triang ((x - y) * S64 - d) d). lra.
Qed.
Lemma bfar_ok tol a b x y : bok a x -> bok b y -> bfar tol a b = true -> IZR tol / S64 < Rabs (x - y).
Proof.
  intros Ha Hb H. apply Z.ltb_lt, IZR_lt in H. rewrite !plus_IZR, abs_IZR in H. pose proof (babs a b x y Ha Hb) as B. rewrite plus_IZR in B. pose proof S64_pos as P.
  apply Rmult_lt_reg_r with S64; auto. unfold Rdiv. rewrite Rmult_assoc, Rinv_l, Rmult_1_r by lra. rewrite <- (Rabs_right S64) at 1 by lra. rewrite <- Rabs_mult.
  set (d := IZR (fst a - fst b)) in *. pose proof (Rabs_triang_inv d (d - (x - y) * S64)). replace (d - (d - (x - y) * S64)) with ((x - y) * S64) in H0 by ring.
  rewrite (Rabs_minus_sym d) in H0. lra.
Qed.
(** [tol] in units of 2^-64, rounded down (up). *)
Definition tol_lo (t : Q) : Z := (Qnum t * scale / Zpos (Qden t))%Z.
Definition tol_hi (t : Q) : Z := (Qnum t * scale / Zpos (Qden t) + 1)%Z.
Lemma tol_ok t : IZR (tol_lo t) / S64 <= Q2R t <= IZR (tol_hi t) / S64.
Proof.
  unfold tol_lo, tol_hi. pose proof (zdiv_bounds (Qnum t * scale) (Zpos (Qden t)) ltac:(lia)) as B. rewrite mult_IZR in B. fold S64 in B. pose proof S64_pos as P. rewrite plus_IZR. unfold Q2R.
  replace (IZR (Qnum t) * S64 / IZR (Zpos (Qden t))) with (IZR (Qnum t) * / IZR (Zpos (Qden t)) * S64) in B by (unfold Rdiv; ring).
  assert (C : forall z, z / S64 * S64 = z) by (intros; field; lra). split; apply Rmult_le_reg_r with S64; auto; rewrite C; lra.
Qed.
Definition near_check (l : list gen) (n d : nat) (I : list nat -> Q) (tol : Q) (q : list (ex * list ex)) : bool :=
  match benv l with
  | Some bs =>
      match bsums bs n d q with
      | Some s => let t := tol_lo tol in forallb (fun ks => bnear t (snd ks) (bq (I (fst ks)))) (List.combine (kmonos n d) s)
      | None => false
      end
  | None => false
  end.
Theorem near_check_ok l env n d I tol q : ngens_ok l env -> near_check l n d I tol q = true ->
  points_in_dim n (rden env q) /\ forall k, length k = n -> (tdeg k <= d)%nat -> Rabs (apply (rden env q) (mono k) - Q2R (I k)) <= Q2R tol.
Proof.
  intros G H. unfold near_check in H. destruct (benv l) as [bs|] eqn:Eb; [|discriminate]. pose proof (benv_ok l env bs G Eb) as HB.
  destruct (bsums bs n d q) as [s|] eqn:Es; [|discriminate]. destruct (bsums_ok env bs n d HB q s Es) as [D F]. split; auto. intros k Lk Dk.
  pose proof (kmonos_all n d k Lk Dk) as IK. clear Es. revert IK H. induction F as [|k' c ks s' Hc _ IH]; intros IK H; [destruct IK|].
  cbn [List.combine forallb fst snd] in H. apply andb_prop in H. destruct H as [H1 H2]. destruct IK as [->|IK]; [|apply IH; auto].
  eapply Rle_trans; [apply (bnear_ok (tol_lo tol) c (bq (I k))); auto using bq_ok|]. apply tol_ok.
Qed.
(** A single monomial whose error exceeds the tolerance. *)
Fixpoint bmono (k : list nat) (p : list ball) : ball := match k, p with a :: k', x :: p' => bmul (bpow x a) (bmono k' p') | _, _ => bz 1 end.
Lemma bmono_ok k : forall p x, Forall2 bok p x -> bok (bmono k p) (mono k x).
Proof.
  induction k as [|a k IH]; intros p x H; [cbn; apply (bz_ok 1)|]. destruct H; cbn [bmono mono]; [apply (bz_ok 1)|]. apply bmul_ok; auto. apply bpow_ok; auto.
Qed.
Fixpoint bapply (env : list ball) (k : list nat) (q : list (ex * list ex)) : option ball :=
  match q with
  | [] => Some (bz 0)
  | (w, p) :: q' => match beval env w, bmapo env p, bapply env k q' with Some bw, Some bp, Some s => Some (badd (bmul bw (bmono k bp)) s) | _, _, _ => None end
  end.
Lemma bapply_ok env bs k : Forall2 bok bs env -> forall q s, bapply bs k q = Some s -> bok s (apply (rden env q) (mono k)).
Proof.
  intros H. induction q as [|[w p] q IH]; intros s; cbn [bapply]; [intros E; injection E as <-; apply (bz_ok 0)|].
  destruct (beval bs w) as [bw|] eqn:Ew; [|discriminate]. destruct (bmapo bs p) as [bp|] eqn:Ep; [|discriminate]. destruct (bapply bs k q) as [s'|]; [|discriminate].
  intros E. injection E as <-. change (apply (rden env ((w, p) :: q)) (mono k)) with (eden env w * mono k (map (eden env) p) + apply (rden env q) (mono k)).
  apply badd_ok; auto. apply bmul_ok; [apply (beval_ok env bs); auto|apply bmono_ok; apply (bmapo_ok env bs); auto].
Qed.
Definition far_check (l : list gen) (k : list nat) (i tol : Q) (q : list (ex * list ex)) : bool :=
  match benv l with
  | Some bs => match bapply bs k q with Some s => bfar (tol_hi tol) s (bq i) | None => false end
  | None => false
  end.
Theorem far_check_ok l env k i tol q : ngens_ok l env -> far_check l k i tol q = true -> Q2R tol < Rabs (apply (rden env q) (mono k) - Q2R i).
Proof.
  intros G H. unfold far_check in H. destruct (benv l) as [bs|] eqn:Eb; [|discriminate]. pose proof (benv_ok l env bs G Eb) as HB.
  destruct (bapply bs k q) as [s|] eqn:Es; [|discriminate]. pose proof (bapply_ok env bs k HB q s Es) as F.
  eapply Rle_lt_trans; [apply tol_ok|apply (bfar_ok (tol_hi tol) s (bq i)); auto using bq_ok].
Qed.
