(** Running Laurie's algorithm on rational numbers. *)
From Coq Require Import Reals List Arith ZArith QArith Qreals Bool Lia Lra Sorted.
From Verif Require Import Spec Spec1 AdaptModel PyBase UnModel C1Model C1Proofs GwSpec GwModel GwProofs GwExist GwRc GwInt2 KronrodModel KronrodAlg KronrodProofs KronrodMain.
Import ListNotations.
Set Bullet Behavior "Strict Subproofs".
Local Open Scope R_scope.

Definition qadd (x y : Q) : Q := Qred (x + y).
Definition qsub (x y : Q) : Q := Qred (x - y).
Definition qmul (x y : Q) : Q := Qred (x * y).
Definition qdiv (x y : Q) : option Q := if Qeq_bool y 0 then None else Some (Qred (x / y)).
Lemma qadd_R x y : Q2R (qadd x y) = Q2R x + Q2R y.
Proof. unfold qadd. rewrite (Qeq_eqR _ _ (Qred_correct _)). apply Q2R_plus. Qed.
Lemma qsub_R x y : Q2R (qsub x y) = Q2R x - Q2R y.
Proof. unfold qsub. rewrite (Qeq_eqR _ _ (Qred_correct _)). apply Q2R_minus. Qed.
Lemma qmul_R x y : Q2R (qmul x y) = Q2R x * Q2R y.
Proof. unfold qmul. rewrite (Qeq_eqR _ _ (Qred_correct _)). apply Q2R_mult. Qed.
Lemma qdiv_R x y z : qdiv x y = Some z -> rdiv (Q2R x) (Q2R y) = Some (Q2R z).
Proof.
  unfold qdiv, rdiv. destruct (Qeq_bool y 0) eqn:E; [discriminate|]. intros H. assert (Hz : z = Qred (x / y)) by congruence. rewrite Hz. clear H Hz. apply Qeq_bool_neq in E.
  destruct (Req_EM_T (Q2R y) 0) as [Z|NZ].
  - exfalso. apply E. apply eqR_Qeq. rewrite Z. unfold Q2R. cbn. lra.
  - rewrite (Qeq_eqR _ _ (Qred_correct _)). rewrite Q2R_div by auto. auto.
Qed.
Lemma zero_R : Q2R 0 = 0.
Proof. unfold Q2R. cbn. lra. Qed.

Definition arr (v : nat -> R) (vq : nat -> Q) : Prop := forall i, v i = Q2R (vq i).
Lemma set_R v vq i x xq : arr v vq -> x = Q2R xq -> arr (set v i x) (set vq i xq).
Proof. intros H E j. unfold set. destruct (j =? i)%nat; auto. Qed.
Lemma set_many_R is : forall v vq xs xq, arr v vq -> xs = map Q2R xq -> arr (set_many v is xs) (set_many vq is xq).
Proof.
  unfold set_many. induction is as [|i is IH]; intros v vq xs xq H E; [auto|]. destruct xq as [|x xq]; subst xs; [auto|]. cbn [map List.combine fold_left fst snd]. apply IH; auto. apply set_R; auto.
Qed.
Lemma cumsum_R l : cumsum Rplus (map Q2R l) = map Q2R (cumsum qadd l).
Proof.
  destruct l as [|x l]; auto. cbn [map cumsum]. f_equal. revert x. induction l as [|y l IH]; intros x; cbn [map cumsum_from]; auto. rewrite <- qadd_R. f_equal. apply IH.
Qed.
Lemma eastward_R n a b aq bq m s t sq tq : arr a aq -> arr b bq -> arr s sq -> arr t tq ->
  arr (fst (eastward Rplus Rminus Rmult n a b m (s, t))) (fst (eastward qadd qsub qmul n aq bq m (sq, tq))) /\ arr (snd (eastward Rplus Rminus Rmult n a b m (s, t))) (snd (eastward qadd qsub qmul n aq bq m (sq, tq))).
Proof.
  intros Ha Hb Hs Ht. unfold eastward. cbn [fst snd]. split; auto. apply set_many_R; auto. rewrite <- cumsum_R, map_map. f_equal. apply map_ext. intros k. rewrite qsub_R, qadd_R, !qmul_R, qsub_R, Ha, Ha, Ht, Hb, Hs, Hb, Hs. auto.
Qed.
Lemma east_loop_R n a b aq bq l : arr a aq -> arr b bq -> forall st stq, arr (fst st) (fst stq) -> arr (snd st) (snd stq) ->
  arr (fst (fold_left (fun st m => eastward Rplus Rminus Rmult n a b m st) l st)) (fst (fold_left (fun st m => eastward qadd qsub qmul n aq bq m st) l stq)) /\
  arr (snd (fold_left (fun st m => eastward Rplus Rminus Rmult n a b m st) l st)) (snd (fold_left (fun st m => eastward qadd qsub qmul n aq bq m st) l stq)).
Proof.
  intros Ha Hb. induction l as [|m l IH]; intros [s t] [sq tq] Hs Ht; [auto|]. cbn [fold_left]. destruct (eastward_R n a b aq bq m s t sq tq) as [E1 E2]; auto.
Qed.
Definition states (st : (array * array) * (array * array)) (stq : (array * array) * (array * array)) : Prop :=
  arr (fst (fst st)) (fst (fst stq)) /\ arr (snd (fst st)) (snd (fst stq)) /\ arr (fst (snd st)) (fst (snd stq)) /\ arr (snd (snd st)) (snd (snd stq)).
Lemma southward_R n m st stq stq' : states st stq -> southward 0%Q qadd qsub qmul qdiv n m stq = Some stq' ->
  exists st', southward 0 Rplus Rminus Rmult rdiv n m st = Some st' /\ states st' stq'.
Proof.
  destruct st as [[a b] [s t]], stq as [[aq bq] [sq tq]]. intros [Ha [Hb [Hs Ht]]] E. cbn [fst snd] in *. unfold southward in *.
  set (ks := seq (m + 1 - n) ((m - 1) / 2 + 1 - (m + 1 - n))) in *.
  match type of E with context [set_many sq ?i ?x] => set (s'q := set_many sq i x) in * end.
  match goal with |- context [set_many s ?i ?x] => set (s' := set_many s i x) in * end.
  assert (Hs' : arr s' s'q).
  { apply set_many_R; auto. rewrite <- cumsum_R, map_map. f_equal. apply map_ext. intros k. rewrite qadd_R, qsub_R, !qmul_R, !qsub_R, zero_R, Ha, Ha, Ht, Hb, Hs, Hb, Hs. auto. }
  clearbody s' s'q. destruct (Nat.even m).
  - match type of E with bind ?d _ = _ => destruct d as [q|] eqn:ED; [|discriminate E] end. cbn [bind] in E. injection E as <-. apply qdiv_R in ED. rewrite qsub_R, qmul_R, <- !Hs', <- Hb, <- Ht in ED. rewrite ED. cbn [bind].
    eexists. split; [reflexivity|]. repeat split; cbn [fst snd]; auto. apply set_R; auto. rewrite qadd_R, Ha. auto.
  - match type of E with bind ?d _ = _ => destruct d as [q|] eqn:ED; [|discriminate E] end. cbn [bind] in E. injection E as <-. apply qdiv_R in ED. rewrite <- !Hs' in ED. rewrite ED. cbn [bind].
    eexists. split; [reflexivity|]. repeat split; cbn [fst snd]; auto. apply set_R; auto.
Qed.
Lemma loop_R n l : forall st stq stq', states st stq -> loop (southward 0%Q qadd qsub qmul qdiv n) l stq = Some stq' ->
  exists st', loop (southward 0 Rplus Rminus Rmult rdiv n) l st = Some st' /\ states st' stq'.
Proof.
  induction l as [|m l IH]; intros st stq stq' H E; cbn [loop] in *; [injection E as <-; eauto|].
  destruct (southward 0%Q qadd qsub qmul qdiv n m stq) as [s1q|] eqn:E1; [|discriminate E]. cbn [bind] in E. destruct (southward_R n m st stq s1q H E1) as [s1 [R1 H1]]. rewrite R1. cbn [bind]. eauto.
Qed.
(** The run on rationals determines the run on reals. *)
Theorem r_kronrod_R n a0 b0 a0q b0q aq bq : arr a0 a0q -> arr b0 b0q -> r_kronrod 0%Q qadd qsub qmul qdiv n a0q b0q = Some (aq, bq) ->
  exists a b, r_kronrod 0 Rplus Rminus Rmult rdiv n a0 b0 = Some (a, b) /\ arr a aq /\ arr b bq.
Proof.
  intros Ha0 Hb0 E. unfold r_kronrod in *. destruct (n =? 0)%nat; [discriminate E|].
  assert (Hz : arr (fun _ => 0) (fun _ => 0%Q)) by (intros i; symmetry; apply zero_R).
  assert (Hp : forall k v vq, arr v vq -> arr (prefix 0 k v) (prefix 0%Q k vq)) by (intros k v vq H i; unfold prefix; destruct (i <? k)%nat; auto; symmetry; apply zero_R).
  assert (Ha := Hp (3 * n / 2 + 1)%nat _ _ Ha0). assert (Hb := Hp ((3 * n + 1) / 2 + 1)%nat _ _ Hb0).
  set (a := prefix 0 (3 * n / 2 + 1) a0) in *. set (b := prefix 0 ((3 * n + 1) / 2 + 1) b0) in *. set (aI := prefix 0%Q (3 * n / 2 + 1) a0q) in *. set (bI := prefix 0%Q ((3 * n + 1) / 2 + 1) b0q) in *.
  assert (EL := east_loop_R n a b aI bI (seq 0 (n - 1)) Ha Hb ((fun _ => 0), set (fun _ => 0) 1 (b (n + 1)%nat)) ((fun _ => 0%Q), set (fun _ => 0%Q) 1 (bI (n + 1)%nat)) Hz (set_R _ _ 1%nat _ _ Hz (Hb (n + 1)%nat))).
  destruct (fold_left (fun st m => eastward Rplus Rminus Rmult n a b m st) (seq 0 (n - 1)) ((fun _ => 0), set (fun _ => 0) 1 (b (n + 1)%nat))) as [s t].
  destruct (fold_left (fun st m => eastward qadd qsub qmul n aI bI m st) (seq 0 (n - 1)) ((fun _ => 0%Q), set (fun _ => 0%Q) 1 (bI (n + 1)%nat))) as [sq tq]. cbn [fst snd] in EL. destruct EL as [Hs Ht].
  match type of E with bind ?L _ = _ => destruct L as [[[a1 b1] [s1 t1]]|] eqn:EL; [|discriminate E] end. cbn [bind] in E.
  eapply loop_R in EL; [|instantiate (1 := ((a, b), ((fun i => if ((1 <=? i) && (i <? n / 2 + 1 + 1))%nat then s (i - 1)%nat else s i), t)))].
  - destruct EL as [[[a2 b2] [s2 t2]] [RL [Ha2 [Hb2 [Hs2 Ht2]]]]]. cbn [fst snd] in *. match goal with |- context [bind ?L _] => replace L with (Some (a2, b2, (s2, t2))) by (symmetry; exact RL) end. cbn [bind].
    match type of E with bind ?d _ = _ => destruct d as [q|] eqn:ED; [|discriminate E] end. cbn [bind] in E. apply qdiv_R in ED. rewrite qmul_R, <- Hb2, <- Hs2, <- Ht2 in ED. rewrite ED. cbn [bind].
    match type of E with Some (?x, ?y) = _ => assert (Eq : aq = x /\ bq = y) by (split; congruence) end. destruct Eq as [-> ->]. eexists. eexists. split; [reflexivity|]. split; auto. apply set_R; auto. rewrite qsub_R, Ha2. auto.
  - repeat split; cbn [fst snd]; auto. intros i. destruct ((1 <=? i) && (i <? n / 2 + 1 + 1))%nat; auto.
Qed.

(* ------------------------------------------------------------------ zeros below a bound *)
(** p_{k+1} / p_k *)
Fixpoint ratio (a b : nat -> R) (x : R) (k : nat) : R := match k with O => x - a 0%nat | S k' => x - a k - b k / ratio a b x k' end.
Lemma ratio_above a b N u : (forall i, (0 < i <= N)%nat -> 0 < b i) -> (forall k, (k <= N)%nat -> 0 < ratio a b u k) ->
  forall x, u <= x -> forall k, (k <= N)%nat -> ratio a b u k <= ratio a b x k.
Proof.
  intros Hb Hr x Hx. induction k as [|k IH]; intros Hk; cbn [ratio]; [lra|]. specialize (IH ltac:(lia)). specialize (Hb (S k) ltac:(lia)). specialize (Hr k ltac:(lia)).
  assert (b (S k) / ratio a b x k <= b (S k) / ratio a b u k); [|lra]. apply Rmult_le_compat_l; [lra|]. apply Rinv_le_contravar; lra.
Qed.
Lemma monic_above a b N u : (forall i, (0 < i <= N)%nat -> 0 < b i) -> (forall k, (k <= N)%nat -> 0 < ratio a b u k) ->
  forall x, u <= x -> forall k, (k <= S N)%nat -> 0 < monic a b k x.
Proof.
  intros Hb Hr x Hx. assert (G : forall k, (k <= N)%nat -> 0 < monic a b k x /\ monic a b (S k) x = ratio a b x k * monic a b k x).
  { induction k as [|k IH]; intros Hk.
    - cbn [monic ratio]. split; [lra|ring].
    - destruct (IH ltac:(lia)) as [I1 I2]. pose proof (ratio_above a b N u Hb Hr x Hx k ltac:(lia)) as P. pose proof (Hr k ltac:(lia)) as P1. assert (P2 : 0 < ratio a b x k) by lra.
      split; [rewrite I2; apply Rmult_lt_0_compat; auto|]. rewrite monic_SS. cbn [ratio]. rewrite I2. field. lra. }
  intros k Hk. destruct k as [|k]; [cbn; lra|]. destruct (G k ltac:(lia)) as [G1 ->]. apply Rmult_lt_0_compat; auto. pose proof (ratio_above a b N u Hb Hr x Hx k ltac:(lia)). pose proof (Hr k ltac:(lia)). lra.
Qed.
Fixpoint qratios (a b : nat -> Q) (u : Q) (k : nat) : option Q :=
  match k with O => Some (qsub u (a 0%nat)) | S k' => let! r := qratios a b u k' in let! q := qdiv (b k) r in Some (qsub (qsub u (a k)) q) end.
Lemma qratios_R a b aq bq u : arr a aq -> arr b bq -> forall k r, qratios aq bq u k = Some r -> ratio a b (Q2R u) k = Q2R r.
Proof.
  intros Ha Hb. induction k as [|k IH]; intros r E; cbn [qratios ratio] in *.
  - assert (Er : r = qsub u (aq 0%nat)) by congruence. rewrite Er, qsub_R, Ha. auto.
  - destruct (qratios aq bq u k) as [r0|]; [|discriminate E]. cbn [bind] in E. destruct (qdiv (bq (S k)) r0) as [q|] eqn:ED; [|discriminate E]. cbn [bind] in E.
    assert (Er : r = qsub (qsub u (aq (S k))) q) by congruence. rewrite Er, !qsub_R, (IH r0 eq_refl), Ha, Hb. apply qdiv_R in ED. unfold rdiv in ED. destruct (Req_EM_T (Q2R r0) 0); [discriminate ED|]. injection ED as ED. rewrite ED. auto.
Qed.

(* ------------------------------------------------------------------ Legendre *)
Definition legendre_beta_q (k : nat) : Q := match k with O => 2 | _ => let z := Z.of_nat k in Qred (inject_Z (z * z) / inject_Z (4 * (z * z) - 1)) end.
Definition run (n : nat) : option (array * array) := r_kronrod 0%Q qadd qsub qmul qdiv n (fun _ => 0%Q) legendre_beta_q.
Definition Qpos_bool (x : Q) : bool := (0 <? Qnum x)%Z.
Definition ratios_ok (a b : nat -> Q) (N : nat) : bool := forallb (fun k => match qratios a b 1 k with Some r => Qpos_bool r | None => false end) (seq 0 (S N)).
Definition run_ok (n : nat) : bool :=
  match run n with
  | Some (a, b) =>
      let al := map a (seq 0 (2 * n + 1)) in let bl := map b (seq 0 (2 * n + 1)) in
      forallb (fun v => Qeq_bool v 0) al && forallb Qpos_bool bl && ratios_ok (fun i => nth i al 0%Q) (fun i => nth i bl 0%Q) (2 * n) &&
      ((n =? 1)%nat || negb (Qeq_bool (b ((3 * n + 1) / 2 + 1)%nat) (legendre_beta_q ((3 * n + 1) / 2 + 1))))
  | None => false
  end.
Lemma run_all : forallb run_ok (seq 1 12) = true.
Proof. vm_compute. reflexivity. Qed.
Lemma Qpos_R x : Qpos_bool x = true -> 0 < Q2R x.
Proof. unfold Qpos_bool. intros H. apply Z.ltb_lt in H. replace 0 with (Q2R 0) by apply zero_R. apply Qlt_Rlt. unfold Qlt. cbn. lia. Qed.
Lemma legendre_beta_R k : kronrod_beta legendre_rc k = Q2R (legendre_beta_q k).
Proof.
  destruct k as [|k]; [cbn; unfold Q2R; cbn; lra|]. unfold kronrod_beta, legendre_rc, legendre_beta_q. cbn [rc_beta]. rewrite (Qeq_eqR _ _ (Qred_correct _)).
  set (z := Z.of_nat (S k)). assert (Hz : (1 <= z)%Z) by (unfold z; lia). assert (Ez : INR (S k) = IZR z) by (unfold z; apply INR_IZR_INZ). rewrite Ez.
  rewrite Q2R_div.
  - unfold Q2R, inject_Z. cbn [Qnum Qden]. rewrite !Rinv_1, !Rmult_1_r. rewrite minus_IZR, !mult_IZR. f_equal; [ring|]. f_equal. ring.
  - unfold Qeq, inject_Z. cbn [Qnum Qden]. nia.
Qed.
Theorem legendre_run n : (1 <= n <= 12)%nat -> exists a b, r_kronrod 0 Rplus Rminus Rmult rdiv n (rc_alpha legendre_rc) (kronrod_beta legendre_rc) = Some (a, b) /\
  (forall i, (i <= 2 * n)%nat -> a i = 0 /\ 0 < b i) /\ (forall k, (k <= 2 * n)%nat -> 0 < ratio a b 1 k) /\ (n = 1%nat \/ b ((3 * n + 1) / 2 + 1)%nat <> rc_beta legendre_rc ((3 * n + 1) / 2 + 1)%nat).
Proof.
  intros Hn. assert (H := run_all). rewrite forallb_forall in H. specialize (H n ltac:(apply in_seq; lia)). unfold run_ok in H. destruct (run n) as [[aq bq]|] eqn:ER; [|discriminate H].
  set (al := map aq (seq 0 (2 * n + 1))) in *. set (bl := map bq (seq 0 (2 * n + 1))) in *.
  rewrite !andb_true_iff, !forallb_forall, orb_true_iff in H. destruct H as [[[H1 H2] H3] H4].
  destruct (r_kronrod_R n (rc_alpha legendre_rc) (kronrod_beta legendre_rc) (fun _ => 0%Q) legendre_beta_q aq bq) as [a [b [R1 [Ha Hb]]]]; auto.
  { intros i. cbn. symmetry. apply zero_R. }
  { intros i. apply legendre_beta_R. }
  exists a, b. split; auto. split; [|split].
  - intros i Hi. rewrite Ha, Hb. split.
    + rewrite <- zero_R. apply Qeq_eqR. apply Qeq_bool_eq. apply H1. apply in_map. apply in_seq. lia.
    + apply Qpos_R. apply H2. apply in_map. apply in_seq. lia.
  - intros k Hk. unfold ratios_ok in H3. rewrite forallb_forall in H3. specialize (H3 k ltac:(apply in_seq; lia)). destruct (qratios (fun i => nth i al 0%Q) (fun i => nth i bl 0%Q) 1 k) as [r|] eqn:EQ; [|discriminate H3].
    assert (N : forall (f : nat -> Q) i, (i <= 2 * n)%nat -> nth i (map f (seq 0 (2 * n + 1))) 0%Q = f i).
    { intros f i Hi. rewrite (nth_indep _ 0%Q (f 0%nat)) by (rewrite map_length, seq_length; lia). rewrite map_nth, seq_nth by lia. auto. }
    assert (E := qratios_R (fun i => Q2R (nth i al 0%Q)) (fun i => Q2R (nth i bl 0%Q)) _ _ 1 (fun i => eq_refl) (fun i => eq_refl) k r EQ). apply Qpos_R in H3. rewrite <- E in H3.
    assert (X : forall k, (k <= 2 * n)%nat -> ratio (fun i => Q2R (nth i al 0%Q)) (fun i => Q2R (nth i bl 0%Q)) (Q2R 1) k = ratio a b 1 k).
    { clear - N Ha Hb. induction k as [|k IH]; intros Hk; cbn [ratio]; [|rewrite IH by lia]; unfold al, bl; rewrite ?N by lia; rewrite ?Ha, ?Hb; replace (Q2R 1) with 1 by (unfold Q2R; cbn; lra); auto. }
    rewrite X in H3 by auto. auto.
  - destruct H4 as [H4|H4]; [left; apply Nat.eqb_eq; auto|right]. intros E. apply negb_true_iff in H4. apply Qeq_bool_neq in H4. apply H4. apply eqR_Qeq. rewrite <- Hb, E, <- legendre_beta_R. replace ((3 * n + 1) / 2 + 1)%nat with (S ((3 * n + 1) / 2)) by lia. reflexivity.
Qed.

(* ------------------------------------------------------------------ nodes *)
(** The nodes lie strictly inside (-1, 1). *)
Lemma kronrod_inside eigh rc mu n s a b : eigen_solver eigh -> good_rc rc mu -> gauss_kronrod eigh rc n = Some s ->
  r_kronrod 0 Rplus Rminus Rmult rdiv n (rc_alpha rc) (kronrod_beta rc) = Some (a, b) -> (forall i, (i <= 2 * n)%nat -> a i = 0) -> (forall k, (k <= 2 * n)%nat -> 0 < ratio a b 1 k) ->
  List.Forall (fun wx => -1 < snd wx < 1) (c1_rule s).
Proof.
  intros HE HG E ER0 Ha0 Hr. destruct (kronrod_data _ _ _ _ _ HG E) as [a' [b' [[x w] [ER [Hn [ES [-> [Ha [Hb [Hp _]]]]]]]]]]. rewrite ER0 in ER. injection ER as <- <-.
  set (al := map a (seq 0 (2 * n + 1))) in *. set (be := map b (seq 0 (2 * n + 1))) in *.
  assert (La : length al = S (2 * n)) by (unfold al; rewrite map_length, seq_length; lia). assert (Lb : length be = S (2 * n)) by (unfold be; rewrite map_length, seq_length; lia).
  assert (Nal : forall i, (i <= 2 * n)%nat -> nth i al 0 = a i) by (intros i L; unfold al; apply nth_seq; lia). assert (Nbe : forall i, (i <= 2 * n)%nat -> nth i be 0 = b i) by (intros i L; unfold be; apply nth_seq; lia).
  assert (Hpos : List.Forall (fun b => 0 < b) (tl be)).
  { unfold be. replace (2 * n + 1)%nat with (S (2 * n)) by lia. rewrite tl_seq. apply List.Forall_forall. intros v Hv. apply in_map_iff in Hv. destruct Hv as [k [<- Hk]]. apply in_seq in Hk. apply Hp. lia. }
  destruct (scheme_from_rc_run eigh al be (rc_int rc) (2 * n) HE La Lb Hpos) as [x' [V [ER' [HD [Hne Hsq]]]]]. rewrite ES in ER'. injection ER' as -> ->.
  assert (Lx : length x' = S (2 * n)) by (destruct HD as [Lx _]; lia).
  unfold c1_of, c1_scheme_of. cbn [c1_rule fst snd]. apply List.Forall_forall. intros [w0 x0] Hin. cbn [snd]. apply in_combine_r in Hin. destruct (In_nth x' x0 0 Hin) as [k [Hk <-]].
  assert (Z := gw_root al (map sqrt (tl be)) x' V (2 * n) La HD Hne k ltac:(lia)). set (z := nth k x' 0) in *.
  assert (Z' : monic a b (S (2 * n)) z = 0) by (rewrite <- Z; apply monic_ext; intros i L; unfold arec, brec; [symmetry; apply Nal; lia|rewrite Hsq by lia; replace (S (i - 1)) with i by lia; symmetry; apply Nbe; lia]).
  clear Z. assert (P := monic_above a b (2 * n) 1 Hp Hr). split.
  - apply Rnot_le_lt. intros C. specialize (P (- z) ltac:(lra) (S (2 * n)) (le_n _)). assert (N := monic_neg a b (S (2 * n)) (- z)). rewrite Ropp_involutive, Z' in N.
    rewrite (monic_ext (fun i => - a i) b a b) in N; [|intros i L; rewrite Ha0 by lia; ring|auto]. symmetry in N. apply Rmult_integral in N. destruct N as [N|N]; [|lra]. revert N. apply pow_nonzero. lra.
  - apply Rnot_le_lt. intros C. specialize (P z C (S (2 * n)) (le_n _)). lra.
Qed.
Lemma legendre_some eigh n : eigen_solver eigh -> (1 <= n <= 12)%nat -> exists s, gauss_kronrod eigh legendre_rc n = Some s.
Proof.
  intros HE Hn. destruct (legendre_run n Hn) as [a [b [ER [Hab _]]]]. unfold gauss_kronrod. fold (kronrod_beta legendre_rc). rewrite ER. cbn [bind fst snd].
  destruct (scheme_from_rc_run eigh (map a (seq 0 (2 * n + 1))) (map b (seq 0 (2 * n + 1))) (rc_int legendre_rc) (2 * n) HE) as [x [V [-> _]]].
  - rewrite map_length, seq_length. lia.
  - rewrite map_length, seq_length. lia.
  - replace (2 * n + 1)%nat with (S (2 * n)) by lia. rewrite tl_seq. apply List.Forall_forall. intros v Hv. apply in_map_iff in Hv. destruct Hv as [k [<- Hk]]. apply in_seq in Hk. apply Hab. lia.
  - cbn [bind]. eauto.
Qed.
