(** A verified decision procedure for moment equations of rules whose weights and coordinates lie in a tower of
    quadratic extensions of Q: expressions are evaluated in normal form in the tower and compared there. *)
From Coq Require Import Reals List Arith Lia Lra Bool ZArith QArith Qreals.
From Verif Require Import Spec RsumLemmas.
Import ListNotations.
Open Scope R_scope.

(** Elements of Q(g_1)...(g_m): [Nd a b] is a + g b with the outermost generator g. *)
Inductive tw := Lf (q : Q) | Nd (a b : tw).
Fixpoint den (env : list R) (t : tw) : R :=
  match t, env with
  | Lf q, _ => Q2R q
  | Nd a b, g :: env' => den env' a + g * den env' b
  | Nd a _, [] => den [] a
  end.
Definition mkN (a b : tw) : tw :=
  match a, b with
  | Lf _, Lf q => if Qeq_bool q 0 then a else Nd a b
  | _, _ => Nd a b
  end.
Fixpoint addq (q : Q) (t : tw) : tw :=
  match t with Lf p => Lf (Qred (q + p)) | Nd a b => mkN (addq q a) b end.
Fixpoint add (x y : tw) : tw :=
  match x, y with
  | Lf p, _ => addq p y
  | _, Lf q => addq q x
  | Nd a b, Nd c d => mkN (add a c) (add b d)
  end.
Fixpoint scale (q : Q) (t : tw) : tw :=
  match t with Lf p => Lf (Qred (q * p)) | Nd a b => mkN (scale q a) (scale q b) end.
Definition opp (t : tw) : tw := scale (-1) t.
Fixpoint toQ (t : tw) : Q := match t with Lf q => q | Nd a _ => toQ a end.
(** [rels]: the squares of the generators, outermost first. *)
Fixpoint mul (rels : list tw) (x y : tw) : tw :=
  match rels with
  | [] => Lf (Qred (toQ x * toQ y))
  | s :: rels' =>
      match x, y with
      | Lf p, _ => if Qeq_bool p 0 then Lf 0 else scale p y
      | _, Lf q => if Qeq_bool q 0 then Lf 0 else scale q x
      | Nd a b, Nd c d =>
          mkN (add (mul rels' a c) (mul rels' (mul rels' b d) s)) (add (mul rels' a d) (mul rels' b c))
      end
  end.
Fixpoint inv (rels : list tw) (x : tw) : tw :=
  match x, rels with
  | Lf q, _ => Lf (Qred (/ q))
  | Nd a b, s :: rels' =>
      let m := inv rels' (add (mul rels' a a) (opp (mul rels' (mul rels' b b) s))) in
      mkN (mul rels' a m) (opp (mul rels' b m))
  | Nd a b, [] => Lf (Qred (/ toQ x))
  end.
Fixpoint iszero (t : tw) : bool :=
  match t with Lf q => Qeq_bool q 0 | Nd a b => iszero a && iszero b end.

Fixpoint rels_ok (rels : list tw) (env : list R) : Prop :=
  match rels, env with
  | [], [] => True
  | s :: rels', g :: env' => g * g = den env' s /\ rels_ok rels' env'
  | _, _ => False
  end.

Lemma Q2R_red q : Q2R (Qred q) = Q2R q.
Proof. apply Qeq_eqR, Qred_correct. Qed.
Lemma Qeq0 q : Qeq_bool q 0 = true -> Q2R q = 0.
Proof. intros H. apply Qeq_bool_eq in H. rewrite (Qeq_eqR _ _ H). unfold Q2R. cbn. lra. Qed.
Lemma den_mkN a b g env : den (g :: env) (mkN a b) = den env a + g * den env b.
Proof.
  destruct a as [p|a1 a2], b as [q|b1 b2]; try reflexivity. unfold mkN. destruct (Qeq_bool q 0) eqn:E; [|reflexivity].
  cbn. rewrite (Qeq0 _ E). ring.
Qed.
Lemma den_mkN_nil a b : den [] (mkN a b) = den [] a.
Proof. destruct a as [p|a1 a2], b as [q|b1 b2]; try reflexivity. unfold mkN. destruct (Qeq_bool q 0); reflexivity. Qed.
Lemma den_toQ t : den [] t = Q2R (toQ t).
Proof. induction t as [q|a IH b _]; cbn; auto. Qed.
Lemma den_addq q t : forall env, den env (addq q t) = Q2R q + den env t.
Proof.
  induction t as [p|a IHa b IHb]; intros env; cbn [addq].
  - cbn [den]. rewrite Q2R_red, Q2R_plus. auto.
  - destruct env as [|g env]; [rewrite den_mkN_nil|rewrite den_mkN]; rewrite IHa; cbn [den]; ring.
Qed.
Lemma den_add x : forall y env, den env (add x y) = den env x + den env y.
Proof.
  induction x as [p|a IHa b IHb]; intros y env; cbn [add].
  - rewrite den_addq. destruct env; reflexivity.
  - destruct y as [q|c d].
    + rewrite den_addq. destruct env; cbn [den]; ring.
    + destruct env as [|g env]; [rewrite den_mkN_nil|rewrite den_mkN]; rewrite ?IHa, ?IHb; cbn [den]; ring.
Qed.
Lemma den_scale q t : forall env, den env (scale q t) = Q2R q * den env t.
Proof.
  induction t as [p|a IHa b IHb]; intros env; cbn [scale].
  - cbn [den]. rewrite Q2R_red, Q2R_mult. auto.
  - destruct env as [|g env]; [rewrite den_mkN_nil|rewrite den_mkN]; rewrite ?IHa, ?IHb; cbn [den]; ring.
Qed.
Lemma Q2R_IZR z : Q2R (inject_Z z) = IZR z.
Proof. unfold Q2R. cbn. field. Qed.
Lemma den_opp t env : den env (opp t) = - den env t.
Proof. unfold opp. rewrite den_scale. replace (Q2R (-1)) with (IZR (-1)) by (symmetry; apply (Q2R_IZR (-1))). ring. Qed.
Lemma den_mul rels : forall env x y, rels_ok rels env -> den env (mul rels x y) = den env x * den env y.
Proof.
  induction rels as [|s rels IH]; intros [|g env] x y H; try (cbn in H; tauto).
  - cbn [mul]. cbn [den]. rewrite Q2R_red, Q2R_mult, !den_toQ. auto.
  - cbn [rels_ok] in H. destruct H as [Hg H]. cbn [mul]. destruct x as [p|a b].
    + destruct (Qeq_bool p 0) eqn:E; [|rewrite den_scale; auto]. cbn [den]. rewrite (Qeq0 _ E), (Qeq0 0 eq_refl). ring.
    + destruct y as [q|c d].
      * destruct (Qeq_bool q 0) eqn:E; [|rewrite den_scale; cbn [den]; ring]. cbn [den]. rewrite (Qeq0 _ E), (Qeq0 0 eq_refl). ring.
      * rewrite den_mkN, !den_add, !IH by auto. cbn [den]. rewrite <- Hg. ring.
Qed.
Lemma iszero_den t : forall env, iszero t = true -> den env t = 0.
Proof.
  induction t as [q|a IHa b IHb]; intros env H; cbn [iszero] in H.
  - cbn [den]. apply Qeq0; auto.
  - apply andb_true_iff in H. destruct env; cbn [den]; [apply IHa; tauto|]. rewrite IHa, IHb by tauto. ring.
Qed.
Definition eqt (x y : tw) : bool := iszero (add x (opp y)).
Lemma eqt_den x y env : eqt x y = true -> den env x = den env y.
Proof. intros H. apply (iszero_den _ env) in H. rewrite den_add, den_opp in H. lra. Qed.

(** Expressions over the generators. *)
Inductive ex := EZ (z : Z) | EV (i : nat) | EAdd (a b : ex) | ESub (a b : ex) | EMul (a b : ex) | EOpp (a : ex) | EDiv (a b : ex) | EPow (a : ex) (n : nat).
Fixpoint eden (env : list R) (e : ex) : R :=
  match e with
  | EZ z => IZR z
  | EV i => nth i env 0
  | EAdd a b => eden env a + eden env b
  | ESub a b => eden env a - eden env b
  | EMul a b => eden env a * eden env b
  | EOpp a => - eden env a
  | EDiv a b => eden env a / eden env b
  | EPow a n => eden env a ^ n
  end.
Fixpoint tvar (m i : nat) : tw :=
  match m, i with
  | O, _ => Lf 0
  | S _, O => Nd (Lf 0) (Lf 1)
  | S m', S j => mkN (tvar m' j) (Lf 0)
  end.
Fixpoint tpow (rels : list tw) (x : tw) (n : nat) : tw :=
  match n with O => Lf 1 | S n' => mul rels x (tpow rels x n') end.
Fixpoint teval (rels : list tw) (e : ex) : option tw :=
  match e with
  | EZ z => Some (Lf (inject_Z z))
  | EV i => Some (tvar (length rels) i)
  | EAdd a b => match teval rels a, teval rels b with Some x, Some y => Some (add x y) | _, _ => None end
  | ESub a b => match teval rels a, teval rels b with Some x, Some y => Some (add x (opp y)) | _, _ => None end
  | EMul a b => match teval rels a, teval rels b with Some x, Some y => Some (mul rels x y) | _, _ => None end
  | EOpp a => match teval rels a with Some x => Some (opp x) | None => None end
  | EDiv a b =>
      match teval rels a, teval rels b with
      | Some x, Some y => let i := inv rels y in if eqt (mul rels y i) (Lf 1) then Some (mul rels x i) else None
      | _, _ => None
      end
  | EPow a n => match teval rels a with Some x => Some (tpow rels x n) | None => None end
  end.
Lemma rels_len rels : forall env, rels_ok rels env -> length rels = length env.
Proof. induction rels as [|s rels IH]; intros [|g env] H; cbn in H; try tauto. cbn. f_equal. apply IH. tauto. Qed.
Lemma Q2R_0 : Q2R 0 = 0. Proof. exact (Q2R_IZR 0). Qed.
Lemma Q2R_1 : Q2R 1 = 1. Proof. exact (Q2R_IZR 1). Qed.
Lemma den_tvar env : forall i, den env (tvar (length env) i) = nth i env 0.
Proof.
  induction env as [|g env IH]; intros i.
  - cbn [den tvar length]. rewrite Q2R_0. destruct i; auto.
  - destruct i as [|i]; cbn [length tvar nth].
    + cbn [den]. rewrite Q2R_0, Q2R_1. ring.
    + rewrite den_mkN, IH. cbn [den]. rewrite Q2R_0. ring.
Qed.
Lemma den_tpow rels env x n : rels_ok rels env -> den env (tpow rels x n) = den env x ^ n.
Proof. intros H. induction n as [|n IH]; cbn [tpow pow]; [cbn [den]; apply Q2R_1|]. rewrite den_mul, IH by auto. auto. Qed.
Theorem teval_sound rels env : rels_ok rels env -> forall e t, teval rels e = Some t -> den env t = eden env e.
Proof.
  intros H. induction e; intros t E; cbn [teval] in E.
  - injection E as <-. cbn [den eden]. apply Q2R_IZR.
  - injection E as <-. cbn [eden]. rewrite (rels_len _ _ H). apply den_tvar.
  - destruct (teval rels e1), (teval rels e2); try discriminate. injection E as <-. rewrite den_add, (IHe1 _ eq_refl), (IHe2 _ eq_refl). auto.
  - destruct (teval rels e1), (teval rels e2); try discriminate. injection E as <-. rewrite den_add, den_opp, (IHe1 _ eq_refl), (IHe2 _ eq_refl). auto.
  - destruct (teval rels e1), (teval rels e2); try discriminate. injection E as <-. rewrite den_mul, (IHe1 _ eq_refl), (IHe2 _ eq_refl) by auto. auto.
  - destruct (teval rels e); try discriminate. injection E as <-. rewrite den_opp, (IHe _ eq_refl). auto.
  - destruct (teval rels e1), (teval rels e2); try discriminate. cbn zeta in E. destruct (eqt _ _) eqn:Q; [|discriminate]. injection E as <-.
    apply (eqt_den _ _ env) in Q. rewrite den_mul in * by auto. rewrite (IHe1 _ eq_refl). rewrite (IHe2 _ eq_refl) in Q. cbn [den eden] in *. rewrite Q2R_1 in Q.
    unfold Rdiv. f_equal. assert (eden env e2 <> 0) by (intros Z; rewrite Z in Q; lra). apply (Rmult_eq_reg_l (eden env e2)); auto. rewrite Q. field; auto.
  - destruct (teval rels e); try discriminate. injection E as <-. rewrite den_tpow, (IHe _ eq_refl) by auto. auto.
Qed.

(** The generators' squares, given as expressions in the inner generators. *)
Fixpoint teval_rels (l : list ex) : option (list tw) :=
  match l with
  | [] => Some []
  | e :: l' => match teval_rels l' with
               | Some r => match teval r e with Some s => Some (s :: r) | None => None end
               | None => None
               end
  end.
Fixpoint gens_ok (l : list ex) (env : list R) : Prop :=
  match l, env with
  | [], [] => True
  | e :: l', g :: env' => g * g = eden env' e /\ gens_ok l' env'
  | _, _ => False
  end.
Lemma teval_rels_ok l : forall env r, gens_ok l env -> teval_rels l = Some r -> rels_ok r env.
Proof.
  induction l as [|e l IH]; intros [|g env] r H E; cbn [gens_ok] in H; try tauto; cbn [teval_rels] in E.
  - injection E as <-. exact I.
  - destruct H as [Hg H]. destruct (teval_rels l) as [r'|] eqn:E'; [|discriminate]. destruct (teval r' e) as [s|] eqn:Es; [|discriminate]. injection E as <-.
    specialize (IH _ _ H eq_refl). cbn [rels_ok]. split; auto. rewrite (teval_sound _ _ IH _ _ Es). auto.
Qed.

(** Single equations. *)
Definition check_eq (l : list ex) (a b : ex) : bool :=
  match teval_rels l with
  | Some r => match teval r a, teval r b with Some x, Some y => eqt x y | _, _ => false end
  | None => false
  end.
Theorem check_eq_sound l env a b : gens_ok l env -> check_eq l a b = true -> eden env a = eden env b.
Proof.
  intros H C. unfold check_eq in C. destruct (teval_rels l) as [r|] eqn:E; [|discriminate]. pose proof (teval_rels_ok _ _ _ H E) as O.
  destruct (teval r a) eqn:A; [|discriminate]. destruct (teval r b) eqn:B; [|discriminate].
  rewrite <- (teval_sound _ _ O _ _ A), <- (teval_sound _ _ O _ _ B). apply eqt_den; auto.
Qed.
(** Whether an expression denotes a nonzero number. *)
Definition check_nz (l : list ex) (a : ex) : bool :=
  match teval_rels l with Some r => match teval r (EDiv (EZ 1) a) with Some _ => true | None => false end | None => false end.
Theorem check_nz_sound l env a : gens_ok l env -> check_nz l a = true -> eden env a <> 0.
Proof.
  intros H C. unfold check_nz in C. destruct (teval_rels l) as [r|] eqn:E; [|discriminate]. pose proof (teval_rels_ok _ _ _ H E) as O.
  cbn [teval] in C. destruct (teval r a) as [y|] eqn:A; [|discriminate]. destruct (eqt _ _) eqn:Q in C; [|discriminate].
  apply (eqt_den _ _ env) in Q. rewrite den_mul in Q by auto. rewrite (teval_sound _ _ O _ _ A) in Q. cbn [den] in Q. rewrite Q2R_1 in Q. intros Z. rewrite Z in Q. lra.
Qed.

(** Rules. *)
Definition rden (env : list R) (q : list (ex * list ex)) : rule := map (fun wp => (eden env (fst wp), map (eden env) (snd wp))) q.
Fixpoint mapo {A B} (f : A -> option B) (l : list A) : option (list B) :=
  match l with
  | [] => Some []
  | x :: l' => match f x, mapo f l' with Some y, Some ys => Some (y :: ys) | _, _ => None end
  end.
Definition teval_rule (r : list tw) (q : list (ex * list ex)) : option (list (tw * list tw)) :=
  mapo (fun wp => match teval r (fst wp), mapo (teval r) (snd wp) with Some w, Some p => Some (w, p) | _, _ => None end) q.
Definition tden (env : list R) (q : list (tw * list tw)) : rule := map (fun wp => (den env (fst wp), map (den env) (snd wp))) q.
Lemma mapo_sound {A B C} (f : A -> option B) (g : B -> C) (h : A -> C) : (forall x y, f x = Some y -> g y = h x) ->
  forall l l', mapo f l = Some l' -> map g l' = map h l.
Proof.
  intros H. induction l as [|x l IH]; intros l' E; cbn [mapo] in E; [injection E as <-; auto|].
  destruct (f x) as [y|] eqn:Ex; [|discriminate]. destruct (mapo f l) as [ys|]; [|discriminate]. injection E as <-. cbn [map]. rewrite (H _ _ Ex), (IH _ eq_refl). auto.
Qed.
Lemma teval_rule_sound r env q t : rels_ok r env -> teval_rule r q = Some t -> tden env t = rden env q.
Proof.
  intros H E. unfold tden, rden. unfold teval_rule in E. revert E. apply mapo_sound. intros [w p] [w' p'] E. cbn [fst snd] in *.
  destruct (teval r w) as [x|] eqn:Ew; [|discriminate]. destruct (mapo (teval r) p) as [ps|] eqn:Ep; [|discriminate]. injection E as <- <-.
  rewrite (teval_sound _ _ H _ _ Ew). f_equal. revert Ep. apply mapo_sound. apply teval_sound; auto.
Qed.
Fixpoint tmono (r : list tw) (k : list nat) (x : list tw) : tw :=
  match k, x with
  | a :: k', t :: x' => match a with O => tmono r k' x' | _ => mul r (tpow r t a) (tmono r k' x') end
  | _, _ => Lf 1
  end.
Definition tapply (r : list tw) (q : list (tw * list tw)) (k : list nat) : tw :=
  fold_right (fun wp acc => add (mul r (fst wp) (tmono r k (snd wp))) acc) (Lf 0) q.
Lemma den_tmono r env : rels_ok r env -> forall k x, den env (tmono r k x) = mono k (map (den env) x).
Proof.
  intros H. induction k as [|a k IH]; intros x; [destruct x; cbn [den tmono mono map]; apply Q2R_1|]. destruct x as [|t x]; cbn [tmono mono map]; [cbn [den tmono mono map]; apply Q2R_1|].
  destruct a as [|a]; [rewrite IH; cbn [pow]; ring|]. rewrite den_mul, den_tpow, IH by auto. auto.
Qed.
Lemma den_tapply r env q k : rels_ok r env -> den env (tapply r q k) = apply (tden env q) (mono k).
Proof.
  intros H. unfold tapply, apply, tden. induction q as [|[w p] q IH]; cbn [fold_right map Rsum fst snd]; [cbn [den tmono mono map]; apply Q2R_0|].
  rewrite den_add, den_mul, den_tmono, IH by auto. auto.
Qed.

(** All exponent vectors of length n with total degree at most d. *)
Fixpoint exps (n d : nat) : list (list nat) :=
  match n with
  | O => [[]]
  | S n' => flat_map (fun a => map (cons a) (exps n' (d - a))) (seq 0 (S d))
  end.
Lemma exps_complete n : forall d k, length k = n -> (tdeg k <= d)%nat -> In k (exps n d).
Proof.
  induction n as [|n IH]; intros d k Hk Hd.
  - destruct k; [left; auto|discriminate].
  - destruct k as [|a k]; [discriminate|]. injection Hk as Hk. cbn [exps]. change (tdeg (a :: k)) with (a + tdeg k)%nat in Hd.
    apply in_flat_map. exists a. split; [apply in_seq; lia|]. apply in_map. apply IH; auto. lia.
Qed.
(** Checks: the points have n coordinates and the moments up to degree d are those of [I]. *)
Definition check_rule (l : list ex) (q : list (ex * list ex)) (n d : nat) (I : list nat -> Q) : bool :=
  match teval_rels l with
  | Some r =>
      match teval_rule r q with
      | Some t => forallb (fun wp => Nat.eqb (length (snd wp)) n) q && forallb (fun k => eqt (tapply r t k) (Lf (I k))) (exps n d)
      | None => false
      end
  | None => false
  end.
Theorem check_rule_sound l env q n d (I : list nat -> Q) (J : list nat -> R) : gens_ok l env -> check_rule l q n d I = true ->
  (forall k, length k = n -> (tdeg k <= d)%nat -> J k = Q2R (I k)) -> exact n d J (rden env q).
Proof.
  intros H C HJ. unfold check_rule in C. destruct (teval_rels l) as [r|] eqn:E; [|discriminate]. pose proof (teval_rels_ok _ _ _ H E) as O.
  destruct (teval_rule r q) as [t|] eqn:T; [|discriminate]. apply andb_true_iff in C. destruct C as [C1 C2]. split.
  - unfold points_in_dim, rden. rewrite Forall_map. apply Forall_forall. intros wp Hw. cbn. rewrite map_length.
    rewrite forallb_forall in C1. apply Nat.eqb_eq. apply C1. auto.
  - intros k Hk Hd. rewrite <- (teval_rule_sound _ _ _ _ O T), <- (den_tapply _ _ _ _ O), HJ by auto.
    rewrite forallb_forall in C2. specialize (C2 k (exps_complete _ _ _ Hk Hd)). apply (eqt_den _ _ env C2).
Qed.

(** Reification. *)
Ltac tw_is_Z z := lazymatch z with Z0 => idtac | Zpos ?p => tw_is_P p | Zneg ?p => tw_is_P p | _ => fail end
with tw_is_P p := lazymatch p with xH => idtac | xO ?q => tw_is_P q | xI ?q => tw_is_P q | _ => fail end.
Ltac tw_find x env :=
  lazymatch env with
  | x :: _ => constr:(O)
  | _ :: ?env' => let i := tw_find x env' in constr:(S i)
  end.
Ltac tw_reify env e :=
  lazymatch e with
  | ?a + ?b => let x := tw_reify env a in let y := tw_reify env b in constr:(EAdd x y)
  | ?a - ?b => let x := tw_reify env a in let y := tw_reify env b in constr:(ESub x y)
  | ?a * ?b => let x := tw_reify env a in let y := tw_reify env b in constr:(EMul x y)
  | ?a / ?b => let x := tw_reify env a in let y := tw_reify env b in constr:(EDiv x y)
  | - ?a => let x := tw_reify env a in constr:(EOpp x)
  | ?a ^ ?n => let x := tw_reify env a in constr:(EPow x n)
  | IZR ?z => constr:(EZ z)
  | R0 => constr:(EZ 0)
  | R1 => constr:(EZ 1)
  | _ => let i := tw_find e env in constr:(EV i)
  end.
Ltac tw_reify_list env l :=
  lazymatch l with
  | nil => constr:(@nil ex)
  | ?a :: ?l' => let x := tw_reify env a in let y := tw_reify_list env l' in constr:(x :: y)
  end.
Ltac tw_reify_rule env q :=
  lazymatch q with
  | nil => constr:(@nil (ex * list ex))
  | (?w, ?p) :: ?q' => let x := tw_reify env w in let y := tw_reify_list env p in let z := tw_reify_rule env q' in constr:((x, y) :: z)
  end.
(** The squares of the generators are looked up in hypotheses [g * g = e]. *)
Ltac tw_gens env :=
  lazymatch env with
  | nil => constr:(@nil ex)
  | ?g :: ?env' =>
      let l := tw_gens env' in
      let e := match goal with H : g * g = ?e |- _ => constr:(e) end in
      let x := tw_reify env' e in constr:(x :: l)
  end.
Ltac tw_gens_ok := cbn [gens_ok eden nth]; repeat split; assumption.
(** Solves an equation in the tower generated by [env] (innermost generator last). *)
Ltac tower_eq env :=
  let l := tw_gens env in
  lazymatch goal with
  | |- ?a = ?b =>
      let x := tw_reify env a in let y := tw_reify env b in
      change (eden env x = eden env y); apply (check_eq_sound l); [tw_gens_ok|vm_compute; reflexivity]
  end.
Ltac tower_nz env :=
  let l := tw_gens env in
  lazymatch goal with
  | |- ?a <> 0 => let x := tw_reify env a in change (eden env x <> 0); apply (check_nz_sound l); [tw_gens_ok|vm_compute; reflexivity]
  end.
(** Proves [exact n d J q] for an explicit q; I gives the moments as rationals. *)
Ltac tower_exact env I :=
  let l := tw_gens env in
  lazymatch goal with
  | |- exact ?n ?d ?J ?q =>
      let e := tw_reify_rule env q in
      change (exact n d J (rden env e)); apply (check_rule_sound l env e n d I J); [tw_gens_ok|vm_compute; reflexivity|]
  end.
