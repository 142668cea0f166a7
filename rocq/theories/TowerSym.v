(** The moment check of Tower.v with fewer monomials: symmetries of the rule are checked first, and on the simplex or the
    sphere only the highest degrees are needed. *)
From Coq Require Import Reals List Arith Lia Lra Bool ZArith QArith Qreals Permutation.
From Verif Require Import Spec RsumLemmas SchemeTools Tower.
Import ListNotations.
Set Bullet Behavior "Strict Subproofs".
Open Scope R_scope.

(** Equality of tower elements in normal form, and equality of lists of weighted points up to order. *)
Fixpoint tweqb (x y : tw) : bool :=
  match x, y with
  | Lf p, Lf q => Qeq_bool p q
  | Nd a b, Nd c d => if tweqb a c then tweqb b d else false
  | _, _ => false
  end.
Lemma tweqb_den x : forall y env, tweqb x y = true -> den env x = den env y.
Proof.
  induction x as [p|a IHa b IHb]; intros [q|c d] env H; cbn [tweqb] in H; try discriminate.
  - cbn [den]. apply Qeq_eqR. apply Qeq_bool_eq. auto.
  - destruct (tweqb a c) eqn:E; [|discriminate]. destruct env as [|g env]; cbn [den]; [apply IHa; auto|]. rewrite (IHa _ _ E), (IHb _ _ H). auto.
Qed.
Fixpoint tlistb (x y : list tw) : bool :=
  match x, y with
  | [], [] => true
  | a :: x', b :: y' => if tweqb a b then tlistb x' y' else false
  | _, _ => false
  end.
Lemma tlistb_den x : forall y env, tlistb x y = true -> map (den env) x = map (den env) y.
Proof.
  induction x as [|a x IH]; intros [|b y] env H; cbn [tlistb] in H; try discriminate; auto.
  destruct (tweqb a b) eqn:E; [|discriminate]. cbn [map]. rewrite (tweqb_den _ _ env E), (IH _ env H). auto.
Qed.
Definition wptb (a b : tw * list tw) : bool := if tlistb (snd a) (snd b) then tweqb (fst a) (fst b) else false.
Definition wden (env : list R) (wp : tw * list tw) : R * point := (den env (fst wp), map (den env) (snd wp)).
Lemma wptb_den a b env : wptb a b = true -> wden env a = wden env b.
Proof. unfold wptb, wden. destruct (tlistb _ _) eqn:E; [|discriminate]. intros H. rewrite (tweqb_den _ _ env H), (tlistb_den _ _ env E). auto. Qed.
Fixpoint remove1 (x : tw * list tw) (l : list (tw * list tw)) : option (list (tw * list tw)) :=
  match l with
  | [] => None
  | y :: l' => if wptb x y then Some l' else match remove1 x l' with Some r => Some (y :: r) | None => None end
  end.
Fixpoint permb (l l' : list (tw * list tw)) : bool :=
  match l with
  | [] => match l' with [] => true | _ => false end
  | x :: r => match remove1 x l' with Some r' => permb r r' | None => false end
  end.
Lemma remove1_perm env x l : forall r, remove1 x l = Some r -> Permutation (wden env x :: map (wden env) r) (map (wden env) l).
Proof.
  induction l as [|y l IH]; intros r H; cbn [remove1] in H; [discriminate|]. destruct (wptb x y) eqn:E.
  - injection H as <-. cbn [map]. rewrite (wptb_den _ _ env E). auto.
  - destruct (remove1 x l) as [r'|] eqn:E'; [|discriminate]. injection H as <-. cbn [map]. etransitivity; [apply perm_swap|]. apply perm_skip. apply IH; auto.
Qed.
Lemma permb_perm env l : forall l', permb l l' = true -> Permutation (map (wden env) l) (map (wden env) l').
Proof.
  induction l as [|x l IH]; intros l' H; cbn [permb] in H.
  - destruct l'; [auto|discriminate].
  - destruct (remove1 x l') as [r|] eqn:E; [|discriminate]. cbn [map]. etransitivity; [apply perm_skip, IH, H|]. apply remove1_perm. auto.
Qed.

(** Acting on coordinates and on exponents. *)
Fixpoint act {A} (f : A -> A) (i : nat) (l : list A) : list A :=
  match l, i with [], _ => [] | x :: l', O => f x :: l' | x :: l', S j => x :: act f j l' end.
Fixpoint swp {A} (i : nat) (l : list A) : list A :=
  match l, i with x :: y :: l', O => y :: x :: l' | x :: l', S j => x :: swp j l' | _, _ => l end.
Definition rotl {A} (l : list A) : list A := match l with [] => [] | x :: l' => l' ++ [x] end.
Definition on_pt {A} (g : list tw -> list tw) (wp : A * list tw) := (fst wp, g (snd wp)).
Lemma act_map {A B} (f : A -> A) (f' : B -> B) (h : A -> B) : (forall x, h (f x) = f' (h x)) -> forall l i, map h (act f i l) = act f' i (map h l).
Proof. intros H. induction l as [|x l IH]; intros [|i]; cbn [act map]; auto; [rewrite H; auto|rewrite IH; auto]. Qed.
Lemma swp_map {A B} (h : A -> B) : forall l i, map h (swp i l) = swp i (map h l).
Proof. induction l as [|x l IH]; intros [|i]; auto; [destruct l; auto|]. destruct l as [|y l]; [destruct i; auto|]. change (swp (S i) (x :: y :: l)) with (x :: swp i (y :: l)). cbn [map]. rewrite IH. auto. Qed.
Lemma rotl_map {A B} (h : A -> B) l : map h (rotl l) = rotl (map h l).
Proof. destruct l; cbn; auto. rewrite map_app. auto. Qed.
Lemma mono_neg k : forall x i, mono k (act Ropp i x) = (-1) ^ nth i k 0%nat * mono k x \/ (length x <= i)%nat \/ (length k <= i)%nat.
Proof.
  induction k as [|a k IH]; intros x i; [right; right; cbn; lia|]. destruct x as [|t x]; [right; left; cbn; lia|]. destruct i as [|i]; cbn [act mono nth length].
  - left. replace (- t) with (-1 * t) by ring. rewrite Rpow_mult_distr. ring.
  - destruct (IH x i) as [H|[H|H]]; [left; rewrite H; ring|right; left; lia|right; right; lia].
Qed.
Lemma mono_swp k : forall x i, length x = length k -> mono k (swp i x) = mono (swp i k) x.
Proof.
  induction k as [|a k IH]; intros x i L; [destruct x; [destruct i; auto|discriminate]|]. destruct x as [|t x]; [discriminate|]. injection L as L. destruct i as [|i].
  - destruct x as [|u x], k as [|b k]; try discriminate; auto. cbn [swp mono]. ring.
  - destruct x as [|u x], k as [|b k]; try discriminate; [destruct i; auto|]. cbn [swp mono]. rewrite <- (IH (u :: x)) by auto. auto.
Qed.
Lemma mono_app k : forall k' x x', length x = length k -> mono (k ++ k') (x ++ x') = mono k x * mono k' x'.
Proof. induction k as [|a k IH]; intros k' x x' L; destruct x as [|t x]; try discriminate; cbn [app mono]; [ring|]. rewrite IH by (cbn in L; lia). ring. Qed.
Lemma mono_rotl k x : length x = length k -> mono (rotl k) (rotl x) = mono k x.
Proof.
  destruct k as [|a k], x as [|t x]; intros L; try discriminate; auto. cbn [rotl]. rewrite mono_app by (cbn in L; lia). cbn [mono]. ring.
Qed.

(** Sums over invariant rules. *)
Lemma apply_map_pts (q : rule) (g : point -> point) f : apply (map (fun wp => (fst wp, g (snd wp))) q) f = apply q (fun x => f (g x)).
Proof. unfold apply. rewrite map_map. reflexivity. Qed.
Lemma apply_ext_in (q : rule) f g : (forall wp, In wp q -> f (snd wp) = g (snd wp)) -> apply q f = apply q g.
Proof. intros H. unfold apply. apply Rsum_map_ext. intros wp Hw. rewrite H; auto. Qed.
Lemma apply_scal_l (q : rule) c f : apply q (fun x => c * f x) = c * apply q f.
Proof. unfold apply. rewrite <- Rsum_map_scal. apply Rsum_map_ext. intros. ring. Qed.
Section Inv.
  Context (env : list R) (t : list (tw * list tw)) (n : nat) (dim : List.Forall (fun wp => length (snd wp) = n) t).
  Let q := map (wden env) t.
  Lemma q_dim wp : In wp q -> length (snd wp) = n.
  Proof. intros H. apply in_map_iff in H. destruct H as [y [<- Hy]]. cbn [wden snd]. rewrite map_length. rewrite Forall_forall in dim. apply dim. auto. Qed.
  Lemma inv_apply g (g' : point -> point) : (forall p, map (den env) (g p) = g' (map (den env) p)) -> permb t (map (on_pt g) t) = true ->
    forall f, apply q (fun x => f (g' x)) = apply q f.
  Proof.
    intros Hg H f. rewrite <- (apply_map_pts q g' f). apply apply_perm. apply Permutation_sym. apply (permb_perm env) in H. fold q in H.
    replace (map (fun wp => (fst wp, g' (snd wp))) q) with (map (wden env) (map (on_pt g) t)); auto.
    unfold q. rewrite !map_map. apply map_ext. intros [w p]. unfold wden, on_pt. cbn [fst snd]. rewrite Hg. auto.
  Qed.
  Lemma inv_neg i k : (i < n)%nat -> length k = n -> permb t (map (on_pt (act opp i)) t) = true -> Nat.odd (nth i k 0%nat) = true -> apply q (mono k) = 0.
  Proof.
    intros Hi Hk H Ho. apply (inv_apply (act opp i) (act Ropp i)) with (f := mono k) in H; [|intros; apply act_map; intros; apply den_opp].
    apply Nat.odd_spec in Ho. destruct Ho as [m Hm].
    rewrite (apply_ext_in q _ (fun x => -1 * mono k x)) in H.
    - rewrite apply_scal_l in H. lra.
    - intros wp Hw. apply q_dim in Hw. destruct (mono_neg k (snd wp) i) as [E|[E|E]]; try lia. rewrite E, Hm. replace (2 * m + 1)%nat with (S (2 * m)) by lia. rewrite pow_1_odd. ring.
  Qed.
  Lemma inv_swp i k : length k = n -> permb t (map (on_pt (swp i)) t) = true -> apply q (mono (swp i k)) = apply q (mono k).
  Proof.
    intros Hk H. rewrite <- (inv_apply (swp i) (swp i)) with (f := mono k) by (auto; intros; apply swp_map). apply apply_ext_in. intros wp Hw. symmetry. apply mono_swp. rewrite (q_dim _ Hw). auto.
  Qed.
  Lemma inv_rotl k : length k = n -> permb t (map (on_pt rotl) t) = true -> apply q (mono (rotl k)) = apply q (mono k).
  Proof.
    intros Hk H. rewrite <- (inv_apply rotl rotl) with (f := mono (rotl k)) by (auto; intros; apply rotl_map). apply apply_ext_in. intros wp Hw. apply mono_rotl. rewrite (q_dim _ Hw). auto.
  Qed.
End Inv.
Lemma swp_length {A} (l : list A) : forall i, length (swp i l) = length l.
Proof. induction l as [|x l IH]; intros [|i]; auto; [destruct l; auto|]. destruct l as [|y l]; [destruct i; auto|]. change (swp (S i) (x :: y :: l)) with (x :: swp i (y :: l)). cbn [length]. rewrite IH. auto. Qed.
Lemma rotl_length {A} (l : list A) : length (rotl l) = length l.
Proof. destruct l; auto. cbn [rotl length]. rewrite app_length. cbn. lia. Qed.
(** Every permutation is a sequence of adjacent swaps. *)
Lemma perm_swaps {A} (l l' : list A) : Permutation l l' -> exists js, l' = fold_right swp l js /\ List.Forall (fun j => (S j < length l)%nat) js.
Proof.
  induction 1 as [|x l l' P [js [E B]]|x y l|l m r P1 [js [E B]] P2 [js' [E' B']]].
  - exists []. auto.
  - exists (map S js). split.
    + rewrite E. clear. induction js as [|j js IH]; auto. cbn [map fold_right]. rewrite <- IH. destruct (fold_right swp l js); [destruct j|]; reflexivity.
    + rewrite Forall_map. eapply Forall_impl; [|exact B]. cbn [length]. intros. lia.
  - exists [0%nat]. split; auto. constructor; [cbn [length]; lia|constructor].
  - exists (js' ++ js). split; [rewrite fold_right_app, <- E; auto|]. apply Forall_app. split; auto. rewrite (Permutation_length P1). auto.
Qed.
Fixpoint insert (a : nat) (l : list nat) : list nat := match l with [] => [a] | b :: l' => if (b <=? a)%nat then a :: l else b :: insert a l' end.
Definition isort (l : list nat) : list nat := fold_right insert [] l.
Lemma insert_perm a l : Permutation (a :: l) (insert a l).
Proof. induction l as [|b l IH]; cbn [insert]; auto. destruct (b <=? a)%nat; auto. etransitivity; [apply perm_swap|]. apply perm_skip; auto. Qed.
Lemma isort_perm l : Permutation l (isort l).
Proof. induction l as [|a l IH]; auto. cbn [isort fold_right]. etransitivity; [apply perm_skip, IH|]. apply insert_perm. Qed.
(** The rotation with the largest first entries. *)
Fixpoint lexb (k l : list nat) : bool :=
  match k, l with a :: k', b :: l' => if (a =? b)%nat then lexb k' l' else (b <? a)%nat | _, _ => true end.
Fixpoint best_rot (j : nat) (k best : list nat) : list nat :=
  match j with O => best | S j' => let k' := rotl k in best_rot j' k' (if lexb best k' then best else k') end.
Lemma best_rot_inv (P : list nat -> Prop) j : (forall k, P k -> P (rotl k)) -> forall k b, P k -> P b -> P (best_rot j k b).
Proof. intros H. induction j as [|j IH]; intros k b Hk Hb; cbn [best_rot]; auto. apply IH; auto. destruct (lexb b (rotl k)); auto. Qed.
(** pm = 1: all permutations of the coordinates, pm = 2: their rotations, otherwise none. *)
Definition canon (pm : nat) (k : list nat) : list nat :=
  match pm with 1%nat => isort k | 2%nat => best_rot (length k) k k | _ => k end.
Definition inv_check (sg : bool) (pm n : nat) (t : list (tw * list tw)) : bool :=
  (if sg then forallb (fun i => permb t (map (on_pt (act opp i)) t)) (seq 0 n) else true) &&
  (match pm with
   | 1%nat => forallb (fun i => permb t (map (on_pt (swp i)) t)) (seq 0 (n - 1))
   | 2%nat => permb t (map (on_pt rotl) t)
   | _ => true
   end).
Fixpoint sumt (l : list tw) : tw := match l with [] => Lf 0 | x :: l' => add x (sumt l') end.
(** hm = 1: the coordinates add up to 1; hm = 2: their squares do. *)
Definition hom_check (hm : nat) (r : list tw) (t : list (tw * list tw)) : bool :=
  match hm with
  | 1%nat => forallb (fun wp => eqt (sumt (snd wp)) (Lf 1)) t
  | 2%nat => forallb (fun wp => eqt (sumt (map (fun x => mul r x x) (snd wp))) (Lf 1)) t
  | _ => true
  end.
Definition bump (hm i : nat) (k : list nat) : list nat := act (fun a => (a + hm)%nat) i k.
Fixpoint Qsum (l : list Q) : Q := match l with [] => 0%Q | x :: l' => Qred (x + Qsum l') end.
Fixpoint listeqb (k l : list nat) : bool := match k, l with [], [] => true | a :: k', b :: l' => if (a =? b)%nat then listeqb k' l' else false | _, _ => false end.
(** Evaluating equal expressions once, with tables of powers of the coordinates. *)
Fixpoint exeqb (a b : ex) : bool :=
  match a, b with
  | EZ x, EZ y => Z.eqb x y
  | EV i, EV j => Nat.eqb i j
  | EAdd a1 a2, EAdd b1 b2 | ESub a1 a2, ESub b1 b2 | EMul a1 a2, EMul b1 b2 | EDiv a1 a2, EDiv b1 b2 => if exeqb a1 b1 then exeqb a2 b2 else false
  | EOpp a1, EOpp b1 => exeqb a1 b1
  | EPow a1 m, EPow b1 n => if Nat.eqb m n then exeqb a1 b1 else false
  | _, _ => false
  end.
Lemma exeqb_eq a : forall b, exeqb a b = true -> a = b.
Proof.
  induction a as [z|i|a1 IH1 a2 IH2|a1 IH1 a2 IH2|a1 IH1 a2 IH2|a1 IH1|a1 IH1 a2 IH2|a1 IH1 m]; intros b H; destruct b as [z'|i'|b1 b2|b1 b2|b1 b2|b1|b1 b2|b1 m']; cbn [exeqb] in H; try discriminate.
  - apply Z.eqb_eq in H. subst. auto.
  - apply Nat.eqb_eq in H. subst. auto.
  - destruct (exeqb a1 b1) eqn:E; [|discriminate]. f_equal; auto.
  - destruct (exeqb a1 b1) eqn:E; [|discriminate]. f_equal; auto.
  - destruct (exeqb a1 b1) eqn:E; [|discriminate]. f_equal; auto.
  - f_equal; auto.
  - destruct (exeqb a1 b1) eqn:E; [|discriminate]. f_equal; auto.
  - destruct (Nat.eqb_spec m m'); [|discriminate]. subst. f_equal; auto.
Qed.
Fixpoint pows (r : list tw) (x cur : tw) (m : nat) : list tw := match m with O => [cur] | S m' => cur :: pows r x (mul r cur x) m' end.
Definition entry := (tw * list tw)%type.
Definition cache := list (ex * entry).
Fixpoint lookup (e : ex) (c : cache) : option entry := match c with [] => None | (e', v) :: c' => if exeqb e e' then Some v else lookup e c' end.
Definition meval (r : list tw) (d : nat) (e : ex) (c : cache) : option (entry * cache) :=
  match lookup e c with
  | Some v => Some (v, c)
  | None => match teval r e with Some x => let v := (x, pows r x (Lf 1) d) in Some (v, (e, v) :: c) | None => None end
  end.
Fixpoint mevals (r : list tw) (d : nat) (l : list ex) (c : cache) : option (list entry * cache) :=
  match l with
  | [] => Some ([], c)
  | e :: l' => match meval r d e c with
               | Some (v, c1) => match mevals r d l' c1 with Some (vs, c2) => Some (v :: vs, c2) | None => None end
               | None => None
               end
  end.
Fixpoint meval_rule (r : list tw) (d : nat) (q : list (ex * list ex)) (c : cache) : option (list (entry * list entry)) :=
  match q with
  | [] => Some []
  | (w, p) :: q' => match meval r d w c with
                    | Some (v, c1) => match mevals r d p c1 with
                                      | Some (vs, c2) => match meval_rule r d q' c2 with Some t => Some ((v, vs) :: t) | None => None end
                                      | None => None
                                      end
                    | None => None
                    end
  end.
Definition strip (t : list (entry * list entry)) : list (tw * list tw) := map (fun wp => (fst (fst wp), map fst (snd wp))) t.
Definition power (r : list tw) (x : entry) (a : nat) : tw := match nth_error (snd x) a with Some v => v | None => tpow r (fst x) a end.
Fixpoint pmono (r : list tw) (k : list nat) (x : list entry) : tw :=
  match k, x with
  | a :: k', t :: x' => match a with O => pmono r k' x' | _ => match pmono r k' x' with Lf q => if Qeq_bool q 0 then Lf 0 else mul r (power r t a) (Lf q) | y => mul r (power r t a) y end end
  | _, _ => Lf 1
  end.
Definition papply (r : list tw) (q : list (entry * list entry)) (k : list nat) : tw :=
  fold_right (fun wp acc => add (mul r (fst (fst wp)) (pmono r k (snd wp))) acc) (Lf 0) q.
Section Memo.
  Context (r : list tw) (env : list R) (H : rels_ok r env) (d : nat).
  Definition good (x : entry) : Prop := forall a v, nth_error (snd x) a = Some v -> den env v = den env (fst x) ^ a.
  Definition good_cache (c : cache) : Prop := List.Forall (fun ev => good (snd ev) /\ den env (fst (snd ev)) = eden env (fst ev)) c.
  Lemma pows_good x m : forall cur b a v, den env cur = den env x ^ b -> nth_error (pows r x cur m) a = Some v -> den env v = den env x ^ (a + b).
  Proof.
    induction m as [|m IH]; intros cur b a v Hc Ha; cbn [pows] in Ha; destruct a as [|a]; cbn [nth_error] in Ha; try (injection Ha as <-; exact Hc).
    - destruct a; discriminate.
    - replace (S a + b)%nat with (a + S b)%nat by lia. apply (IH (mul r cur x)); auto. rewrite den_mul by auto. rewrite Hc. cbn [pow]. ring.
  Qed.
  Lemma lookup_good e c v : good_cache c -> lookup e c = Some v -> good v /\ den env (fst v) = eden env e.
  Proof.
    induction c as [|[e' v'] c IH]; intros G E; cbn [lookup] in E; [discriminate|]. inversion G; subst. destruct (exeqb e e') eqn:X; auto. injection E as <-. apply exeqb_eq in X. subst. auto.
  Qed.
  Lemma meval_good e c v c' : good_cache c -> meval r d e c = Some (v, c') -> good_cache c' /\ good v /\ den env (fst v) = eden env e.
  Proof.
    unfold meval. intros G E. destruct (lookup e c) as [u|] eqn:L.
    - injection E as <- <-. split; auto. apply (lookup_good _ _ _ G L).
    - destruct (teval r e) as [x|] eqn:T; [|discriminate]. injection E as <- <-. pose proof (teval_sound _ _ H _ _ T) as S.
      assert (Gv : good (x, pows r x (Lf 1) d)). { intros a v Ha. cbn [fst snd] in *. replace a with (a + 0)%nat by lia. apply (pows_good x d (Lf 1)); auto. cbn [den pow]. apply Q2R_1. }
      repeat split; auto. constructor; auto.
  Qed.
  Lemma mevals_good l : forall c vs c', good_cache c -> mevals r d l c = Some (vs, c') ->
    good_cache c' /\ List.Forall good vs /\ map (fun v => den env (fst v)) vs = map (eden env) l.
  Proof.
    induction l as [|e l IH]; intros c vs c' G E; cbn [mevals] in E; [injection E as <- <-; auto|].
    destruct (meval r d e c) as [[v c1]|] eqn:E1; [|discriminate]. destruct (mevals r d l c1) as [[us c2]|] eqn:E2; [|discriminate]. injection E as <- <-.
    destruct (meval_good _ _ _ _ G E1) as [G1 [Gv Ev]]. destruct (IH _ _ _ G1 E2) as [G2 [Gs Es]]. repeat split; auto. cbn [map]. rewrite Ev, Es. auto.
  Qed.
  Lemma meval_rule_good q : forall c t, good_cache c -> meval_rule r d q c = Some t ->
    List.Forall (fun wp => List.Forall good (snd wp)) t /\ map (wden env) (strip t) = rden env q.
  Proof.
    induction q as [|[w p] q IH]; intros c t G E; cbn [meval_rule] in E; [injection E as <-; auto|].
    destruct (meval r d w c) as [[v c1]|] eqn:E1; [|discriminate]. destruct (mevals r d p c1) as [[us c2]|] eqn:E2; [|discriminate].
    destruct (meval_rule r d q c2) as [t'|] eqn:E3; [|discriminate]. injection E as <-.
    destruct (meval_good _ _ _ _ G E1) as [G1 [Gv Ev]]. destruct (mevals_good _ _ _ _ G1 E2) as [G2 [Gs Es]]. destruct (IH _ _ G2 E3) as [Gt Et].
    split; [constructor; auto|]. change (map (wden env) (strip ((v, us) :: t'))) with ((den env (fst v), map (den env) (map fst us)) :: map (wden env) (strip t')).
    change (rden env ((w, p) :: q)) with ((eden env w, map (eden env) p) :: rden env q). rewrite Et, Ev, map_map, Es. reflexivity.
  Qed.
  Lemma den_power x a : good x -> den env (power r x a) = den env (fst x) ^ a.
  Proof. intros G. unfold power. destruct (nth_error (snd x) a) eqn:E; [apply G; auto|]. apply den_tpow. auto. Qed.
  Lemma den_pmono k : forall x, List.Forall good x -> den env (pmono r k x) = mono k (map (fun t => den env (fst t)) x).
  Proof.
    induction k as [|a k IH]; intros x G; [cbn [pmono mono den]; apply Q2R_1|]. destruct x as [|t x]; cbn [pmono mono map]; [cbn [den]; apply Q2R_1|]. inversion G; subst.
    destruct a as [|a]; [rewrite IH by auto; cbn [pow]; ring|]. rewrite <- (IH x) by auto. destruct (pmono r k x) as [q|u v].
    - destruct (Qeq_bool q 0) eqn:E; [|rewrite den_mul, den_power by auto; auto]. apply Qeq_bool_eq in E. cbn [den]. rewrite (Qeq_eqR _ _ E), Q2R_0. ring.
    - rewrite den_mul, den_power by auto. auto.
  Qed.
  Lemma den_papply q k : List.Forall (fun wp => List.Forall good (snd wp)) q -> den env (papply r q k) = apply (map (wden env) (strip q)) (mono k).
  Proof.
    intros G. unfold papply, apply. induction q as [|wp q IH]; cbn [fold_right strip map Rsum]; [cbn [den]; apply Q2R_0|]. inversion G; subst.
    rewrite den_add, den_mul by auto. rewrite IH by auto. fold (strip q). rewrite den_pmono by auto. cbn [wden fst snd]. rewrite (map_map fst (den env)). reflexivity.
  Qed.
End Memo.
Definition check_one (sg : bool) (pm hm : nat) (r : list tw) (t : list (entry * list entry)) (n d : nat) (I : list nat -> Q) (k : list nat) : bool :=
  if (negb (hm =? 0)%nat && (hm <=? 2)%nat && (tdeg k + hm <=? d)%nat)%bool then Qeq_bool (I k) (Qsum (map (fun i => I (bump hm i k)) (seq 0 n)))
  else if (sg && existsb Nat.odd k)%bool then Qeq_bool (I k) 0
  else if listeqb (canon pm k) k then eqt (papply r t k) (Lf (I k))
  else Qeq_bool (I k) (I (canon pm k)) && listeqb (canon pm (canon pm k)) (canon pm k).
Definition check_sym (sg : bool) (pm hm : nat) (l : list ex) (q : list (ex * list ex)) (n d : nat) (I : list nat -> Q) : bool :=
  match teval_rels l with
  | Some r =>
      match meval_rule r d q [] with
      | Some T => let t := strip T in
          forallb (fun wp => Nat.eqb (length (snd wp)) n) q && forallb (fun wp => Nat.eqb (length (snd wp)) n) t &&
          inv_check sg pm n t && hom_check hm r t && forallb (check_one sg pm hm r T n d I) (exps n d)
      | None => false
      end
  | None => false
  end.
Lemma listeqb_eq k : forall l, listeqb k l = true -> k = l.
Proof. induction k as [|a k IH]; intros [|b l] H; cbn [listeqb] in H; try discriminate; auto. destruct (Nat.eqb_spec a b); [|discriminate]. subst. f_equal. auto. Qed.
Lemma Qsum_R l : Q2R (Qsum l) = Rsum (map Q2R l).
Proof. induction l as [|x l IH]; cbn [Qsum map Rsum]; [apply Q2R_0|]. rewrite Q2R_red, Q2R_plus, IH. auto. Qed.
Lemma den_sumt env l : den env (sumt l) = Rsum (map (den env) l).
Proof. induction l as [|x l IH]; cbn [sumt map Rsum]; [cbn [den]; apply Q2R_0|]. rewrite den_add, IH. auto. Qed.
Lemma canon_ok env t n pm sg k : List.Forall (fun wp => length (snd wp) = n) t -> inv_check sg pm n t = true -> length k = n ->
  length (canon pm k) = n /\ tdeg (canon pm k) = tdeg k /\ apply (map (wden env) t) (mono (canon pm k)) = apply (map (wden env) t) (mono k).
Proof.
  intros D H Hk. unfold inv_check in H. apply andb_true_iff in H. destruct H as [_ H]. destruct pm as [|[|[|pm]]]; cbn [canon]; auto.
  - pose proof (isort_perm k) as P. repeat split.
    + rewrite <- (Permutation_length P). auto.
    + symmetry. apply tdeg_perm. auto.
    + destruct (perm_swaps _ _ P) as [js [-> B]]. rewrite Hk in B. clear P. induction js as [|j js IH]; auto. inversion B; subst. cbn [fold_right].
      rewrite forallb_forall in H. rewrite (inv_swp env t (length k) D); [apply IH; auto| |apply H; apply in_seq; lia].
      clear -js. induction js as [|i js IH]; auto. cbn [fold_right]. rewrite swp_length. auto.
  - apply (best_rot_inv (fun b => length b = n /\ tdeg b = tdeg k /\ apply (map (wden env) t) (mono b) = apply (map (wden env) t) (mono k))); [|auto..].
    intros b [L [T E]]. repeat split.
    + rewrite rotl_length. auto.
    + rewrite <- T. destruct b as [|x b]; auto. unfold tdeg. cbn [rotl]. rewrite list_sum_app. cbn [list_sum fold_right]. change (fold_right Nat.add 0%nat b) with (list_sum b). lia.
    + rewrite (inv_rotl env t n D) by auto. auto.
Qed.
Lemma bump_length hm i k : length (bump hm i k) = length k.
Proof. unfold bump. revert i. induction k as [|a k IH]; intros [|i]; cbn [act length]; auto. Qed.
Lemma bump_tdeg hm i k : (i < length k)%nat -> tdeg (bump hm i k) = (tdeg k + hm)%nat.
Proof. unfold bump, tdeg. revert i. induction k as [|a k IH]; intros [|i] H; cbn [act length list_sum fold_right] in *; try lia. change (fold_right Nat.add 0%nat) with list_sum. rewrite IH by lia. lia. Qed.
Lemma mono_bump hm k : forall i x, (i < length k)%nat -> length x = length k -> mono (bump hm i k) x = nth i x 0 ^ hm * mono k x.
Proof.
  unfold bump. induction k as [|a k IH]; intros [|i] x H L; cbn [length] in *; try lia; destruct x as [|u x]; try discriminate; cbn [act mono nth].
  - rewrite pow_add. ring.
  - rewrite IH by (cbn in L; lia). ring.
Qed.
Lemma Rsum_nth_pow (x : list R) hm : Rsum (map (fun i => nth i x 0 ^ hm) (seq 0 (length x))) = Rsum (map (fun u => u ^ hm) x).
Proof.
  induction x as [|u x IH]; auto. cbn [length seq map Rsum nth]. f_equal. rewrite <- IH, <- seq_shift, map_map. auto.
Qed.
Theorem check_sym_sound sg pm hm l env q n d (I : list nat -> Q) (J : list nat -> R) : gens_ok l env -> check_sym sg pm hm l q n d I = true ->
  (forall k, length k = n -> (tdeg k <= d)%nat -> J k = Q2R (I k)) -> exact n d J (rden env q).
Proof.
  intros H C HJ. unfold check_sym in C. destruct (teval_rels l) as [r|] eqn:E; [|discriminate]. pose proof (teval_rels_ok _ _ _ H E) as O.
  destruct (meval_rule r d q []) as [T|] eqn:ET; [|discriminate]. cbv zeta in C.
  assert (G0 : good_cache env []) by constructor. destruct (meval_rule_good r env O d q [] T G0 ET) as [GT RT]. set (t := strip T) in *. apply andb_true_iff in C. destruct C as [C C2]. apply andb_true_iff in C. destruct C as [C Ch].
  apply andb_true_iff in C. destruct C as [C Ci]. apply andb_true_iff in C. destruct C as [C1 Ct]. split.
  - unfold points_in_dim, rden. rewrite Forall_map. apply Forall_forall. intros wp Hw. cbn. rewrite map_length.
    rewrite forallb_forall in C1. apply Nat.eqb_eq. apply C1. auto.
  - assert (D : List.Forall (fun wp => length (snd wp) = n) t) by (apply Forall_forall; rewrite forallb_forall in Ct; intros wp Hw; apply Nat.eqb_eq; auto).
    rewrite <- RT.
    assert (G : forall m k, length k = n -> (tdeg k <= d)%nat -> (d - tdeg k <= m)%nat -> apply (map (wden env) t) (mono k) = Q2R (I k)).
    { induction m as [m IH] using lt_wf_ind. intros k Hk Hd Hm. rewrite forallb_forall in C2. pose proof (C2 k (exps_complete _ _ _ Hk Hd)) as Q. unfold check_one in Q.
      destruct (negb (hm =? 0)%nat && (hm <=? 2)%nat && (tdeg k + hm <=? d)%nat)%bool eqn:B.
      { apply andb_true_iff in B. destruct B as [B B3]. apply andb_true_iff in B. destruct B as [B1 B2]. apply negb_true_iff in B1. apply Nat.eqb_neq in B1. apply Nat.leb_le in B2, B3.
        apply Qeq_bool_eq in Q. rewrite (Qeq_eqR _ _ Q), Qsum_R, map_map. rewrite (Rsum_map_ext _ (fun i => apply (map (wden env) t) (mono (bump hm i k)))).
        2:{ intros i Hi. apply in_seq in Hi. symmetry. apply (IH (d - tdeg k - hm)%nat); [lia|rewrite bump_length; auto|rewrite bump_tdeg by lia; lia|rewrite bump_tdeg by lia; lia]. }
        unfold apply at 2. rewrite (Rsum_swap (fun i wp => fst wp * mono (bump hm i k) (snd wp))). unfold apply. apply Rsum_map_ext. intros wp Hw. pose proof (q_dim env t n D wp Hw) as L.
        rewrite Rsum_map_scal. f_equal. rewrite (Rsum_map_ext _ (fun i => nth i (snd wp) 0 ^ hm * mono k (snd wp))) by (intros i Hi; apply in_seq in Hi; apply mono_bump; lia).
        rewrite Rsum_map_scal_r. replace (Rsum (map (fun i => nth i (snd wp) 0 ^ hm) (seq 0 n))) with 1; [ring|]. rewrite <- L, Rsum_nth_pow.
        apply in_map_iff in Hw. destruct Hw as [[w p] [<- Hw]]. cbn [wden snd]. unfold hom_check in Ch. destruct hm as [|[|[|hm]]]; try lia; rewrite forallb_forall in Ch; specialize (Ch _ Hw); cbn [snd] in Ch;
          apply (eqt_den _ _ env) in Ch; rewrite den_sumt in Ch; cbn [den] in Ch; rewrite Q2R_1 in Ch.
        - rewrite <- Ch, map_map. apply Rsum_map_ext. intros; ring.
        - rewrite <- Ch, !map_map. apply Rsum_map_ext. intros u _. rewrite den_mul by auto. ring. }
      destruct (sg && existsb Nat.odd k)%bool eqn:B'.
      { apply andb_true_iff in B'. destruct B' as [-> B']. apply existsb_exists in B'. destruct B' as [a [Ha Oa]]. destruct (In_nth _ _ 0%nat Ha) as [i [Hi Ei]].
        apply Qeq_bool_eq in Q. rewrite (Qeq_eqR _ _ Q), Q2R_0. unfold inv_check in Ci. apply andb_true_iff in Ci. destruct Ci as [Ci _]. rewrite forallb_forall in Ci.
        apply (inv_neg env t n D i); [lia|auto|apply Ci; apply in_seq; lia|rewrite Ei; auto]. }
      destruct (listeqb (canon pm k) k) eqn:B3.
      { apply (eqt_den _ _ env) in Q. rewrite (den_papply r env O T k GT) in Q. exact Q. }
      apply andb_true_iff in Q. destruct Q as [Q Q2]. apply Qeq_bool_eq in Q. rewrite (Qeq_eqR _ _ Q). destruct (canon_ok env t n pm sg k D Ci Hk) as [L [Td A]]. rewrite <- A.
      set (k' := canon pm k) in *. assert (Hd' : (tdeg k' <= d)%nat) by lia. pose proof (C2 k' (exps_complete _ _ _ L Hd')) as Q'. unfold check_one in Q'. rewrite Td, B in Q'.
      destruct (sg && existsb Nat.odd k')%bool eqn:B4.
      { apply andb_true_iff in B4. destruct B4 as [-> B4]. apply existsb_exists in B4. destruct B4 as [a [Ha Oa]]. destruct (In_nth _ _ 0%nat Ha) as [i [Hi Ei]].
        apply Qeq_bool_eq in Q'. rewrite (Qeq_eqR _ _ Q'), Q2R_0. unfold inv_check in Ci. apply andb_true_iff in Ci. destruct Ci as [Ci _]. rewrite forallb_forall in Ci.
        apply (inv_neg env t n D i); [lia|auto|apply Ci; apply in_seq; lia|rewrite Ei; auto]. }
      rewrite Q2 in Q'. apply (eqt_den _ _ env) in Q'. rewrite (den_papply r env O T k' GT) in Q'. exact Q'. }
    intros k Hk Hd. rewrite HJ by auto. apply (G (d - tdeg k)%nat); auto.
Qed.
Ltac tower_sym sg pm hm env I :=
  let l := tw_gens env in
  lazymatch goal with
  | |- exact ?n ?d ?J ?q =>
      let e := tw_reify_rule env q in
      change (exact n d J (rden env e)); apply (check_sym_sound sg pm hm l env e n d I J); [tw_gens_ok|vm_compute; reflexivity|]
  end.
