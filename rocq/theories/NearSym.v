(** The check of NearTools.v with fewer monomials: the rule is first checked to be invariant under some reflections and
    some exchanges of neighbouring coordinates. *)
From Coq Require Import Reals List Arith Lia Lra Bool ZArith QArith Qreals Permutation.
From Verif Require Import Spec RsumLemmas SchemeTools Tower TowerSym TowerMoments NearTools.
Import ListNotations.
Set Bullet Behavior "Strict Subproofs".
Open Scope R_scope.

Fixpoint exeqb (a b : ex) : bool :=
  match a, b with
  | EZ x, EZ y => Z.eqb x y
  | EV i, EV j => Nat.eqb i j
  | EAdd a1 a2, EAdd b1 b2 | ESub a1 a2, ESub b1 b2 | EMul a1 a2, EMul b1 b2 | EDiv a1 a2, EDiv b1 b2 => if exeqb a1 b1 then exeqb a2 b2 else false
  | EOpp a1, EOpp b1 => exeqb a1 b1
  | EPow a1 n, EPow b1 m => if Nat.eqb n m then exeqb a1 b1 else false
  | _, _ => false
  end.
Lemma exeqb_eq a : forall b, exeqb a b = true -> a = b.
Proof.
  induction a; intros [] H; cbn [exeqb] in H; try discriminate;
    repeat match type of H with (if ?c then _ else _) = true => destruct c eqn:?; [|discriminate] end;
    repeat match goal with
      | H : Z.eqb _ _ = true |- _ => apply Z.eqb_eq in H; subst
      | H : Nat.eqb _ _ = true |- _ => apply Nat.eqb_eq in H; subst
      | IH : forall b, exeqb ?a b = true -> _, H : exeqb ?a _ = true |- _ => apply IH in H; subst
      end; auto.
Qed.
Fixpoint exlistb (x y : list ex) : bool :=
  match x, y with
  | [], [] => true
  | a :: x', b :: y' => if exeqb a b then exlistb x' y' else false
  | _, _ => false
  end.
Lemma exlistb_eq x : forall y, exlistb x y = true -> x = y.
Proof.
  induction x as [|a x IH]; intros [|b y] H; cbn [exlistb] in H; try discriminate; auto.
  destruct (exeqb a b) eqn:E; [|discriminate]. apply exeqb_eq in E. apply IH in H. congruence.
Qed.
Definition exwptb (a b : ex * list ex) : bool := if exlistb (snd a) (snd b) then exeqb (fst a) (fst b) else false.
Fixpoint exremove (x : ex * list ex) (l : list (ex * list ex)) : option (list (ex * list ex)) :=
  match l with
  | [] => None
  | y :: l' => if exwptb x y then Some l' else match exremove x l' with Some r => Some (y :: r) | None => None end
  end.
Fixpoint experm (l l' : list (ex * list ex)) : bool :=
  match l with
  | [] => match l' with [] => true | _ => false end
  | x :: r => match exremove x l' with Some r' => experm r r' | None => false end
  end.
Lemma exremove_perm x l : forall r, exremove x l = Some r -> Permutation (x :: r) l.
Proof.
  induction l as [|y l IH]; intros r H; cbn [exremove] in H; [discriminate|]. destruct (exwptb x y) eqn:E.
  - injection H as <-. unfold exwptb in E. destruct (exlistb (snd x) (snd y)) eqn:E'; [|discriminate]. apply exlistb_eq in E'. apply exeqb_eq in E.
    destruct x, y. cbn in *. subst. auto.
  - destruct (exremove x l) as [r'|] eqn:E'; [|discriminate]. injection H as <-. etransitivity; [apply perm_swap|]. apply perm_skip. apply IH; auto.
Qed.
Lemma experm_perm l : forall l', experm l l' = true -> Permutation l l'.
Proof.
  induction l as [|x l IH]; intros l' H; cbn [experm] in H.
  - destruct l'; [auto|discriminate].
  - destruct (exremove x l') as [r|] eqn:E; [|discriminate]. etransitivity; [apply perm_skip, IH, H|]. apply exremove_perm. auto.
Qed.
Definition exopp (e : ex) : ex := match e with EOpp x => x | EZ 0 => EZ 0 | _ => EOpp e end.
Lemma exopp_den env e : eden env (exopp e) = - eden env e.
Proof. destruct e as [[]| | | | | | |]; cbn [exopp eden]; try ring. Qed.
Definition on_ex (g : list ex -> list ex) (wp : ex * list ex) := (fst wp, g (snd wp)).
Definition exden (env : list R) (wp : ex * list ex) : R * point := (eden env (fst wp), map (eden env) (snd wp)).
Lemma rden_map env q : rden env q = map (exden env) q.
Proof. reflexivity. Qed.
Section Inv.
  Context (env : list R) (t : list (ex * list ex)) (n : nat) (dim : points_in_dim n (rden env t)).
  Let q := rden env t.
  Lemma ex_dim wp : In wp q -> length (snd wp) = n.
  Proof. intros H. unfold points_in_dim in dim. rewrite Forall_forall in dim. apply dim. auto. Qed.
  Lemma exinv_apply g (g' : point -> point) : (forall p, map (eden env) (g p) = g' (map (eden env) p)) -> experm t (map (on_ex g) t) = true ->
    forall f, apply q (fun x => f (g' x)) = apply q f.
  Proof.
    intros Hg H f. rewrite <- (apply_map_pts q g' f). apply apply_perm. apply Permutation_sym. apply experm_perm, (Permutation_map (exden env)) in H. fold q in H.
    replace (map (fun wp => (fst wp, g' (snd wp))) q) with (map (exden env) (map (on_ex g) t)); auto.
    unfold q. rewrite rden_map, !map_map. apply map_ext. intros [w p]. unfold exden, on_ex. cbn [fst snd]. rewrite Hg. auto.
  Qed.
  Lemma exinv_neg i k : (i < n)%nat -> length k = n -> experm t (map (on_ex (act exopp i)) t) = true -> Nat.odd (nth i k 0%nat) = true -> apply q (mono k) = 0.
  Proof.
    intros Hi Hk H Ho. apply (exinv_apply (act exopp i) (act Ropp i)) with (f := mono k) in H; [|intros; apply act_map; intros; apply exopp_den].
    apply Nat.odd_spec in Ho. destruct Ho as [m Hm].
    rewrite (apply_ext_in q _ (fun x => -1 * mono k x)) in H.
    - rewrite apply_scal_l in H. lra.
    - intros wp Hw. apply ex_dim in Hw. destruct (mono_neg k (snd wp) i) as [E|[E|E]]; try lia. rewrite E, Hm. replace (2 * m + 1)%nat with (S (2 * m)) by lia. rewrite pow_1_odd. ring.
  Qed.
  Lemma exinv_swp i k : length k = n -> experm t (map (on_ex (swp i)) t) = true -> apply q (mono (swp i k)) = apply q (mono k).
  Proof.
    intros Hk H. rewrite <- (exinv_apply (swp i) (swp i)) with (f := mono k) by (auto; intros; apply swp_map). apply apply_ext_in. intros wp Hw. symmetry. apply mono_swp. rewrite (ex_dim _ Hw). auto.
  Qed.
End Inv.

(** Monomials that need no check: odd in a reflected coordinate, or with neighbouring exponents to be exchanged. *)
Definition skips (sg sw : list nat) (k : list nat) : bool :=
  existsb (fun i => Nat.odd (nth i k 0%nat)) sg || existsb (fun i => (nth i k 0 <? nth (S i) k 0)%nat) sw.
Fixpoint wsum (i : nat) (k : list nat) : nat := match k with [] => 0%nat | a :: k' => (i * a + wsum (S i) k')%nat end.
Lemma swp_wsum k : forall i j, (nth i k 0 < nth (S i) k 0)%nat -> (wsum j (swp i k) < wsum j k)%nat.
Proof.
  induction k as [|a k IH]; intros i j H; [destruct i; cbn in H; lia|]. destruct i as [|i].
  - destruct k as [|b k]; cbn in H; [lia|]. cbn [swp wsum]. lia.
  - cbn [nth] in H. assert (E : swp (S i) (a :: k) = a :: swp i k) by (destruct k; [destruct i|]; reflexivity). rewrite E. cbn [wsum]. specialize (IH i (S j) H). lia.
Qed.
Lemma swp_perm {A} (l : list A) : forall i, Permutation l (swp i l).
Proof.
  induction l as [|x l IH]; intros i; [destruct i; auto|]. destruct i as [|i].
  - destruct l; auto. apply perm_swap.
  - replace (swp (S i) (x :: l)) with (x :: swp i l) by (destruct l; [destruct i|]; reflexivity). auto.
Qed.
Lemma list_sum_perm (l l' : list nat) : Permutation l l' -> list_sum l = list_sum l'.
Proof. induction 1; cbn [list_sum fold_right] in *; try lia; unfold list_sum in *; cbn; lia. Qed.
Definition sym_moments (sg sw : list nat) (n : nat) (I : list nat -> Q) : Prop :=
  (forall i k, In i sg -> length k = n -> Nat.odd (nth i k 0%nat) = true -> Q2R (I k) = 0) /\
  (forall i k, In i sw -> length k = n -> Q2R (I (swp i k)) = Q2R (I k)).
Lemma sym_reduce (F : list nat -> R) I sg sw n d t :
  sym_moments sg sw n I ->
  (forall i k, In i sg -> length k = n -> Nat.odd (nth i k 0%nat) = true -> F k = 0) ->
  (forall i k, In i sw -> length k = n -> F (swp i k) = F k) ->
  0 <= t ->
  (forall k, length k = n -> (tdeg k <= d)%nat -> skips sg sw k = false -> Rabs (F k - Q2R (I k)) <= t) ->
  forall k, length k = n -> (tdeg k <= d)%nat -> Rabs (F k - Q2R (I k)) <= t.
Proof.
  intros [MO MS] HO HS Ht H. assert (G : forall m k, (wsum 0 k < m)%nat -> length k = n -> (tdeg k <= d)%nat -> Rabs (F k - Q2R (I k)) <= t).
  { induction m as [|m IH]; intros k Hm Lk Dk; [lia|]. destruct (skips sg sw k) eqn:E; [|auto]. unfold skips in E. apply orb_prop in E. destruct E as [E|E]; apply existsb_exists in E; destruct E as [i [Hi E]].
    - rewrite (HO i), (MO i) by auto. rewrite Rminus_0_r, Rabs_R0. auto.
    - apply Nat.ltb_lt in E. rewrite <- (HS i), <- (MS i) by auto. apply IH.
      + pose proof (swp_wsum k i 0 E). lia.
      + rewrite swp_length. auto.
      + unfold tdeg in *. rewrite <- (list_sum_perm _ _ (swp_perm k i)). auto. }
  intros k Lk Dk. apply (G (S (wsum 0 k))); auto.
Qed.

(** The monomials to check, and their values times w: per coordinate, whether only even exponents matter and whether the
    exponent is at most the previous one. *)
Fixpoint kgen (ps : list (bool * bool)) (d prev : nat) : list (list nat) :=
  match ps with
  | [] => [[]]
  | (ev, le) :: ps' =>
      (fix go (j a : nat) : list (list nat) :=
        if le && (prev <? a)%nat then [] else
        map (cons a) (kgen ps' j a) ++
        match j with O => [] | S j' => if ev then match j' with O => [] | S j'' => go j'' (S (S a)) end else go j' (S a) end) d O
  end.
Fixpoint bgen (ps : list (bool * bool)) (p : list ball) (d prev : nat) (w : ball) : list ball :=
  match ps, p with
  | (ev, le) :: ps', x :: p' =>
      let y := if ev then bmul x x else x in
      (fix go (j a : nat) (w : ball) : list ball :=
        if le && (prev <? a)%nat then [] else
        bgen ps' p' j a w ++
        match j with O => [] | S j' => if ev then match j' with O => [] | S j'' => go j'' (S (S a)) (bmul w y) end else go j' (S a) (bmul w y) end) d O w
  | _, _ => [w]
  end.
Lemma bgen_cons ks bs v t a x : Forall2 (fun k b => bok b (v * t ^ a * mono k x)) ks bs -> Forall2 (fun k b => bok b (v * mono k (t :: x))) (map (cons a) ks) bs.
Proof. induction 1; cbn [map]; constructor; auto. cbn [mono]. rewrite <- Rmult_assoc. auto. Qed.
Lemma bgen_ok ps : forall p x d prev w v, Forall2 bok p x -> length x = length ps -> bok w v ->
  Forall2 (fun k b => bok b (v * mono k x)) (kgen ps d prev) (bgen ps p d prev w).
Proof.
  induction ps as [|[ev le] ps IH]; intros p x d prev w v Hp L Hw.
  - cbn. constructor; [|constructor]. rewrite Rmult_1_r. auto.
  - destruct Hp as [|b t p x Ht Hp]; [discriminate|]. injection L as L. cbn [kgen bgen]. set (y := if ev then bmul b b else b).
    enough (G : forall m j a w, (j <= m)%nat -> bok w (v * t ^ a) -> Forall2 (fun k b => bok b (v * mono k (t :: x)))
      ((fix go (j a : nat) : list (list nat) :=
        if le && (prev <? a)%nat then [] else
        map (cons a) (kgen ps j a) ++
        match j with O => [] | S j' => if ev then match j' with O => [] | S j'' => go j'' (S (S a)) end else go j' (S a) end) j a)
      ((fix go (j a : nat) (w : ball) : list ball :=
        if le && (prev <? a)%nat then [] else
        bgen ps p j a w ++
        match j with O => [] | S j' => if ev then match j' with O => [] | S j'' => go j'' (S (S a)) (bmul w y) end else go j' (S a) (bmul w y) end) j a w)).
    { apply (G d); auto. cbn [pow]. rewrite Rmult_1_r. auto. }
    clear Hw w. induction m as [|m IHm]; intros j a w Hj Hw; destruct j as [|j]; try lia; destruct (le && (prev <? a)%nat); try constructor; apply Forall2_app; try constructor; try (apply bgen_cons, IH; auto).
    destruct ev.
    + destruct j as [|j]; [constructor|]. apply IHm; [lia|]. replace (v * t ^ S (S a)) with (v * t ^ a * (t * t)) by (cbn [pow]; ring). apply bmul_ok; auto. apply bmul_ok; auto.
    + apply IHm; [lia|]. replace (v * t ^ S a) with (v * t ^ a * t) by (cbn [pow]; ring). apply bmul_ok; auto.
Qed.
Fixpoint kfits (ps : list (bool * bool)) (prev : nat) (k : list nat) : Prop :=
  match ps, k with
  | (ev, le) :: ps', a :: k' => (ev = true -> Nat.even a = true) /\ (le = true -> (a <= prev)%nat) /\ kfits ps' a k'
  | [], [] => True
  | _, _ => False
  end.
Lemma kgen_all ps : forall k d prev, kfits ps prev k -> (tdeg k <= d)%nat -> In k (kgen ps d prev).
Proof.
  induction ps as [|[ev le] ps IH]; intros [|a k] d prev; cbn [kfits]; try tauto; [left; auto|]. intros [He [Hl Hk]] D.
  unfold tdeg in D. cbn [list_sum fold_right] in D. fold (list_sum k) in D. cbn [kgen].
  enough (G : forall m j c, (j <= m)%nat -> (c <= a)%nat -> (ev = true -> Nat.even c = true) -> (a - c + list_sum k <= j)%nat -> In (a :: k)
      ((fix go (j a : nat) : list (list nat) :=
        if le && (prev <? a)%nat then [] else
        map (cons a) (kgen ps j a) ++
        match j with O => [] | S j' => if ev then match j' with O => [] | S j'' => go j'' (S (S a)) end else go j' (S a) end) j c)).
  { apply (G d); auto; lia. }
  assert (F : forall c, (c <= a)%nat -> le && (prev <? c)%nat = false) by (intros c Hc; destruct le; auto; cbn [andb]; apply Nat.ltb_ge; specialize (Hl eq_refl); lia).
  assert (B : forall j, (list_sum k <= j)%nat -> In (a :: k) (map (cons a) (kgen ps j a))) by (intros; apply in_map; apply IH; auto).
  induction m as [|m IHm]; intros j c Hj Hc Ec Hs; destruct j as [|j]; try lia; rewrite F by auto; apply in_or_app.
  - left. replace c with a by lia. apply B. lia.
  - left. replace c with a by lia. apply B. lia.
  - destruct (Nat.eq_dec c a) as [->|Ne]; [left; apply B; lia|right]. destruct ev.
    + assert (E2 : Nat.even (a - c) = true) by (rewrite Nat.even_sub by lia; rewrite (He eq_refl), (Ec eq_refl); auto).
      assert (a <> S c) by (intros ->; replace (S c - c)%nat with 1%nat in E2 by lia; discriminate).
      destruct j as [|j]; [lia|]. apply IHm; try lia. intros _. rewrite Nat.even_succ_succ. auto.
    + apply IHm; (lia || (intros; discriminate)).
Qed.
Lemma kgen_deg ps : forall d prev k, In k (kgen ps d prev) -> length k = length ps /\ forall i, nth i (map fst ps) false = true -> Nat.even (nth i k 0%nat) = true.
Proof.
  induction ps as [|[ev le] ps IH]; intros d prev k; cbn [kgen].
  - intros [<-|[]]. split; auto. intros [|i]; cbn; discriminate.
  - enough (G : forall m j c, (j <= m)%nat -> (ev = true -> Nat.even c = true) -> In k
      ((fix go (j a : nat) : list (list nat) :=
        if le && (prev <? a)%nat then [] else
        map (cons a) (kgen ps j a) ++
        match j with O => [] | S j' => if ev then match j' with O => [] | S j'' => go j'' (S (S a)) end else go j' (S a) end) j c) ->
        length k = length ((ev, le) :: ps) /\ forall i, nth i (map fst ((ev, le) :: ps)) false = true -> Nat.even (nth i k 0%nat) = true) by (apply (G d); auto).
    assert (B : forall j c, (ev = true -> Nat.even c = true) -> In k (map (cons c) (kgen ps j c)) -> length k = length ((ev, le) :: ps) /\ forall i, nth i (map fst ((ev, le) :: ps)) false = true -> Nat.even (nth i k 0%nat) = true).
    { intros j c Hc Hk. apply in_map_iff in Hk. destruct Hk as [k' [<- Hk]]. destruct (IH _ _ _ Hk) as [L E]. cbn [length]. split; [lia|]. intros [|i]; cbn [map fst nth]; auto. }
    induction m as [|m IHm]; intros j c Hj Hc; destruct j as [|j]; try lia; (destruct (le && (prev <? c)%nat); [intros []|]); rewrite in_app_iff; (intros [Hk|Hk]; [apply (B _ _ Hc Hk)|]); try destruct Hk.
    destruct ev; [destruct j as [|j]; [destruct Hk|]|]; refine (IHm _ _ _ _ Hk); try lia; try (intros; discriminate). intros _. rewrite Nat.even_succ_succ. auto.
Qed.
Definition memb (i : nat) (l : list nat) : bool := existsb (Nat.eqb i) l.
Definition kpar (sg sw : list nat) (n : nat) : list (bool * bool) := map (fun i => (memb i sg, match i with O => false | S j => memb j sw end)) (seq 0 n).
Lemma memb_in i l : memb i l = true <-> In i l.
Proof. unfold memb. rewrite existsb_exists. split; [intros [x [H E]]; apply Nat.eqb_eq in E; subst; auto|intros H; exists i; rewrite Nat.eqb_refl; auto]. Qed.
Lemma skips_fits sg sw n k : length k = n -> skips sg sw k = false -> kfits (kpar sg sw n) 0 k.
Proof.
  intros L H. unfold skips in H. apply orb_false_iff in H. destruct H as [H1 H2].
  assert (O : forall i, In i sg -> Nat.even (nth i k 0%nat) = true).
  { intros i Hi. destruct (Nat.even (nth i k 0%nat)) eqn:E; auto. exfalso. assert (T : existsb (fun i => Nat.odd (nth i k 0%nat)) sg = true) by (apply existsb_exists; exists i; split; auto; unfold Nat.odd; rewrite E; auto). congruence. }
  assert (W : forall i, In i sw -> (nth (S i) k 0 <= nth i k 0)%nat).
  { intros i Hi. destruct (Nat.le_gt_cases (nth (S i) k 0%nat) (nth i k 0%nat)) as [|E]; auto. exfalso. assert (T : existsb (fun i => (nth i k 0 <? nth (S i) k 0)%nat) sw = true) by (apply existsb_exists; exists i; split; auto; apply Nat.ltb_lt; auto). congruence. }
  unfold kpar. clear H1 H2.
  enough (G : forall l s prev, (forall j, nth j l 0%nat = nth (s + j)%nat k 0%nat) -> (forall s', s = S s' -> prev = nth s' k 0%nat) -> kfits (map (fun i => (memb i sg, match i with O => false | S j => memb j sw end)) (seq s (length l))) prev l).
  { rewrite <- L. apply G; auto. intros; discriminate. }
  induction l as [|a l IH]; intros s prev HN HP; cbn [length seq map kfits]; auto. pose proof (HN 0%nat) as H0. cbn [nth] in H0. rewrite Nat.add_0_r in H0. repeat split.
  - intros M. apply memb_in in M. rewrite H0. auto.
  - destruct s as [|s]; [discriminate|]. intros M. apply memb_in in M. rewrite (HP s eq_refl), H0. auto.
  - apply IH; [intros j; replace (S s + j)%nat with (s + S j)%nat by lia; exact (HN (S j))|]. intros s' E. injection E as <-. auto.
Qed.

(** Points that differ by the reflections only are counted once: the even monomials agree on them. *)
Definition exabs (e : ex) : ex := match e with EOpp x => x | _ => e end.
Fixpoint absev (ps : list (bool * bool)) (p : list ex) : list ex :=
  match ps, p with (ev, _) :: ps', x :: p' => (if ev then exabs x else x) :: absev ps' p' | _, _ => p end.
Lemma absev_mono env ps : forall p k, (forall i, nth i (map fst ps) false = true -> Nat.even (nth i k 0%nat) = true) ->
  mono k (map (eden env) (absev ps p)) = mono k (map (eden env) p).
Proof.
  induction ps as [|[ev le] ps IH]; intros [|x p] k H; auto. destruct k as [|a k]; auto. cbn [absev map mono]. rewrite IH by (intros i Hi; apply (H (S i)); auto). f_equal.
  destruct ev; auto. specialize (H 0%nat eq_refl). cbn [nth] in H. destruct x; cbn [exabs eden]; auto. apply Nat.even_spec in H. destruct H as [m ->]. rewrite !pow_mult. f_equal. ring.
Qed.
Lemma absev_length ps : forall p, length (absev ps p) = length p.
Proof. induction ps as [|[ev le] ps IH]; intros [|x p]; cbn [absev length]; auto. Qed.
Fixpoint collect (wp : ex * list ex) (l : list (Z * (ex * list ex))) : list (Z * (ex * list ex)) :=
  match l with [] => [(1%Z, wp)] | (c, wp') :: l' => if exwptb wp wp' then ((c + 1)%Z, wp') :: l' else (c, wp') :: collect wp l' end.
Definition collected (ps : list (bool * bool)) (q : list (ex * list ex)) : list (Z * (ex * list ex)) := fold_right (fun wp l => collect (on_ex (absev ps) wp) l) [] q.
Definition csum (env : list R) (l : list (Z * (ex * list ex))) (f : point -> R) : R := Rsum (map (fun c => IZR (fst c) * (eden env (fst (snd c)) * f (map (eden env) (snd (snd c))))) l).
Lemma exwptb_eq a b : exwptb a b = true -> a = b.
Proof. unfold exwptb. destruct (exlistb _ _) eqn:E; [|discriminate]. intros H. apply exeqb_eq in H. apply exlistb_eq in E. destruct a, b. cbn in *. congruence. Qed.
Lemma collect_sum env wp l f : csum env (collect wp l) f = eden env (fst wp) * f (map (eden env) (snd wp)) + csum env l f.
Proof.
  induction l as [|[c wp'] l IH]; cbn [collect].
  - unfold csum. cbn [map Rsum fst snd]. ring.
  - destruct (exwptb wp wp') eqn:E.
    + apply exwptb_eq in E. subst wp'. unfold csum. cbn [map Rsum fst snd]. rewrite plus_IZR. ring.
    + unfold csum in *. cbn [map Rsum fst snd]. rewrite IH. ring.
Qed.
Lemma collected_sum env ps q k : (forall i, nth i (map fst ps) false = true -> Nat.even (nth i k 0%nat) = true) -> csum env (collected ps q) (mono k) = apply (rden env q) (mono k).
Proof.
  intros H. induction q as [|[w p] q IH]; [reflexivity|]. cbn [collected fold_right]. rewrite collect_sum. fold (collected ps q). rewrite IH. cbn [on_ex fst snd]. rewrite absev_mono by auto. reflexivity.
Qed.
Fixpoint bsumk (env : list ball) (ps : list (bool * bool)) (d : nat) (q : list (Z * (ex * list ex))) : option (list ball) :=
  match q with
  | [] => Some (map (fun _ => bz 0) (kgen ps d 0))
  | (c, (w, p)) :: q' =>
      match beval env w, bmapo env p, bsumk env ps d q' with
      | Some (m, e), Some bp, Some s => if (length p =? length ps)%nat then Some (vadd (bgen ps bp d 0 (c * m, Z.abs c * e)%Z) s) else None
      | _, _, _ => None
      end
  end.
Lemma bscale_ok c m e x : bok (m, e) x -> bok (c * m, Z.abs c * e)%Z (IZR c * x).
Proof.
  unfold bok. cbn [fst snd]. intros H. rewrite !mult_IZR, abs_IZR. replace (IZR c * x * S64 - IZR c * IZR m) with (IZR c * (x * S64 - IZR m)) by ring. rewrite Rabs_mult. apply Rmult_le_compat_l; auto using Rabs_pos.
Qed.
Lemma bsumk_ok env bs ps d : Forall2 bok bs env -> forall q s, bsumk bs ps d q = Some s -> Forall2 (fun k c => bok c (csum env q (mono k))) (kgen ps d 0) s.
Proof.
  intros H. induction q as [|[c [w p]] q IH]; intros s; cbn [bsumk].
  - intros E. injection E as <-. generalize (kgen ps d 0). intros ks. induction ks as [|k ks IHk]; cbn [map]; constructor; auto. apply (bz_ok 0).
  - destruct (beval bs w) as [[m e]|] eqn:Ew; [|discriminate]. destruct (bmapo bs p) as [bp|] eqn:Ep; [|discriminate]. destruct (bsumk bs ps d q) as [s'|]; [|discriminate].
    destruct (Nat.eqb_spec (length p) (length ps)) as [L|]; [|discriminate]. intros E. injection E as <-.
    apply (vadd_ok (fun k => IZR c * (eden env w * mono k (map (eden env) p))) (fun k => csum env q (mono k))); auto.
    assert (B : Forall2 (fun k b => bok b (IZR c * eden env w * mono k (map (eden env) p))) (kgen ps d 0) (bgen ps bp d 0 (c * m, Z.abs c * e)%Z)).
    { apply bgen_ok; [apply (bmapo_ok env bs); auto|rewrite map_length; auto|]. apply bscale_ok. apply (beval_ok env bs); auto. }
    revert B. generalize (bgen ps bp d 0 (c * m, Z.abs c * e)%Z) (kgen ps d 0). clear. intros bl kl. induction 1; constructor; auto. rewrite <- Rmult_assoc. auto.
Qed.
Definition near_sym (l : list gen) (sg sw : list nat) (n d : nat) (I : list nat -> Q) (tol : Q) (q : list (ex * list ex)) : bool :=
  match benv l with
  | Some bs =>
      if forallb (fun wp => length (snd wp) =? n)%nat q then
      if forallb (fun i => (i <? n)%nat && experm q (map (on_ex (act exopp i)) q)) sg then
      if forallb (fun i => experm q (map (on_ex (swp i)) q)) sw then
      let ps := kpar sg sw n in
      match bsumk bs ps d (collected ps q) with
      | Some s => let t := tol_lo tol in (0 <=? t)%Z && forallb (fun ks => bnear t (snd ks) (bq (I (fst ks)))) (List.combine (kgen ps d 0) s)
      | None => false
      end else false else false else false
  | None => false
  end.
Theorem near_sym_ok l env sg sw n d I tol q : ngens_ok l env -> sym_moments sg sw n I -> near_sym l sg sw n d I tol q = true ->
  points_in_dim n (rden env q) /\ forall k, length k = n -> (tdeg k <= d)%nat -> Rabs (apply (rden env q) (mono k) - Q2R (I k)) <= Q2R tol.
Proof.
  intros G HI H. unfold near_sym in H. destruct (benv l) as [bs|] eqn:Eb; [|discriminate]. pose proof (benv_ok l env bs G Eb) as HB.
  destruct (forallb _ q) eqn:E0; [|discriminate]. destruct (forallb _ sg) eqn:E1; [|discriminate]. destruct (forallb _ sw) eqn:E2; [|discriminate]. rewrite forallb_forall in E0, E1, E2.
  set (ps := kpar sg sw n) in *. cbv zeta in H.
  destruct (bsumk bs ps d (collected ps q)) as [s|] eqn:Es; [|discriminate]. pose proof (bsumk_ok env bs ps d HB _ s Es) as F.
  assert (D : points_in_dim n (rden env q)).
  { unfold points_in_dim. apply Forall_forall. intros wp Hw. rewrite rden_map in Hw. apply in_map_iff in Hw. destruct Hw as [wp' [<- Hw]]. cbn [exden snd]. rewrite map_length. apply Nat.eqb_eq, E0. auto. }
  split; auto.
  apply andb_prop in H. destruct H as [H0 H]. apply Z.leb_le, IZR_le in H0. pose proof (tol_ok tol) as [TO _].
  assert (T0 : 0 <= Q2R tol) by (eapply Rle_trans; [|exact TO]; apply Rmult_le_pos; [auto|apply Rlt_le, Rinv_0_lt_compat, S64_pos]).
  apply (sym_reduce (fun k => apply (rden env q) (mono k)) I sg sw n d); auto.
  - intros i k Hi Lk Ho. specialize (E1 i Hi). apply andb_prop in E1. destruct E1 as [E1 E1']. apply Nat.ltb_lt in E1. apply (exinv_neg env q n D i k); auto.
  - intros i k Hi Lk. apply (exinv_swp env q n D i k); auto.
  - intros k Lk Dk Sk. assert (IK : In k (kgen ps d 0)) by (apply kgen_all; auto; apply skips_fits; auto).
    pose proof (kgen_deg ps d 0 k IK) as [_ EV]. rewrite <- (collected_sum env ps q k EV).
    clear Es EV. revert IK H. generalize dependent s. generalize (kgen ps d 0). clear - TO. intros ks s F. induction F as [|k' c ks s' Hc _ IH]; intros IK H; [destruct IK|].
    cbn [List.combine forallb fst snd] in H. apply andb_prop in H. destruct H as [H1 H2]. destruct IK as [->|IK]; [|apply IH; auto].
    eapply Rle_trans; [apply (bnear_ok (tol_lo tol) c (bq (I k))); auto using bq_ok|]. auto.
Qed.

(** The moments of the cube, the ball and the simplex are symmetric. *)
Lemma Qprod_perm l l' : Permutation l l' -> Qprod l == Qprod l'.
Proof.
  induction 1 as [|x l l' _ IH|x y l|l m r _ IH1 _ IH2]; unfold Qprod in *; cbn [fold_right]; rewrite ?Qred_correct; [reflexivity|rewrite IH; reflexivity|ring|etransitivity; eauto].
Qed.
Lemma swp_Qprod (f : nat -> Q) i k : Qprod (map f (swp i k)) == Qprod (map f k).
Proof. apply Qprod_perm, Permutation_map, Permutation_sym, swp_perm. Qed.
Lemma swp_tdeg i k : tdeg (swp i k) = tdeg k.
Proof. symmetry. apply list_sum_perm, swp_perm. Qed.
Lemma existsb_perm {A} (f : A -> bool) l l' : Permutation l l' -> existsb f l = existsb f l'.
Proof. induction 1; cbn; try congruence. destruct (f x), (f y); auto. Qed.
Lemma nth_odd_exists k i : (i < length k)%nat -> Nat.odd (nth i k 0%nat) = true -> existsb Nat.odd k = true.
Proof. intros L H. apply existsb_exists. exists (nth i k 0%nat). split; auto. apply nth_In. auto. Qed.
Lemma Qprod_zero l : In 0%Q l -> Qprod l == 0.
Proof.
  induction l as [|x l IH]; intros []; unfold Qprod; cbn [fold_right]; rewrite Qred_correct; fold (Qprod l); [subst; ring|rewrite IH by auto; ring].
Qed.
Lemma cube_sym n sg sw : List.Forall (fun i => i < n)%nat sg -> sym_moments sg sw n cubeQ.
Proof.
  intros HS. split.
  - intros i k Hi Lk Ho. rewrite Forall_forall in HS. apply HS in Hi. rewrite <- RMicromega.Q2R_0. apply Qeq_eqR. unfold cubeQ. apply Qprod_zero. apply in_map_iff.
    exists (nth i k 0%nat). split; [|apply nth_In; lia]. rewrite <- Nat.negb_odd, Ho. reflexivity.
  - intros i k _ _. apply Qeq_eqR, swp_Qprod.
Qed.
Lemma rm_sym h n sg sw : List.Forall (fun i => i < n)%nat sg -> sym_moments sg sw n (rmQ h).
Proof.
  intros HS. split.
  - intros i k Hi Lk Ho. rewrite Forall_forall in HS. apply HS in Hi. unfold rmQ. rewrite (nth_odd_exists k i) by (auto; lia). apply RMicromega.Q2R_0.
  - intros i k _ _. unfold rmQ. rewrite <- (existsb_perm _ _ _ (swp_perm k i)). destruct (existsb Nat.odd k); auto. rewrite !Q2R_mult. f_equal; [apply Qeq_eqR, swp_Qprod|]. rewrite swp_tdeg. auto.
Qed.
Lemma ball_sym n sg sw : List.Forall (fun i => i < n)%nat sg -> sym_moments sg sw n (ballQ n).
Proof. apply rm_sym. Qed.
Lemma simplex_sym n sw : sym_moments [] sw (S n) (simplexQ n).
Proof.
  split; [intros i k []|]. intros i k _ _. apply Qeq_eqR. unfold simplexQ. rewrite swp_tdeg, swp_Qprod. reflexivity.
Qed.
