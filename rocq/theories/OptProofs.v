(** Proofs for C52. *)
From Coq Require Import Reals List Arith Lia Lra Bool String Permutation.
From Verif Require Import Spec RsumLemmas CombModel CombProofs CombProofs2 PyBase SymmModel OrbitModel SchemeTools SymmProofs OptModel OptSpec.
Import ListNotations.
Set Bullet Behavior "Strict Subproofs".
Local Notation length := List.length.
Local Notation concat := List.concat.
Local Notation combine := List.combine.
Open Scope R_scope.
Open Scope list_scope.

(* --- lists *)
Lemma nth_concat_uniform {A} (d : A) n ls q i : Forall (fun l => length l = n) ls -> (i < n)%nat -> (q < length ls)%nat ->
  nth (q * n + i) (concat ls) d = nth i (nth q ls []) d.
Proof.
  revert q. induction ls as [|l ls IH]; intros q H Hi Hq; cbn in Hq; [lia|]. inversion H; subst. cbn [concat].
  destruct q as [|q].
  - cbn [nth]. rewrite app_nth1 by lia. reflexivity.
  - rewrite app_nth2 by (cbn; lia). cbn [nth]. rewrite <- IH by (auto; lia). f_equal. cbn. lia.
Qed.
Lemma concat_uniform_length {A} n (ls : list (list A)) : Forall (fun l => length l = n) ls -> length (concat ls) = (length ls * n)%nat.
Proof. induction 1; cbn; auto. rewrite app_length. lia. Qed.
Lemma dot_app a b u v : length a = length u -> dot (a ++ b) (u ++ v) = dot a u + dot b v.
Proof. intros H. unfold dot. rewrite combine_app_len by auto. rewrite map_app, Rsum_app. reflexivity. Qed.
Lemma dot_map_seq (g : nat -> R) (w : list R) : forall k, dot (map g (seq k (length w))) w = Rsum (map (fun iw => g (fst iw) * snd iw) (combine (seq k (length w)) w)).
Proof. induction w as [|t w IH]; intros k; cbn; auto. unfold dot in *. cbn. rewrite IH. reflexivity. Qed.

Lemma skipn_skipn {A} a b (l : list A) : skipn a (skipn b l) = skipn (a + b) l.
Proof.
  revert l. induction b as [|b IH]; intros l; [rewrite Nat.add_0_r; reflexivity|]. rewrite Nat.add_succ_r. destruct l; cbn; [apply skipn_nil|apply IH].
Qed.
(** Cutting a list into pieces of given lengths. *)
Fixpoint cut (ns : list nat) (w : list R) : list (list R) :=
  match ns with [] => [] | n :: ns' => firstn n w :: cut ns' (skipn n w) end.
Lemma cut_concat ns w : length w = list_sum ns -> concat (cut ns w) = w /\ Forall2 (fun n l => length l = n) ns (cut ns w).
Proof.
  revert w. induction ns as [|n ns IH]; intros w H; cbn [cut].
  - destruct w; [cbn; auto|discriminate].
  - change (list_sum (n :: ns)) with (n + list_sum ns)%nat in H. destruct (IH (skipn n w)) as [E F]; [rewrite skipn_length; lia|]. cbn [concat]. rewrite E, firstn_skipn. split; auto. constructor; auto.
    rewrite firstn_length. lia.
Qed.

Section Gen.
  Context {K : Type} (cols_of : K -> list (list R) -> option (list (list R))) (orb : K -> list R -> list point).
  Context (orb_len : forall k c, length (orb k c) = length (orb k [])).
  Context (cols_len : forall k rows rows' s, shape_of rows = Some s -> shape_of rows' = Some s ->
    option_map (fun c => length c) (cols_of k rows) = option_map (fun c => length c) (cols_of k rows')).
  Local Notation data := (list (K * (list R * list (list R)))).
  Local Notation raw := (list (K * list (list R))).

  (** The points of one key, sliced by the orbit. *)
  Lemma slice_orbit k cols (p : point -> R) pre rest i : (i < length cols)%nat ->
    slice_step (length pre + i) (length pre + length (orb k []) * length cols) (length cols)
      (pre ++ map p (concat (map (fun q => map (fun c => nth q (orb k c) []) cols) (seq 0 (length (orb k []))))) ++ rest)
    = map p (orb k (nth i cols [])).
  Proof.
    intros Hi. set (n := length cols) in *. set (m := length (orb k [])). set (blocks := map _ (seq 0 m)).
    assert (U : Forall (fun l => length l = n) blocks).
    { apply Forall_forall. intros l Hl. apply in_map_iff in Hl. destruct Hl as [q [<- _]]. rewrite map_length. reflexivity. }
    assert (Lb : length blocks = m) by (subst blocks; rewrite map_length, seq_length; reflexivity).
    assert (Lc : length (concat blocks) = (m * n)%nat) by (rewrite (concat_uniform_length n) by auto; rewrite Lb; reflexivity).
    unfold slice_step. rewrite !app_length, map_length, Lc.
    replace (Nat.min (length pre + m * n) (length pre + (m * n + length rest)) - (length pre + i) + n - 1)%nat
      with (m * n - i + n - 1)%nat by lia.
    assert (Q : ((m * n - i + n - 1) / n)%nat = m).
    { destruct m as [|m'].
      - apply Nat.div_small. lia.
      - symmetry. apply (Nat.div_unique _ _ (S m') (n - 1 - i)); [lia|]. cbn. nia. }
    rewrite Q.
    transitivity (map p (map (fun q => nth q (orb k (nth i cols [])) []) (seq 0 (length (orb k (nth i cols [])))))); [|rewrite map_nth_seq; reflexivity].
    rewrite orb_len. fold m. rewrite map_map. apply map_ext_in. intros q Hq. apply in_seq in Hq.
    rewrite app_nth2 by lia. replace (length pre + i + q * n - length pre)%nat with (q * n + i)%nat by lia.
    rewrite app_nth1 by (rewrite map_length, Lc; nia).
    rewrite (nth_indep _ 0 (p [])) by (rewrite map_length, Lc; nia). rewrite map_nth. f_equal.
    etransitivity; [apply (nth_concat_uniform [] n); [exact U|exact Hi|eapply Nat.lt_le_trans; [|apply Nat.eq_le_incl; symmetry; exact Lb]; lia]|]. subst blocks.
    rewrite (nth_indep _ [] ((fun q => map (fun c => nth q (orb k c) []) cols) 0%nat)) by (rewrite map_length, seq_length; lia).
    rewrite (map_nth (fun q => map (fun c => nth q (orb k c) []) cols)). rewrite seq_nth by lia. cbn [Nat.add].
    rewrite (nth_indep _ [] ((fun c => nth q (orb k c) []) [])) by (rewrite map_length; lia).
    rewrite (map_nth (fun c => nth q (orb k c) [])). reflexivity.
  Qed.
  Lemma entry_apply k rows cols w (p : point -> R) : cols_of k rows = Some cols ->
    apply (entry_rule cols_of orb (k, (w, rows))) p = Rsum (map (fun wc => fst wc * Rsum (map p (orb k (snd wc)))) (combine w cols)).
  Proof.
    intros E. unfold apply. rewrite (Rsum_map_perm _ _ _ (entry_rule_perm cols_of orb orb_len (k, (w, rows)))).
    unfold entry_spec. cbn [fst snd]. rewrite E, Rsum_map_flat_map. apply Rsum_map_ext. intros [t c]. cbn [fst snd].
    rewrite map_map. cbn [fst snd]. rewrite <- Rsum_map_scal. reflexivity.
  Qed.
  Lemma key_dot k rows cols w (p : point -> R) pre rest : cols_of k rows = Some cols -> length w = length cols ->
    dot (map (fun i => Rsum (slice_step (length pre + i) (length pre + length (orb k []) * length cols) (length cols)
      (pre ++ map p (concat (map (fun q => map (fun c => nth q (orb k c) []) cols) (seq 0 (length (orb k []))))) ++ rest))) (seq 0 (length cols))) w
    = apply (entry_rule cols_of orb (k, (w, rows))) p.
  Proof.
    intros E L. rewrite (entry_apply k rows cols) by auto.
    rewrite (map_ext_in _ (fun i => Rsum (map p (orb k (nth i cols []))))) by (intros i Hi; apply in_seq in Hi; rewrite slice_orbit by lia; reflexivity).
    clear E rows. rewrite <- L, dot_map_seq.
    assert (G : forall (w : list R) cols, length w = length cols -> forall k0 (h : nat -> list R), (forall i, (i < length w)%nat -> h (k0 + i)%nat = nth i cols []) ->
      Rsum (map (fun iw => Rsum (map p (orb k (h (fst iw)))) * snd iw) (combine (seq k0 (length w)) w)) =
      Rsum (map (fun wc => fst wc * Rsum (map p (orb k (snd wc)))) (combine w cols))).
    { clear. induction w as [|t w IH]; intros [|c cols] L k0 h H; cbn in L; try lia; auto. cbn [length seq combine map Rsum fst snd].
      rewrite <- (Nat.add_0_r k0) at 1. rewrite (H 0%nat) by (cbn; lia). cbn [nth]. f_equal; [ring|].
      apply IH; [lia|]. intros i Hi. replace (S k0 + i)%nat with (k0 + S i)%nat by lia. apply (H (S i)). cbn. lia. }
    apply (G w cols L 0%nat (fun i => nth i cols [])). reflexivity.
  Qed.

  (** The row of the least-squares system for a polynomial, times the weights, is the value of the rule. *)
  Definition attach (d : raw) (ws : list (list R)) : data := map (fun kw => (fst (fst kw), (snd kw, snd (fst kw)))) (combine d ws).
  Definition columns_are (d : raw) (ns : list nat) : Prop :=
    Forall2 (fun kv n => exists cols, cols_of (fst kv) (snd kv) = Some cols /\ length cols = n) d ns.
  Lemma column_sums_length row k cs : length (column_sums row k cs) = list_sum (map snd cs).
  Proof. revert k. induction cs as [|[l n] cs IH]; intros k; cbn; auto. rewrite app_length, map_length, seq_length, IH. reflexivity. Qed.
  Lemma sums_apply d ns pts counts (p : point -> R) : gen_points_only cols_of orb d = Some (pts, counts) -> columns_are d ns ->
    forall pre ws, Forall2 (fun n w => length w = n) ns ws ->
    dot (column_sums (pre ++ map p pts) (length pre) (combine counts ns)) (concat ws) = apply (flat_map (entry_rule cols_of orb) (attach d ws)) p.
  Proof.
    revert ns pts counts. induction d as [|[k rows] d IH]; intros ns pts counts E C pre ws W.
    - inversion C; subst. inversion W; subst. cbn in E. injection E as <- <-. reflexivity.
    - inversion C as [|a n d' ns' [cols [Ec Lc]] C']; subst. inversion W as [|b w ns'' ws' Lw W']; subst. cbn [fst snd] in Ec.
      cbn in E. unfold gen_key_points in E. rewrite Ec in E. cbn [bind] in E.
      destruct (gen_points_only cols_of orb d) as [[pts' counts']|]; [|discriminate]. cbn [bind fst snd] in E. injection E as <- <-.
      cbn [combine column_sums]. rewrite map_length, seq_length. unfold attach. cbn [combine map flat_map fst snd concat].
      rewrite apply_app. rewrite dot_app by (rewrite map_length, seq_length; auto). f_equal.
      + rewrite map_app. apply key_dot; auto.
      + specialize (IH ns' pts' counts' eq_refl C' (pre ++ map p (concat (map (fun i => map (fun c => nth i (orb k c) []) cols) (seq 0 (length (orb k [])))))) ws' W').
        etransitivity; [|exact IH]. rewrite map_app, !app_assoc. f_equal. f_equal. rewrite app_length. f_equal. rewrite map_length.
        rewrite (concat_uniform_length (length cols)); [rewrite map_length, seq_length; reflexivity|].
        apply Forall_forall. intros l Hl. apply in_map_iff in Hl. destruct Hl as [q [<- _]]. apply map_length.
  Qed.

  (* --- shapes *)
  Definition shaped (ks : list (K * dims)) (d : raw) : Prop := Forall2 (fun a b => fst a = fst b /\ shape_of (snd b) = Some (snd a)) ks d.
  Definition proper (s : dims) : Prop := match s with Empty => True | Grid m n => (1 <= m)%nat end.
  Lemma shape_of_proper rows s : shape_of rows = Some s -> proper s.
  Proof. unfold shape_of. destruct rows as [|r rows]; [intros H; injection H as <-; exact I|]. destruct (forallb _ _); intros H; [|discriminate]. injection H as <-. cbn. lia. Qed.
  Lemma shape_of_lengths rows s : shape_of rows = Some s ->
    map (fun r => length r) rows = match s with Empty => [] | Grid m n => repeat n m end.
  Proof.
    unfold shape_of. destruct rows as [|r rows]; [intros H; injection H as <-; reflexivity|].
    destruct (forallb _ _) eqn:F; [|discriminate]. intros H. injection H as <-. rewrite forallb_forall in F.
    assert (G : forall l, (forall x, In x l -> (length x =? length r)%nat = true) -> map (fun t : list R => length t) l = repeat (length r) (length l)).
    { clear. induction l as [|x l IH]; intros F; cbn; auto. rewrite IH by (intros; apply F; cbn; auto). f_equal. apply Nat.eqb_eq, F. cbn; auto. }
    apply G. exact F.
  Qed.
  Lemma shape_of_reshape s l v : proper s -> reshape s l = Some v -> shape_of v = Some s.
  Proof.
    unfold reshape. destruct (Nat.eqb_spec (length l) (size_of s)) as [L|]; cbn [negb]; [|discriminate].
    destruct s as [|m n]; cbn; intros P H; injection H as <-; [reflexivity|].
    assert (G : forall r, In r (map (fun i => firstn n (skipn (i * n) l)) (seq 0 m)) -> length r = n).
    { intros r Hr. apply in_map_iff in Hr. destruct Hr as [i [<- Hi]]. apply in_seq in Hi. rewrite firstn_length, skipn_length. cbn in L. nia. }
    assert (Lm : length (map (fun i => firstn n (skipn (i * n) l)) (seq 0 m)) = m) by (rewrite map_length; apply seq_length).
    unfold shape_of. destruct (map _ (seq 0 m)) as [|r rs] eqn:E; [cbn in Lm; lia|].
    assert (F : forallb (fun r' => (length r' =? length r)%nat) (r :: rs) = true).
    { apply forallb_forall. intros r' Hr'. apply Nat.eqb_eq. rewrite (G r'), (G r); cbn; auto. }
    rewrite F, Lm, (G r) by (cbn; auto). reflexivity.
  Qed.
  Lemma x_to_dict_shaped ks x d : Forall (fun a => proper (snd a)) ks -> x_to_dict ks x = Some d -> shaped ks d.
  Proof.
    revert x d. induction ks as [|[k s] ks IH]; intros x d P E; cbn in E.
    - injection E as <-. constructor.
    - inversion P; subst. destruct ks as [|ks1 ks].
      + destruct (reshape s x) as [v|] eqn:R; [|discriminate]. cbn in E. injection E as <-. constructor; [|constructor].
        cbn. split; auto. eapply shape_of_reshape; eauto.
      + destruct (reshape s (firstn (size_of s) x)) as [v|] eqn:R; [|discriminate]. cbn [bind] in E.
        destruct (x_to_dict (ks1 :: ks) (skipn (size_of s) x)) as [rest|] eqn:T; [|discriminate]. cbn in E. injection E as <-.
        constructor; [cbn; split; auto; eapply shape_of_reshape; eauto|]. eapply IH; eauto.
  Qed.
  Lemma reshape_concat rows s : shape_of rows = Some s -> reshape s (concat rows) = Some rows /\ length (concat rows) = size_of s.
  Proof.
    intros H. assert (Ls := shape_of_lengths _ _ H).
    destruct s as [|m n].
    - destruct rows; [|discriminate]. split; reflexivity.
    - assert (U : Forall (fun l => length l = n) rows).
      { apply Forall_forall. intros l Hl. apply (in_map (fun r => length r)) in Hl. rewrite Ls in Hl. apply repeat_spec in Hl. auto. }
      assert (Lm : length rows = m) by (apply (f_equal (@List.length nat)) in Ls; rewrite map_length, repeat_length in Ls; auto).
      assert (L := concat_uniform_length n rows U). rewrite Lm in L. split; auto.
      unfold reshape. cbn [size_of]. rewrite L, Nat.eqb_refl. cbn [negb]. f_equal. rewrite <- Lm. clear - U.
      induction U as [|r rows Hr U IH]; cbn [length seq map concat]; auto. f_equal.
      + cbn. rewrite firstn_app, Hr, Nat.sub_diag, <- Hr, firstn_all. cbn. apply app_nil_r.
      + rewrite <- IH at 2. rewrite <- seq_shift, map_map. apply map_ext. intros i. f_equal.
        rewrite skipn_app. rewrite skipn_all2 by (cbn; lia). cbn [app]. f_equal. rewrite Hr. cbn. lia.
  Qed.
  Lemma x_to_dict_start ks (d : raw) : shaped ks d -> x_to_dict ks (concat (map (fun kv => concat (snd kv)) d)) = Some d.
  Proof.
    induction 1 as [|[k s] [k' rows] ks d [E1 E2] S IH]; [reflexivity|]. cbn [fst snd] in *. subst k'.
    destruct (reshape_concat _ _ E2) as [R L]. cbn [x_to_dict map concat snd].
    destruct ks as [|ks1 ks].
    - inversion S; subst. cbn [map concat]. rewrite app_nil_r, R. reflexivity.
    - rewrite firstn_app, skipn_app, <- L, firstn_all, skipn_all, Nat.sub_diag. cbn [firstn skipn app]. rewrite app_nil_r, R. cbn [bind].
      rewrite IH. reflexivity.
  Qed.

  Lemma shaped_columns ks d d' ns : shaped ks d -> shaped ks d' -> columns_are d ns -> columns_are d' ns.
  Proof.
    intros S. revert d' ns. induction S as [|[k s] [k1 r1] ks d [E1 E2] S IH]; intros d' ns S' C.
    - inversion S'; subst. inversion C; subst. constructor.
    - inversion S' as [|a [k2 r2] ks' d2 [F1 F2] S2]; subst. inversion C as [|b n d3 ns' [cols [Ec Lc]] C']; subst. cbn [fst snd] in *. subst.
      constructor; [|apply IH; auto]. cbn [fst snd]. assert (G := cols_len k2 r1 r2 s E2 F2). rewrite Ec in G. cbn in G.
      destruct (cols_of k2 r2) as [cols'|]; [|discriminate]. cbn in G. injection G as G. exists cols'. auto.
  Qed.
  Lemma columns_points d ns : columns_are d ns -> exists pc, gen_points_only cols_of orb d = Some pc /\ length (snd pc) = length ns /\
    list_sum (map (fun ab => fst ab * snd ab)%nat (combine (snd pc) ns)) = length (fst pc).
  Proof.
    induction 1 as [|[k rows] n d ns [cols [Ec Lc]] C [pc [E [L S]]]]; cbn [gen_points_only].
    - exists ([], []). auto.
    - cbn [fst snd] in Ec. unfold gen_key_points. rewrite Ec. cbn [bind]. rewrite E. cbn [bind]. eexists. split; [reflexivity|]. cbn [fst snd].
      split; [cbn; lia|]. cbn [combine map list_sum fst snd fold_right]. rewrite app_length, <- S. unfold list_sum. f_equal.
      rewrite (concat_uniform_length n); [rewrite map_length; reflexivity|].
      apply Forall_forall. intros l Hl. apply in_map_iff in Hl. destruct Hl as [q [<- _]]. rewrite map_length. auto.
  Qed.
  Lemma attach_expand d ns ws : columns_are d ns -> Forall2 (fun n w => length w = n) ns ws ->
    exists pw, gen_expand cols_of orb (attach d ws) = Some pw /\ mk_rule pw = flat_map (entry_rule cols_of orb) (attach d ws).
  Proof.
    intros C W.
    assert (A : Forall (entry_aligned cols_of) (attach d ws) /\ Forall (fun kv => cols_of (fst kv) (snd (snd kv)) <> None) (attach d ws)).
    { revert ws W. induction C as [|[k rows] n d ns [cols [Ec Lc]] C IH]; intros ws W; inversion W as [|b w ns'' ws' Lw W']; subst; unfold attach; cbn; [split; constructor|].
      cbn [fst snd] in Ec. destruct (IH ws' W') as [I1 I2].
      split; constructor; auto; cbn [fst snd].
      - intros cols' E. cbn [fst snd] in *. congruence.
      - congruence. }
    destruct A as [A1 A2]. apply (gen_expand_Some cols_of orb) in A2. destruct A2 as [pw E]. exists pw. split; auto.
    apply (gen_expand_rule cols_of orb _ _ E A1).
  Qed.

  (* --- the optimizer *)
  Context (lstsq : list (list R) -> list R -> list R * list R * nat)
          (minimize : (list R -> option R) -> list R -> option (list R * R))
          (polys : list (point -> R)) (int_p0 : R).
  Definition raw_of (d : data) : raw := map (fun kv => (fst kv, snd (snd kv))) d.
  Definition counts_of (d : data) : list nat := map (fun kv => length (fst (snd kv))) d.
  Definition per_key (s : dims) : nat := match s with Empty => 1 | Grid m n => n end.

  Lemma attach_raw d : attach (raw_of d) (map (fun kv => fst (snd kv)) d) = d.
  Proof. unfold attach, raw_of. induction d as [|[k [w rows]] d IH]; cbn; [reflexivity|]. f_equal. exact IH. Qed.
  Lemma with_weights_attach d ws : with_weights d ws = attach (raw_of d) ws.
  Proof.
    unfold with_weights, attach, raw_of. revert ws. induction d as [|[k [w rows]] d IH]; intros [|w' ws]; cbn; auto. f_equal. apply IH.
  Qed.
  Lemma shapes_start (d : data) ks : mapM (fun kv => let! s := shape_of (snd (snd kv)) in Some (fst kv, s)) d = Some ks ->
    shaped ks (raw_of d) /\ Forall (fun a => proper (snd a)) ks.
  Proof.
    revert ks. induction d as [|[k [w rows]] d IH]; intros ks E; cbn in E.
    - injection E as <-. split; constructor.
    - destruct (shape_of rows) as [s|] eqn:S; [|discriminate]. cbn [bind] in E.
      destruct (mapM _ d) as [ks'|]; [|discriminate]. cbn in E. injection E as <-. destruct (IH ks' eq_refl) as [A B].
      split; constructor; auto. cbn. eapply shape_of_proper; eauto.
  Qed.
  Lemma per_key_counts (d : data) ks : shaped ks (raw_of d) -> regular cols_of d -> counts_of d = map (fun a => per_key (snd a)) ks.
  Proof.
    revert ks. induction d as [|[k [w rows]] d IH]; intros ks S H; inversion S as [|[k' s] b ks' d' [E1 E2] S']; subst; auto.
    inversion H as [|x l [_ H1] H2]; subst. cbn. f_equal; [|apply IH; auto]. cbn [fst snd] in *. rewrite H1.
    unfold shape_of in E2. destruct rows as [|r rows]; [injection E2 as <-; reflexivity|]. destruct (forallb _ _); [|discriminate].
    injection E2 as <-. reflexivity.
  Qed.
  Lemma points_columns (d : data) pc : regular cols_of d -> gen_points_only cols_of orb (raw_of d) = Some pc -> columns_are (raw_of d) (counts_of d).
  Proof.
    revert pc. induction d as [|[k [w rows]] d IH]; intros pc H E; [constructor|]. inversion H as [|x l [H1 _] H2]; subst.
    cbn in E. unfold gen_key_points in E. destruct (cols_of k rows) as [cols|] eqn:Ec; [|discriminate]. cbn [bind] in E.
    fold (raw_of d) in E. destruct (gen_points_only cols_of orb (raw_of d)) as [pc'|]; [|discriminate].
    constructor; [|eapply IH; eauto]. cbn [fst snd]. exists cols. split; auto. symmetry. apply H1. exact Ec.
  Qed.
  Lemma prepend_cut ks d w : shaped ks d -> forall k, length w = (k + list_sum (map (fun a => per_key (snd a)) ks))%nat ->
    prepend_weights d w k = Some (attach d (cut (map (fun a => per_key (snd a)) ks) (skipn k w))).
  Proof.
    induction 1 as [|[k0 s] [k1 rows] ks d [E1 E2] S IH]; intros k L; [reflexivity|]. cbn [fst snd] in *. subst k1.
    cbn [map snd] in *. change (list_sum (per_key s :: ?l)) with (per_key s + list_sum l)%nat in L. cbn [prepend_weights cut].
    assert (Hs : per_key s = match rows with [] => 1%nat | r :: _ => length r end).
    { unfold shape_of in E2. destruct rows as [|r rows]; [injection E2 as <-; reflexivity|]. destruct (forallb _ _); [|discriminate]. injection E2 as <-. reflexivity. }
    unfold attach. cbn [combine map fst snd].
    destruct rows as [|r rows].
    - rewrite Hs in *. destruct (nth_error w k) as [wk|] eqn:En; [|apply nth_error_None in En; lia]. cbn [bind].
      rewrite (IH (k + 1)%nat) by lia. cbn [bind]. do 2 f_equal.
      + do 2 f_equal. assert (G : forall (l : list R) j, nth_error l j = Some wk -> firstn 1 (skipn j l) = [wk]).
        { clear. induction l as [|x l IH]; intros [|j] E; cbn in *; try discriminate; auto. congruence. }
        symmetry. apply G. exact En.
      + rewrite skipn_skipn. rewrite (Nat.add_comm 1 k). reflexivity.
    - rewrite Hs in *. rewrite firstn_length, skipn_length. replace (Nat.min (length r) (length w - k)) with (length r) by lia.
      rewrite Nat.eqb_refl. cbn [negb]. rewrite (IH (k + length r)%nat) by lia. cbn [bind]. do 2 f_equal.
      rewrite skipn_skipn, (Nat.add_comm (length r) k). reflexivity.
  Qed.

  Definition target : list R := int_p0 :: repeat 0 (length polys - 1).
  Lemma combine_map_fst {A B C} (f : A -> B) (l : list A) (m : list C) : combine (map f l) m = map (fun ac => (f (fst ac), snd ac)) (combine l m).
  Proof. revert m. induction l; intros [|c m]; cbn; auto. f_equal. auto. Qed.
  Lemma combine_snd {A B} (l : list A) (m : list B) : length l = length m -> map snd (combine l m) = m.
  Proof. revert m. induction l; intros [|b m] H; cbn in *; try lia; auto. f_equal. auto. Qed.
  Lemma sq_dist_rule d ns pts counts w : gen_points_only cols_of orb d = Some (pts, counts) -> columns_are d ns -> length w = list_sum ns ->
    sq_dist (map (fun p => column_sums (map p pts) 0 (combine counts ns)) polys) w target =
    Rsum (map (fun pb => (apply (flat_map (entry_rule cols_of orb) (attach d (cut ns w))) (fst pb) - snd pb) ^ 2) (combine polys target)).
  Proof.
    intros E C L. destruct (cut_concat ns w L) as [Ew F]. unfold sq_dist. rewrite combine_map_fst, map_map. apply Rsum_map_ext. intros [p b]. cbn [fst snd].
    rewrite <- (sums_apply d ns pts counts p E C [] (cut ns w) F). rewrite Ew. reflexivity.
  Qed.
  Lemma get_w_value ks ns x ow v : least_squares lstsq -> polys <> [] -> Forall (fun a => proper (snd a)) ks ->
    (forall d, shaped ks d -> columns_are d ns) ->
    get_w_from_x cols_of orb lstsq polys int_p0 ks ns x = Some (ow, v) ->
    exists d, x_to_dict ks x = Some d /\ shaped ks d /\
      ((exists w, ow = Some w /\ length w = list_sum ns /\
        v = residual polys int_p0 (flat_map (entry_rule cols_of orb) (attach d (cut ns w))) /\
        forall w', length w' = list_sum ns -> v <= residual polys int_p0 (flat_map (entry_rule cols_of orb) (attach d (cut ns w')))) \/
       (ow = None /\ v = 1 /\ ~ forall c, length c = list_sum ns ->
          (forall p, In p polys -> apply (flat_map (entry_rule cols_of orb) (attach d (cut ns c))) p = 0) -> Forall (fun t => t = 0) c)).
  Proof.
    intros HL HP Hk HC. unfold get_w_from_x. destruct (x_to_dict ks x) as [d|] eqn:Ex; [|discriminate]. cbn [bind].
    assert (S := x_to_dict_shaped ks x d Hk Ex). assert (C := HC d S). intros H. exists d. split; auto. split; auto.
    destruct (columns_points d ns C) as [[pts counts] [Ep [Lc Ls]]]. cbn [fst snd] in *. rewrite Ep in H. cbn [bind] in H. rewrite Ls, Nat.eqb_refl in H. cbn [negb] in H.
    set (A := map (fun p => column_sums (map p pts) 0 (combine counts ns)) polys) in *.
    assert (LA : length A = length polys) by apply map_length.
    assert (Rows : forall row, In row A -> length row = list_sum ns).
    { intros row Hr. apply in_map_iff in Hr. destruct Hr as [p [<- _]]. rewrite column_sums_length, combine_snd by auto. reflexivity. }
    assert (Lb : length (int_p0 :: repeat 0 (length A - 1)) = length A).
    { cbn. rewrite repeat_length. destruct polys; [congruence|]. rewrite LA. cbn. lia. }
    assert (NA : A <> []) by (subst A; destruct polys; [congruence|discriminate]).
    destruct (HL A _ (list_sum ns) NA Rows Lb) as [w [res [rank [E [Lw [Lr [Ir [Fr Nr]]]]]]]]. rewrite E in H.
    assert (Lh : length (hd [] A) = list_sum ns).
    { assert (Hh : In (hd [] A) A) by (subst A; destruct polys; [congruence|cbn; auto]). apply Rows, Hh. }
    rewrite Lh in H. destruct (Nat.ltb_spec rank (Nat.min (length A) (list_sum ns))) as [Q|Q].
    - right. injection H as <- <-. split; auto. split; auto. intros I. assert (rank = list_sum ns); [|lia]. apply Ir. intros c Lcc Hc. apply I; auto.
      intros p Hp. destruct (cut_concat ns c Lcc) as [Ec F]. rewrite <- (sums_apply d ns pts counts p Ep C [] (cut ns c) F), Ec.
      apply Hc. subst A. apply (in_map (fun p => column_sums (map p pts) 0 (combine counts ns))). exact Hp.
    - destruct res as [|r res]; [cbn in H; discriminate|]. cbn in H. injection H as <- <-. left. exists w. split; auto. split; auto.
      assert (G : ~ (rank < list_sum ns \/ length A <= list_sum ns)%nat) by (intros X; apply Nr in X; discriminate).
      destruct Fr as [r' [Er [Vr Mr]]]; [lia|lia|]. injection Er as -> ->.
      assert (T : int_p0 :: repeat 0 (length A - 1) = target) by (unfold target; rewrite LA; reflexivity). rewrite T in *.
      unfold residual. fold target. split.
      + rewrite Vr. f_equal. apply sq_dist_rule; auto.
      + intros w' Lw'. apply sqrt_le_1_alt. rewrite <- (sq_dist_rule d ns pts counts w') by auto. apply Mr. exact Lw'.
  Qed.

  Lemma shaped_structure ks (d : data) d1 ws : shaped ks (raw_of d) -> shaped ks d1 -> Forall2 (fun n w => length w = n) (counts_of d) ws ->
    same_structure d (attach d1 ws).
  Proof.
    revert ks d1 ws. induction d as [|[k [u rows]] d IH]; intros ks d1 ws S S1 F.
    - inversion S; subst. inversion S1; subst. constructor.
    - inversion S as [|[k0 s] b ks' d' [E1 E2] S']; subst. inversion S1 as [|a [k2 r2] ks'' d2 [F1 F2] S2]; subst. inversion F as [|n w l ws' Lw F']; subst.
      cbn [fst snd] in *. subst. constructor; [|eapply IH; eauto]. cbn [fst snd]. split; auto. split; auto.
      rewrite (shape_of_lengths _ _ E2), (shape_of_lengths _ _ F2). reflexivity.
  Qed.
  Lemma attach_regular ks d1 ns ws : shaped ks d1 -> ns = map (fun a => per_key (snd a)) ks -> columns_are d1 ns ->
    Forall2 (fun n w => length w = n) ns ws -> regular cols_of (attach d1 ws).
  Proof.
    intros S. revert ns ws. induction S as [|[k s] [k2 r2] ks d1 [E1 E2] S IH]; intros ns ws En C F; [constructor|].
    cbn [map fst snd] in *. subst. inversion C as [|a n d2 ns' [cols [Ec Lc]] C']; subst. inversion F as [|n' w l ws' Lw F']; subst.
    cbn [fst snd] in *. constructor; [|eapply IH; eauto]. cbn [fst snd]. split.
    - intros cols' E. cbn [fst snd] in E. rewrite Ec in E. injection E as <-. cbn [fst snd]. congruence.
    - rewrite Lw. unfold shape_of in E2. destruct r2 as [|r r2]; [injection E2 as <-; reflexivity|]. destruct (forallb _ _); [|discriminate]. injection E2 as <-. reflexivity.
  Qed.

  (** Everything about an improvement. *)
  Lemma optimize_improved (d : data) d' v : least_squares lstsq -> reports_value minimize -> polys <> [] -> regular cols_of d ->
    optimize_data cols_of orb lstsq minimize polys int_p0 d = Improved d' v ->
    same_structure d d' /\ regular cols_of d' /\
    (exists pw', gen_expand cols_of orb d' = Some pw' /\ v = residual polys int_p0 (mk_rule pw')) /\
    (determined cols_of orb polys d -> forall ws, weights_like d ws ->
     exists pw, gen_expand cols_of orb (with_weights d ws) = Some pw /\ v < residual polys int_p0 (mk_rule pw)).
  Proof.
    intros HL HM HP HR. unfold optimize_data.
    destruct (mapM _ d) as [ks|] eqn:Ek; [|discriminate]. destruct (shapes_start d ks Ek) as [S0 Pk]. fold (counts_of d).
    assert (X0 : concat (map (fun kv => concat (snd (snd kv))) d) = concat (map (fun kv : K * list (list R) => concat (snd kv)) (raw_of d))).
    { unfold raw_of. rewrite map_map. reflexivity. }
    rewrite X0. set (x0 := concat _). assert (D0 : x_to_dict ks x0 = Some (raw_of d)) by (apply x_to_dict_start; auto).
    destruct (get_w_from_x cols_of orb lstsq polys int_p0 ks (counts_of d) x0) as [[ow0 r0]|] eqn:E0; [|discriminate]. cbn [bind snd].
    destruct (minimize _ x0) as [[x fmin]|] eqn:Em; [|discriminate]. destruct (Rle_dec r0 fmin) as [|Hlt]; [discriminate|].
    destruct (HM _ _ _ _ Em) as [Fx _].
    destruct (get_w_from_x cols_of orb lstsq polys int_p0 ks (counts_of d) x) as [[[w|] v']|] eqn:Ex; try discriminate. cbn [bind snd] in Fx. injection Fx as ->.
    assert (C0 : columns_are (raw_of d) (counts_of d)).
    { clear - E0 D0 HR. unfold get_w_from_x in E0. rewrite D0 in E0. cbn [bind] in E0.
      destruct (gen_points_only cols_of orb (raw_of d)) as [pc|] eqn:E; [|discriminate]. eapply points_columns; eauto. }
    assert (CA : forall d1, shaped ks d1 -> columns_are d1 (counts_of d)) by (intros d1 S1; exact (shaped_columns ks (raw_of d) d1 (counts_of d) S0 S1 C0)).
    destruct (get_w_value ks (counts_of d) x (Some w) fmin HL HP Pk CA Ex) as [d1 [Ed [Sd [[w1 [Ew [Lw [Vw Mw]]]]|[Ew _]]]]]; [|discriminate]. injection Ew as <-.
    rewrite Ed. cbn [bind]. assert (PC := per_key_counts d ks S0 HR). assert (LC : Forall2 (fun n w => length w = n) (counts_of d) (cut (counts_of d) w)) by (apply cut_concat; auto).
    rewrite (prepend_cut ks d1 w Sd 0) by (rewrite <- PC; exact Lw). rewrite <- PC. cbn [skipn]. intros H. injection H as <- <-.
    destruct (attach_expand d1 (counts_of d) (cut (counts_of d) w) (CA d1 Sd) LC) as [pw' [Ep' Er']].
    split; [|split; [|split]].
    - eapply shaped_structure; eauto.
    - eapply attach_regular; [exact Sd|exact PC|apply CA; exact Sd|exact LC].
    - exists pw'. split; auto. rewrite Er'. exact Vw.
    - intros HD ws HW.
      assert (FW : Forall2 (fun n w => length w = n) (counts_of d) ws).
      { clear - HW. unfold weights_like, counts_of in *. induction HW; cbn; constructor; auto. }
      destruct (attach_expand (raw_of d) (counts_of d) ws) as [pw [Ep Er]]; auto.
      rewrite with_weights_attach. exists pw. split; auto. rewrite Er.
      destruct (get_w_value ks (counts_of d) x0 ow0 r0 HL HP Pk CA E0) as [d2 [Ed2 [_ [[w0 [Ew0 [Lw0 [Vw0 Mw0]]]]|[_ [_ N]]]]]].
      + rewrite D0 in Ed2. injection Ed2 as <-. apply Rlt_le_trans with r0; [lra|].
        assert (Lq : length (concat ws) = list_sum (counts_of d)).
        { clear - FW. induction FW as [|n w ns ws H F IH]; cbn; auto. rewrite app_length, IH, H. reflexivity. }
        specialize (Mw0 _ Lq). replace (cut (counts_of d) _) with ws in Mw0; [exact Mw0|].
        clear - FW. induction FW as [|n w ns ws H F IH]; cbn; auto. subst n. rewrite firstn_app, skipn_app, Nat.sub_diag, firstn_all, skipn_all. cbn. rewrite app_nil_r, <- IH. reflexivity.
      + exfalso. rewrite D0 in Ed2. injection Ed2 as <-. apply N. intros c Lc Hc.
        destruct (cut_concat (counts_of d) c Lc) as [Ec Fc].
        destruct (attach_expand (raw_of d) (counts_of d) (cut (counts_of d) c) C0 Fc) as [pwc [Epc Erc]].
        assert (Z : Forall (Forall (fun t => t = 0)) (cut (counts_of d) c)).
        { apply (HD _ pwc).
          - unfold weights_like. clear - Fc. revert Fc. generalize (cut (counts_of d) c). unfold counts_of. induction d as [|a d IH]; intros l F; inversion F; subst; constructor; auto.
          - rewrite with_weights_attach. exact Epc.
          - intros p Hp. rewrite Erc. apply Hc. exact Hp. }
        rewrite <- Ec. clear - Z. induction Z; cbn; auto. apply Forall_app. auto.
  Qed.
End Gen.
