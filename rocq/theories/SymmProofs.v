(** Proofs about expand_symmetries: weights and points stay aligned, orbit by orbit. *)
From Coq Require Import Reals List Arith Lia Lra Permutation Bool.
From Verif Require Import Spec RsumLemmas CombModel CombProofs CombProofs2 PyBase SymmModel OrbitModel SchemeTools.
Import ListNotations.
Open Scope R_scope.

Lemma combine_concat {A B} (ws : list A) (ps : list (list B)) :
  (forall p, In p ps -> length p = length ws) ->
  List.combine (concat (repeat ws (length ps))) (concat ps) = flat_map (fun p => List.combine ws p) ps.
Proof.
  induction ps as [|p ps IH]; intros H; simpl; auto.
  rewrite combine_app_len by (symmetry; apply H; left; auto). rewrite IH; auto.
  intros q Hq. apply H. right. auto.
Qed.

Lemma combine_map_r {A B C} (f : B -> C) (ws : list A) (l : list B) :
  List.combine ws (map f l) = map (fun wb => (fst wb, f (snd wb))) (List.combine ws l).
Proof. revert l; induction ws; intros [|b l]; simpl; auto. f_equal; auto. Qed.

Lemma map_nth_seq {A} (d : A) l : map (fun i => nth i l d) (seq 0 (length l)) = l.
Proof.
  induction l; simpl; auto. rewrite <- seq_shift, map_map. simpl. f_equal. auto.
Qed.

Lemma flat_map_swap_perm {A B C} (f : A -> B -> C) (l : list A) (m : list B) :
  Permutation (flat_map (fun a => map (f a) m) l) (flat_map (fun b => map (fun a => f a b) l) m).
Proof.
  induction l as [|a l IH]; simpl.
  - induction m; simpl; auto.
  - transitivity (map (f a) m ++ flat_map (fun b => map (fun a0 => f a0 b) l) m).
    + apply Permutation_app_head. auto.
    + clear. induction m as [|b m IH]; simpl; auto. constructor.
      rewrite <- IH. rewrite !app_assoc. apply Permutation_app_tail. apply Permutation_app_comm.
Qed.

Section Gen.
  Context {K : Type} (cols_of : K -> list (list R) -> option (list (list R))) (orb : K -> list R -> list point).

  (** The rule of one dictionary entry, in the order of the code. *)
  Definition entry_rule (kv : K * (list R * list (list R))) : rule :=
    match cols_of (fst kv) (snd (snd kv)) with
    | None => []
    | Some cols =>
        flat_map (fun i => map (fun wc => (fst wc, nth i (orb (fst kv) (snd wc)) []))
                               (List.combine (fst (snd kv)) cols))
                 (seq 0 (length (orb (fst kv) [])))
    end.
  (** As a multiset: the weight of each column goes to every point of the orbit of that column. *)
  Definition entry_spec (kv : K * (list R * list (list R))) : rule :=
    match cols_of (fst kv) (snd (snd kv)) with
    | None => []
    | Some cols =>
        flat_map (fun wc => map (fun p => (fst wc, p)) (orb (fst kv) (snd wc)))
                 (List.combine (fst (snd kv)) cols)
    end.
  Definition entry_aligned (kv : K * (list R * list (list R))) : Prop :=
    forall cols, cols_of (fst kv) (snd (snd kv)) = Some cols -> length (fst (snd kv)) = length cols.

  Lemma gen_expand_rule data pw :
    gen_expand cols_of orb data = Some pw ->
    Forall entry_aligned data ->
    mk_rule pw = flat_map entry_rule data /\ length (fst pw) = length (snd pw).
  Proof.
    unfold gen_expand. destruct (gen_points_only _ _ _) as [pc|] eqn:E; [|discriminate].
    simpl. intros Q Hl; injection Q as <-. unfold mk_rule. cbn [fst snd].
    revert pc E. induction data as [|[k [ws rows]] data IH]; intros pc E.
    - simpl in E. injection E as <-. auto.
    - inversion Hl as [|x l Hk Hl']; subst. simpl in E.
      destruct (gen_key_points cols_of orb k rows) as [pts|] eqn:Ek; [|discriminate]. simpl in E.
      destruct (gen_points_only _ _ _) as [rest|] eqn:Er; [|discriminate]. simpl in E.
      injection E as <-. cbn [fst snd map List.combine concat flat_map].
      destruct (IH Hl' _ eq_refl) as [IH1 IH2].
      unfold gen_key_points in Ek. unfold entry_aligned in Hk. cbn [fst snd] in Hk.
      unfold entry_rule at 1. cbn [fst snd].
      destruct (cols_of k rows) as [cols|]; [|discriminate]. simpl in Ek. injection Ek as Ek.
      specialize (Hk cols eq_refl).
      assert (Hp : forall p, In p pts -> length p = length ws).
      { intros p Hp. rewrite <- Ek in Hp. apply in_map_iff in Hp. destruct Hp as [i [<- _]].
        rewrite map_length. auto. }
      assert (Hlen : length (concat pts) = length (tile ws (length pts))).
      { unfold tile. clear -Hp. induction pts; simpl; auto. rewrite !app_length, IHpts.
        - rewrite (Hp a) by (left; auto). auto.
        - intros; apply Hp; right; auto. }
      split.
      + rewrite combine_app_len by (symmetry; apply Hlen). rewrite IH1. f_equal.
        unfold tile. rewrite combine_concat by auto. rewrite <- Ek.
        rewrite !flat_map_concat_map, map_map. f_equal. apply map_ext. intros i.
        rewrite combine_map_r. auto.
      + rewrite !app_length, Hlen, IH2. auto.
  Qed.

  Context (orb_len : forall k c, length (orb k c) = length (orb k [])).

  Lemma entry_rule_perm kv : Permutation (entry_rule kv) (entry_spec kv).
  Proof.
    unfold entry_rule, entry_spec. destruct kv as [k [ws rows]]; cbn [fst snd].
    destruct (cols_of k rows) as [cols|]; [|auto].
    etransitivity.
    - apply (flat_map_swap_perm (fun i wc => (fst wc, nth i (orb k (snd wc)) []))).
    - match goal with |- Permutation ?a ?b => replace a with b; [reflexivity|] end.
      rewrite !flat_map_concat_map. f_equal. apply map_ext. intros [w c]. cbn [fst snd].
      rewrite <- (orb_len k c).
      rewrite <- (map_map (fun i => nth i (orb k c) []) (fun p => (w, p))).
      rewrite map_nth_seq. auto.
  Qed.

  Theorem gen_expand_spec data pw :
    gen_expand cols_of orb data = Some pw ->
    Forall entry_aligned data ->
    length (fst pw) = length (snd pw) /\ Permutation (mk_rule pw) (flat_map entry_spec data).
  Proof.
    intros H Ha. destruct (gen_expand_rule _ _ H Ha) as [H1 H2]. split; auto. rewrite H1.
    clear H Ha H1 H2. induction data as [|kv data IH]; simpl; auto.
    apply Permutation_app; auto. apply entry_rule_perm.
  Qed.

  (** The call raises exactly when some entry's data has a wrong shape. *)
  Theorem gen_expand_Some data :
    (exists pw, gen_expand cols_of orb data = Some pw) <->
    Forall (fun kv => cols_of (fst kv) (snd (snd kv)) <> None) data.
  Proof.
    unfold gen_expand.
    assert (G : (exists pc, gen_points_only cols_of orb (map (fun kv => (fst kv, snd (snd kv))) data) = Some pc) <->
                Forall (fun kv : K * (list R * list (list R)) => cols_of (fst kv) (snd (snd kv)) <> None) data).
    { induction data as [|[k [ws rows]] data IH]; simpl.
      - split; [auto|eauto].
      - unfold gen_key_points. destruct (cols_of k rows) as [cols|] eqn:Ec; simpl.
        + destruct (gen_points_only _ _ _) as [pc|]; simpl.
          * split; [|eauto]. intros _. constructor; [cbn; congruence|]. apply IH. eauto.
          * split; [intros [? ?]; discriminate|]. intros Hf. inversion Hf; subst.
            apply IH in H2. destruct H2; discriminate.
        + split; [intros [? ?]; discriminate|]. intros Hf. inversion Hf; subst. cbn in H1. congruence. }
    rewrite <- G. destruct (gen_points_only _ _ _); simpl; split; intros [? ?]; try discriminate; eauto.
  Qed.

  (** A single parameter column. *)
  Lemma entry_rule_one k w rows c : cols_of k rows = Some [c] ->
    entry_rule (k, ([w], rows)) = map (fun p => (w, p)) (orb k c).
  Proof.
    intros H. unfold entry_rule. cbn [fst snd]. rewrite H. cbn [List.combine].
    rewrite <- (orb_len k c). rewrite flat_map_concat_map. cbn [map fst snd].
    rewrite <- (map_map (fun i => nth i (orb k c) []) (fun p => [(w, p)])).
    rewrite map_nth_seq. rewrite <- flat_map_concat_map.
    induction (orb k c) as [|x l IH]; simpl; [auto|]. rewrite IH. reflexivity.
  Qed.
End Gen.

Lemma orbit_length dim k c : length (orbit k dim c) = length (orbit k dim []).
Proof.
  assert (HP : forall a a', length (product (repeat [a; - a] dim)) = length (product (repeat [a'; - a'] dim))).
  { intros a a'. rewrite (@length_product R), (@length_product R). f_equal.
    induction dim; simpl; auto. f_equal; auto. }
  destruct k; try reflexivity.
  - apply HP.
  - unfold orbit. cbv zeta. rewrite !length_flat_map. f_equal.
  - unfold orbit. cbv zeta. rewrite !map_length. auto.
Qed.
Lemma t3_orbit_length k c : length (t3_orbit k c) = length (t3_orbit k []).
Proof. destruct k; reflexivity. Qed.
Lemma u3_orbit_length k c : length (u3_orbit k c) = length (u3_orbit k []).
Proof. destruct k; reflexivity. Qed.

(* ------------------------------------------------------- resolving string keys *)
Lemma resolve_None {B V} (tbl : list (String.string * B)) (data : list (String.string * V)) :
  resolve tbl data = None <-> Exists (fun sv => lookup tbl (fst sv) = None) data.
Proof.
  induction data as [|[s v] data IH]; simpl.
  - split; [discriminate|]. intros H; inversion H.
  - rewrite Exists_cons. cbn [fst]. destruct (lookup tbl s); simpl.
    + destruct (resolve tbl data); simpl; split; try discriminate; auto.
      * intros [H|H]; [discriminate|]. apply IH in H. discriminate.
      * intros _. right. apply IH. auto.
    + split; auto.
Qed.
Lemma lookup_None {B} (tbl : list (String.string * B)) s : lookup tbl s = None <-> ~ In s (map fst tbl).
Proof.
  unfold lookup. induction tbl as [|[s' b] tbl IH]; simpl; [tauto|].
  destruct (String.eqb_spec s' s) as [->|Hn]; simpl.
  - split; [discriminate|tauto].
  - rewrite IH. split; [intros H [H'|H']; auto|auto].
Qed.

(* ------------------------------------------------------- used by the cn/sn/... schemes *)
Lemma key_cols_K0 dim : key_cols K0 dim [] = Some [[]]. Proof. reflexivity. Qed.
Lemma key_cols_Ka dim a : key_cols Ka dim [[a]] = Some [[a]]. Proof. reflexivity. Qed.
Lemma key_cols_Ka0 dim a : key_cols Ka0 dim [[a]] = Some [[a]]. Proof. reflexivity. Qed.

Lemma expand_rule_single data dim pw :
  expand_symmetries data dim = Some pw ->
  Forall (fun kv => exists w c, fst (snd kv) = [w] /\ key_cols (fst kv) dim (snd (snd kv)) = Some [c]) data ->
  mk_rule pw = flat_map (fun kv => map (fun p => (hd 0 (fst (snd kv)), p))
     (orbit (fst kv) dim (hd [] (match key_cols (fst kv) dim (snd (snd kv)) with Some l => l | None => [] end)))) data.
Proof.
  intros H Hf. unfold expand_symmetries in H.
  assert (Ha : Forall (entry_aligned (fun k => key_cols k dim)) data).
  { eapply Forall_impl; [|exact Hf]. intros [k [ws rows]] [w [c [E1 E2]]] cols. cbn [fst snd] in *.
    rewrite E2, E1. intros Q; injection Q as <-. auto. }
  destruct (gen_expand_rule _ _ _ _ H Ha) as [-> _].
  rewrite !flat_map_concat_map. f_equal. apply map_ext_in. intros kv Hkv.
  rewrite Forall_forall in Hf. destruct (Hf _ Hkv) as [w [c [E1 E2]]].
  destruct kv as [k [ws rows]]. cbn [fst snd] in *. subst ws.
  rewrite (entry_rule_one (fun k => key_cols k dim) (fun k => orbit k dim) (orbit_length dim) k w rows c E2).
  rewrite E2. auto.
Qed.
