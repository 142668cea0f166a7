(** Proofs about symmetry orbits. *)
From Coq Require Import Reals List Arith Lia Lra Permutation Bool.
From Verif Require Import Spec RsumLemmas CombModel CombProofs CombProofs2 PyBase SymmModel OrbitModel OrbitSpec SchemeTools.
Import ListNotations.
Open Scope R_scope.

(* ---------------------------------------------------------------- symbolic orbits *)
(** A coordinate: zero, or a signed parameter. *)
Definition sg := option (bool * nat).
Definition sneg (s : sg) : sg := option_map (fun bi => (negb (fst bi), snd bi)) s.
Definition ev (v : nat -> R) (s : sg) : R :=
  match s with None => 0 | Some (b, i) => if b then - v i else v i end.
Fixpoint sflip (ss : list bool) (p : list sg) : list sg :=
  match ss, p with
  | s :: ss', x :: p' => (if s then sneg x else x) :: sflip ss' p'
  | _, _ => p
  end.
Definition spermute (sigma : list nat) (p : list sg) : list sg := map (fun i => nth i p None) sigma.

Lemma ev_neg v s : ev v (sneg s) = - ev v s.
Proof. destruct s as [[[|] i]|]; simpl; ring. Qed.
Lemma flip_ev v ss p : flip ss (map (ev v) p) = map (ev v) (sflip ss p).
Proof.
  revert p; induction ss as [|s ss IH]; intros [|x p]; simpl; auto. rewrite IH. f_equal.
  destruct s; auto. rewrite ev_neg. auto.
Qed.
Lemma permute_ev v sigma p : permute sigma (map (ev v) p) = map (ev v) (spermute sigma p).
Proof.
  unfold permute, spermute. rewrite map_map. apply map_ext. intros i.
  change 0 with (ev v None). rewrite map_nth. auto.
Qed.

Definition sg_eq_dec (a b : sg) : {a = b} + {a <> b}.
Proof. decide equality. destruct a0, p. decide equality; [apply Nat.eq_dec|apply Bool.bool_dec]. Defined.
Definition sp_eq_dec : forall a b : list sg, {a = b} + {a <> b} := list_eq_dec sg_eq_dec.

Fixpoint remove1 (x : list sg) (l : list (list sg)) : option (list (list sg)) :=
  match l with
  | [] => None
  | y :: l' => if sp_eq_dec x y then Some l' else option_map (cons y) (remove1 x l')
  end.
Fixpoint permb (l m : list (list sg)) : bool :=
  match l with
  | [] => match m with [] => true | _ => false end
  | x :: l' => match remove1 x m with Some m' => permb l' m' | None => false end
  end.
Lemma remove1_perm x l l' : remove1 x l = Some l' -> Permutation (x :: l') l.
Proof.
  revert l'; induction l as [|y l IH]; simpl; intros l' H; [discriminate|].
  destruct (sp_eq_dec x y) as [<-|Hn]; [injection H as <-; auto|].
  destruct (remove1 x l) as [m|]; [|discriminate]. injection H as <-.
  rewrite perm_swap. constructor. apply IH; auto.
Qed.
Lemma permb_perm l : forall m, permb l m = true -> Permutation l m.
Proof.
  induction l as [|x l IH]; intros m H; simpl in H.
  - destruct m; [auto|discriminate].
  - destruct (remove1 x m) as [m'|] eqn:E; [|discriminate].
    apply remove1_perm in E. rewrite <- E. constructor. apply IH; auto.
Qed.

Lemma invariant_sym v (S : list (list sg)) sigma ss :
  permb (map (fun p => sflip ss (spermute sigma p)) S) S = true ->
  invariant (fun p => flip ss (permute sigma p)) (map (map (ev v)) S).
Proof.
  intros H. unfold invariant. rewrite map_map.
  rewrite (map_ext _ (fun p => map (ev v) (sflip ss (spermute sigma p))))
    by (intros; rewrite permute_ev, flip_ev; auto).
  rewrite <- (map_map (fun p => sflip ss (spermute sigma p)) (map (ev v))).
  apply Permutation_map. apply permb_perm. auto.
Qed.

(** All permutations of 0..n-1, as a list. *)
Fixpoint inserts {A} (x : A) (l : list A) : list (list A) :=
  match l with
  | [] => [[x]]
  | y :: l' => (x :: l) :: map (cons y) (inserts x l')
  end.
Fixpoint all_perms {A} (l : list A) : list (list A) :=
  match l with
  | [] => [[]]
  | x :: l' => flat_map (inserts x) (all_perms l')
  end.
Lemma in_inserts {A} (x : A) l1 l2 : In (l1 ++ x :: l2) (inserts x (l1 ++ l2)).
Proof.
  induction l1; simpl; [destruct l2; simpl; auto|]. right. apply in_map. auto.
Qed.
Lemma all_perms_complete {A} (l p : list A) : Permutation p l -> In p (all_perms l).
Proof.
  revert p; induction l as [|x l IH]; simpl; intros p H.
  - apply Permutation_sym, Permutation_nil in H. auto.
  - assert (Hx : In x p) by (eapply Permutation_in; [apply Permutation_sym; exact H|left; auto]).
    apply in_split in Hx. destruct Hx as [l1 [l2 ->]].
    apply in_flat_map. exists (l1 ++ l2). split; [|apply in_inserts].
    apply IH. apply Permutation_sym in H. apply Permutation_cons_app_inv in H. apply Permutation_sym; auto.
Qed.
Fixpoint all_signs (n : nat) : list (list bool) :=
  match n with O => [[]] | S m => map (cons true) (all_signs m) ++ map (cons false) (all_signs m) end.
Lemma all_signs_complete n ss : length ss = n -> In ss (all_signs n).
Proof.
  intros <-. induction ss as [|s ss IH]; simpl; auto. apply in_or_app.
  destruct s; [left|right]; apply in_map; auto.
Qed.

Definition cube_check (n : nat) (S : list (list sg)) : bool :=
  forallb (fun sigma => forallb (fun ss => permb (map (fun p => sflip ss (spermute sigma p)) S) S) (all_signs n))
          (all_perms (seq 0 n)).
Lemma cube_check_ok n S v : cube_check n S = true -> cube_symmetric n (map (map (ev v)) S).
Proof.
  unfold cube_check. intros H sigma ss Hs Hl. apply invariant_sym.
  rewrite forallb_forall in H. specialize (H sigma (all_perms_complete _ _ Hs)).
  rewrite forallb_forall in H. apply H. apply all_signs_complete. auto.
Qed.

Lemma invariant_ext g h O : (forall p, In p O -> g p = h p) -> invariant g O -> invariant h O.
Proof. unfold invariant. intros H. rewrite (map_ext_in g h) by auto. auto. Qed.

Lemma flip_false n p : flip (repeat false n) p = p.
Proof. revert p; induction n; intros [|x p]; simpl; auto. f_equal. auto. Qed.

Lemma permute_id p : permute (seq 0 (length p)) p = p.
Proof.
  unfold permute. induction p as [|x p IH]; simpl; auto.
  rewrite <- seq_shift, map_map. simpl. f_equal. auto.
Qed.

Definition perm_check (n : nat) (sigmas : list (list nat)) (S : list (list sg)) : bool :=
  forallb (fun sigma => permb (map (fun p => sflip (repeat false n) (spermute sigma p)) S) S) sigmas.
Lemma perm_check_ok n sigmas S v sigma : perm_check n sigmas S = true -> In sigma sigmas ->
  invariant (permute sigma) (map (map (ev v)) S).
Proof.
  unfold perm_check. intros H Hi. rewrite forallb_forall in H. specialize (H _ Hi).
  eapply invariant_ext; [|apply (invariant_sym v S sigma (repeat false n) H)].
  intros; simpl. apply flip_false.
Qed.
Definition sign_check (n : nat) (sss : list (list bool)) (S : list (list sg)) : bool :=
  (forallb (fun p => Nat.eqb (length p) n) S &&
   forallb (fun ss => permb (map (fun p => sflip ss (spermute (seq 0 n) p)) S) S) sss)%bool.
Lemma sign_check_ok n sss S v ss : sign_check n sss S = true -> In ss sss ->
  invariant (flip ss) (map (map (ev v)) S).
Proof.
  unfold sign_check. rewrite andb_true_iff. intros [Hl H] Hi. rewrite forallb_forall in H, Hl.
  specialize (H _ Hi). eapply invariant_ext; [|apply (invariant_sym v S (seq 0 n) ss H)].
  intros p Hp. apply in_map_iff in Hp. destruct Hp as [q [<- Hq]]. apply Hl in Hq.
  apply Nat.eqb_eq in Hq. f_equal. rewrite <- Hq, <- (map_length (ev v) q). apply permute_id.
Qed.

(** The general shape used below: symbols over the column's entries. *)
Definition cv (c : list R) (i : nat) : R := nth i c 0.
Local Notation p0 := (Some (false, 0%nat)).
Local Notation m0 := (Some (true, 0%nat)).
Local Notation p1 := (Some (false, 1%nat)).
Local Notation m1 := (Some (true, 1%nat)).
Local Notation p2 := (Some (false, 2%nat)).
Local Notation m2 := (Some (true, 2%nat)).
Local Notation p3 := (Some (false, 3%nat)).
Local Notation oo := (@None (bool * nat)).

(* ---------------------------------------------------------------- planar orbits *)
Lemma d4_ab_sym c : cube_symmetric 2 (orbit Kd4_ab 2 c).
Proof.
  apply (cube_check_ok 2 [[p0;p1];[m0;p1];[p0;m1];[m0;m1];[p1;p0];[m1;p0];[p1;m0];[m1;m0]] (cv c)).
  reflexivity.
Qed.
Lemma d4_aa_sym c : cube_symmetric 2 (orbit Kd4_aa 2 c).
Proof. apply (cube_check_ok 2 [[p0;p0];[m0;p0];[p0;m0];[m0;m0]] (cv c)). reflexivity. Qed.
Lemma d4_a0_sym c : cube_symmetric 2 (orbit Kd4_a0 2 c).
Proof. apply (cube_check_ok 2 [[p0;oo];[m0;oo];[oo;p0];[oo;m0]] (cv c)). reflexivity. Qed.
Lemma c4_sym c : invariant (fun p => [- nth 1 p 0; nth 0 p 0]) (orbit Kc4 2 c).
Proof.
  apply (invariant_sym (cv c) [[p0;p1];[m0;m1];[m1;p0];[p1;m0]] [1%nat;0%nat] [true;false]). reflexivity.
Qed.
Lemma sxy_sym c : sign_symmetric 2 (orbit Ksxy 2 c).
Proof.
  intros ss H. apply (sign_check_ok 2 (all_signs 2) [[p0;p1];[p0;m1];[m0;p1];[m0;m1]] (cv c)).
  - reflexivity. - apply all_signs_complete. auto.
Qed.
Lemma sx_sym c : invariant (flip [true; false]) (orbit Ksx 2 c).
Proof. apply (sign_check_ok 2 [[true;false]] [[p0;p1];[m0;p1]] (cv c)); [reflexivity|left; auto]. Qed.
Lemma c2_sym c : invariant (flip [true; true]) (orbit Kc2 2 c).
Proof. apply (sign_check_ok 2 [[true;true]] [[p0;p1];[m0;m1]] (cv c)); [reflexivity|left; auto]. Qed.
Lemma c2_a0_sym c : sign_symmetric 2 (orbit Kc2_a0 2 c).
Proof.
  intros ss H. apply (sign_check_ok 2 (all_signs 2) [[p0;oo];[m0;oo]] (cv c)).
  - reflexivity. - apply all_signs_complete. auto.
Qed.
Lemma c2_0a_sym c : sign_symmetric 2 (orbit Kc2_0a 2 c).
Proof.
  intros ss H. apply (sign_check_ok 2 (all_signs 2) [[oo;p0];[oo;m0]] (cv c)).
  - reflexivity. - apply all_signs_complete. auto.
Qed.

(** Regular n-gon *)
Definition ngon_pt (n off : nat) (a : R) (i : nat) : point :=
  let alpha := (2 * INR i + INR off) * PI / INR n in [cos alpha * a; sin alpha * a].

Lemma ngon_period n off a : (1 <= n)%nat -> ngon_pt n off a n = ngon_pt n off a 0.
Proof.
  intros H. unfold ngon_pt. assert (Hn : INR n <> 0) by (apply not_0_INR; lia).
  replace ((2 * INR n + INR off) * PI / INR n) with (INR off * PI / INR n + 2 * INR 1 * PI) by (simpl; field; auto).
  rewrite cos_period, sin_period. simpl (INR 0).
  replace ((2 * 0 + INR off) * PI / INR n) with (INR off * PI / INR n) by (field; auto). auto.
Qed.

Lemma seq_S_perm n : map S (seq 0 n) = seq 1 n.
Proof. apply seq_shift. Qed.

Lemma ngon_rot1 n off c : (1 <= n)%nat -> invariant (rotate (2 * PI / INR n)) (orbit (Kd n off) 2 c).
Proof.
  intros H. unfold invariant. change (orbit (Kd n off) 2 c) with (map (ngon_pt n off (nth 0 c 0)) (seq 0 n)).
  set (a := nth 0 c 0). rewrite map_map.
  assert (Hn : INR n <> 0) by (apply not_0_INR; lia).
  rewrite (map_ext _ (fun i => ngon_pt n off a (S i))).
  - rewrite <- (map_map S (ngon_pt n off a)), seq_shift.
    destruct n as [|n]; [lia|]. rewrite (seq_S n 1). rewrite map_app. simpl map at 2.
    change (1 + n)%nat with (S n). rewrite ngon_period by lia. simpl seq. simpl map at 2.
    apply Permutation_sym, Permutation_cons_append.
  - intros i. unfold rotate, ngon_pt. cbn [nth].
    replace ((2 * INR (S i) + INR off) * PI / INR n) with ((2 * INR i + INR off) * PI / INR n + 2 * PI / INR n)
      by (rewrite S_INR; field; auto).
    rewrite cos_plus, sin_plus. f_equal; [ring|f_equal; ring].
Qed.

Lemma invariant_comp g h O : invariant g O -> invariant h O -> invariant (fun p => g (h p)) O.
Proof.
  unfold invariant. intros Hg Hh. rewrite <- (map_map h g).
  etransitivity; [apply Permutation_map; exact Hh|auto].
Qed.

Lemma ngon_rot n off c j : (1 <= n)%nat -> invariant (rotate (2 * PI * INR j / INR n)) (orbit (Kd n off) 2 c).
Proof.
  intros H. assert (Hn : INR n <> 0) by (apply not_0_INR; lia). induction j as [|j IH].
  - eapply invariant_ext; [|unfold invariant; rewrite map_id; reflexivity].
    intros p Hp. unfold orbit in Hp. cbv zeta in Hp. apply in_map_iff in Hp. destruct Hp as [i [<- _]].
    unfold rotate. cbn [nth]. simpl (INR 0). replace (2 * PI * 0 / INR n) with 0 by (field; auto).
    rewrite cos_0, sin_0. f_equal; [ring|f_equal; ring].
  - eapply invariant_ext; [|apply (invariant_comp _ _ _ (ngon_rot1 n off c H) IH)].
    intros p _. unfold rotate. cbn [nth].
    replace (2 * PI * INR (S j) / INR n) with (2 * PI / INR n + 2 * PI * INR j / INR n)
      by (rewrite S_INR; field; auto).
    rewrite cos_plus, sin_plus. f_equal; [ring|f_equal; ring].
Qed.

Lemma rev_seq_map n : rev (seq 0 n) = map (fun i => (n - 1 - i)%nat) (seq 0 n).
Proof.
  induction n as [|n IH]; auto.
  rewrite seq_S at 1. rewrite rev_app_distr. cbn [rev app]. rewrite IH. cbn [seq map].
  f_equal; [lia|]. rewrite <- seq_shift, map_map. apply map_ext. intros i. lia.
Qed.

(** Offset 0 and 1: the n-gon is also symmetric about the x-axis. *)
Lemma ngon_mirror n off c : (1 <= n)%nat -> (off <= 1)%nat ->
  invariant (fun p => [nth 0 p 0; - nth 1 p 0]) (orbit (Kd n off) 2 c).
Proof.
  intros H Ho. unfold invariant. change (orbit (Kd n off) 2 c) with (map (ngon_pt n off (nth 0 c 0)) (seq 0 n)).
  set (a := nth 0 c 0). rewrite map_map.
  assert (Hn : INR n <> 0) by (apply not_0_INR; lia).
  (* entry i is mapped to index n - off - i *)
  assert (G : forall i, (i + off <= n)%nat -> [cos ((2 * INR i + INR off) * PI / INR n) * a; - (sin ((2 * INR i + INR off) * PI / INR n) * a)]
     = ngon_pt n off a (n - off - i)).
  { intros i Hi. unfold ngon_pt.
    replace ((2 * INR (n - off - i) + INR off) * PI / INR n) with (- ((2 * INR i + INR off) * PI / INR n) + 2 * INR 1 * PI).
    - rewrite cos_period, sin_period, cos_neg, sin_neg. f_equal. f_equal. ring.
    - rewrite minus_INR, minus_INR by lia. simpl (INR 1). field. auto. }
  rewrite (map_ext_in _ (fun i => ngon_pt n off a (n - off - i))).
  2:{ intros i Hi. apply in_seq in Hi. rewrite <- G; [reflexivity|lia]. }
  destruct off as [|[|]]; [| |lia].
  - destruct n as [|n]; [lia|]. cbn [seq map].
    replace (S n - 0 - 0)%nat with (S n) by lia. rewrite (ngon_period (S n)) by lia. constructor.
    rewrite <- !seq_shift, !map_map.
    rewrite (map_ext_in _ (fun i => ngon_pt (S n) 0 a (S (n - 1 - i)))).
    2:{ intros i Hi. apply in_seq in Hi. f_equal. lia. }
    rewrite <- (map_map (fun i => (n - 1 - i)%nat) (fun i => ngon_pt (S n) 0 a (S i))).
    rewrite <- rev_seq_map. apply Permutation_map. apply Permutation_sym, Permutation_rev.
  - rewrite <- (map_map (fun i => (n - 1 - i)%nat) (ngon_pt n 1 a)).
    rewrite <- rev_seq_map. apply Permutation_map. apply Permutation_sym, Permutation_rev.
Qed.

(* ---------------------------------------------------------------- triangle and tetrahedron *)
Ltac bary := intros p Hp; simpl in Hp; repeat (destruct Hp as [<-|Hp]; [split; [reflexivity|simpl; lra]|]); destruct Hp.
Definition tri_key (k : key) : Prop :=
  match k with Kcentroid | Kvertex | Kd3_ab | Kd3_aa | Kc3_ab | Kswap_ab | Ks2_static => True | _ => False end.
Lemma tri_bary k dim c : tri_key k -> barycentric 2 (orbit k dim c).
Proof. destruct k; simpl; intros H; try tauto; bary. Qed.

Lemma perm_sym_of n S v : perm_check n (all_perms (seq 0 n)) S = true -> perm_symmetric n (map (map (ev v)) S).
Proof. intros H sigma Hs. eapply perm_check_ok; [exact H|]. apply all_perms_complete. auto. Qed.

Lemma d3_ab_sym dim c : perm_symmetric 3 (orbit Kd3_ab dim c).
Proof.
  apply (perm_sym_of 3 [[p0;p1;p2];[p2;p0;p1];[p1;p2;p0];[p1;p0;p2];[p2;p1;p0];[p0;p2;p1]]
    (fun i => nth i [nth 0 c 0; nth 1 c 0; 1 - nth 0 c 0 - nth 1 c 0] 0)). reflexivity.
Qed.
Lemma d3_aa_sym dim c : perm_symmetric 3 (orbit Kd3_aa dim c).
Proof.
  apply (perm_sym_of 3 [[p0;p0;p1];[p0;p1;p0];[p1;p0;p0]]
    (fun i => nth i [nth 0 c 0; 1 - 2 * nth 0 c 0] 0)). reflexivity.
Qed.
Lemma centroid_sym dim c : perm_symmetric 3 (orbit Kcentroid dim c).
Proof. apply (perm_sym_of 3 [[p0;p0;p0]] (fun _ => 1/3)). reflexivity. Qed.
Lemma vertex_sym dim c : perm_symmetric 3 (orbit Kvertex dim c).
Proof. apply (perm_sym_of 3 [[p0;oo;oo];[oo;p0;oo];[oo;oo;p0]] (fun _ => 1)). reflexivity. Qed.
Lemma c3_ab_sym dim c : cyclic3_symmetric (orbit Kc3_ab dim c).
Proof.
  intros sigma Hs.
  apply (perm_check_ok 3 [[0; 1; 2]; [1; 2; 0]; [2; 0; 1]]%nat [[p0;p1;p2];[p2;p0;p1];[p1;p2;p0]]
    (fun i => nth i [nth 0 c 0; nth 1 c 0; 1 - nth 0 c 0 - nth 1 c 0] 0)); auto.
Qed.
Lemma swap_ab_sym dim c : invariant (permute [1; 0; 2]%nat) (orbit Kswap_ab dim c).
Proof.
  apply (perm_check_ok 3 [[1; 0; 2]]%nat [[p0;p1;p2];[p1;p0;p2]]
    (fun i => nth i [nth 0 c 0; nth 1 c 0; 1 - nth 0 c 0 - nth 1 c 0] 0)); [reflexivity|left; auto].
Qed.
Lemma s2_static_sym dim c : invariant (permute [1; 0; 2]%nat) (orbit Ks2_static dim c).
Proof.
  apply (perm_check_ok 3 [[1; 0; 2]]%nat [[p0;p0;p1]]
    (fun i => nth i [nth 0 c 0; 1 - 2 * nth 0 c 0] 0)); [reflexivity|left; auto].
Qed.

Lemma t3_bary k c : k <> T_plain -> barycentric 3 (t3_orbit k c).
Proof. destruct k; intros H; try tauto; bary. Qed.
Lemma t3_sym k c : k <> T_plain -> perm_symmetric 4 (t3_orbit k c).
Proof.
  destruct k; intros H; try tauto.
  - apply (perm_sym_of 4 [[p0;p0;p0;p0]] (fun _ => 1/4)). reflexivity.
  - apply (perm_sym_of 4 [[p0;p0;p0;p1];[p0;p0;p1;p0];[p0;p1;p0;p0];[p1;p0;p0;p0]]
     (fun i => nth i [nth 0 c 0; 1 - 3 * nth 0 c 0] 0)). reflexivity.
  - apply (perm_sym_of 4 [[p0;p0;p1;p1];[p0;p1;p0;p1];[p1;p0;p0;p1];[p0;p1;p1;p0];[p1;p0;p1;p0];[p1;p1;p0;p0]]
     (fun i => nth i [nth 0 c 0; (1 - 2 * nth 0 c 0) / 2] 0)). reflexivity.
  - apply (perm_sym_of 4 [[p0;p0;p1;p2];[p0;p1;p0;p2];[p1;p0;p0;p2];[p0;p1;p2;p0];[p1;p0;p2;p0];[p1;p2;p0;p0];
                          [p0;p0;p2;p1];[p0;p2;p0;p1];[p2;p0;p0;p1];[p0;p2;p1;p0];[p2;p0;p1;p0];[p2;p1;p0;p0]]
     (fun i => nth i [nth 0 c 0; nth 1 c 0; 1 - 2 * nth 0 c 0 - nth 1 c 0] 0)). reflexivity.
  - apply (perm_sym_of 4 [[p0;p1;p2;p3];[p0;p1;p3;p2];[p0;p2;p1;p3];[p0;p2;p3;p1];[p0;p3;p1;p2];[p0;p3;p2;p1];
      [p1;p0;p2;p3];[p1;p0;p3;p2];[p1;p2;p0;p3];[p1;p2;p3;p0];[p1;p3;p0;p2];[p1;p3;p2;p0];
      [p2;p0;p1;p3];[p2;p0;p3;p1];[p2;p1;p0;p3];[p2;p1;p3;p0];[p2;p3;p0;p1];[p2;p3;p1;p0];
      [p3;p0;p1;p2];[p3;p0;p2;p1];[p3;p1;p0;p2];[p3;p1;p2;p0];[p3;p2;p0;p1];[p3;p2;p1;p0]]
     (fun i => nth i [nth 0 c 0; nth 1 c 0; nth 2 c 0; 1 - nth 0 c 0 - nth 1 c 0 - nth 2 c 0] 0)). vm_compute. reflexivity.
Qed.

(* ---------------------------------------------------------------- octahedral orbits *)
Definition s_r00 := [[p0;oo;oo];[m0;oo;oo];[oo;p0;oo];[oo;m0;oo];[oo;oo;p0];[oo;oo;m0]].
Lemma symm_r00_sym dim c : cube_symmetric 3 (orbit Ksymm_r00 dim c).
Proof. apply (cube_check_ok 3 s_r00 (cv c)). reflexivity. Qed.
Lemma symm_rr0_sym dim c : cube_symmetric 3 (orbit Ksymm_rr0 dim c).
Proof.
  apply (cube_check_ok 3 [[p0;p0;oo];[p0;oo;p0];[oo;p0;p0];[p0;m0;oo];[p0;oo;m0];[oo;p0;m0];
       [m0;p0;oo];[m0;oo;p0];[oo;m0;p0];[m0;m0;oo];[m0;oo;m0];[oo;m0;m0]] (cv c)). reflexivity.
Qed.
Lemma symm_rrr_sym dim c : cube_symmetric 3 (orbit Ksymm_rrr dim c).
Proof.
  apply (cube_check_ok 3 [[p0;p0;p0];[m0;p0;p0];[p0;m0;p0];[m0;m0;p0];[p0;p0;m0];[m0;p0;m0];[p0;m0;m0];[m0;m0;m0]] (cv c)).
  reflexivity.
Qed.
Lemma symm_rrs_sym dim c : cube_symmetric 3 (orbit Ksymm_rrs dim c).
Proof.
  apply (cube_check_ok 3
      [[p0;p0;p1];[p0;p1;p0];[p1;p0;p0];[p0;m0;p1];[p0;p1;m0];[p1;p0;m0];
       [m0;p0;p1];[m0;p1;p0];[p1;m0;p0];[m0;m0;p1];[m0;p1;m0];[p1;m0;m0];
       [p0;p0;m1];[p0;m1;p0];[m1;p0;p0];[p0;m0;m1];[p0;m1;m0];[m1;p0;m0];
       [m0;p0;m1];[m0;m1;p0];[m1;m0;p0];[m0;m0;m1];[m0;m1;m0];[m1;m0;m0]] (cv c)). vm_compute. reflexivity.
Qed.
Definition cyc3 : list (list nat) := [[0; 1; 2]; [1; 2; 0]; [2; 0; 1]]%nat.
Definition cyc_sign_check (S : list (list sg)) : bool := (perm_check 3 cyc3 S && sign_check 3 (all_signs 3) S)%bool.
Lemma cyc_sign_ok S v : cyc_sign_check S = true ->
  cyclic3_symmetric (map (map (ev v)) S) /\ sign_symmetric 3 (map (map (ev v)) S).
Proof.
  unfold cyc_sign_check. rewrite andb_true_iff. intros [H1 H2]. split.
  - intros sigma Hs. eapply perm_check_ok; [exact H1|exact Hs].
  - intros ss Hs. eapply sign_check_ok; [exact H2|apply all_signs_complete; auto].
Qed.
Lemma symm_rs0_roll_sym dim c :
  cyclic3_symmetric (orbit Ksymm_rs0_roll dim c) /\ sign_symmetric 3 (orbit Ksymm_rs0_roll dim c).
Proof.
  apply (cyc_sign_ok [[p0;p1;oo];[p0;m1;oo];[m0;p1;oo];[m0;m1;oo];
       [oo;p0;p1];[oo;p0;m1];[oo;m0;p1];[oo;m0;m1];
       [p1;oo;p0];[p1;oo;m0];[m1;oo;p0];[m1;oo;m0]] (cv c)). reflexivity.
Qed.
Lemma symm_rss_pm_sym dim c :
  perm_symmetric 3 (orbit Ksymm_rss_pm dim c) /\ invariant (flip [true; true; true]) (orbit Ksymm_rss_pm dim c).
Proof.
  split.
  - apply (perm_sym_of 3 [[p0;p1;p1];[p1;p0;p1];[p1;p1;p0];[m0;m1;m1];[m1;m0;m1];[m1;m1;m0]] (cv c)). reflexivity.
  - apply (sign_check_ok 3 [[true;true;true]] [[p0;p1;p1];[p1;p0;p1];[p1;p1;p0];[m0;m1;m1];[m1;m0;m1];[m1;m1;m0]] (cv c));
      [reflexivity|left; auto].
Qed.

(* ---------------------------------------------------------------- sphere orbits *)
Lemma u3_a1_sym c : cube_symmetric 3 (u3_orbit U_a1 c).
Proof. apply (cube_check_ok 3 s_r00 (fun _ => 1)). reflexivity. Qed.
Lemma u3_a2_sym c : cube_symmetric 3 (u3_orbit U_a2 c).
Proof.
  apply (cube_check_ok 3 [[p0;p0;oo];[p0;m0;oo];[m0;p0;oo];[m0;m0;oo];[p0;oo;p0];[p0;oo;m0];[m0;oo;p0];[m0;oo;m0];
    [oo;p0;p0];[oo;p0;m0];[oo;m0;p0];[oo;m0;m0]] (fun _ => 1 / sqrt 2)). reflexivity.
Qed.
Lemma u3_a3_sym c : cube_symmetric 3 (u3_orbit U_a3 c).
Proof.
  apply (cube_check_ok 3 [[p0;p0;p0];[p0;p0;m0];[p0;m0;p0];[p0;m0;m0];[m0;p0;p0];[m0;p0;m0];[m0;m0;p0];[m0;m0;m0]]
    (fun _ => 1 / sqrt 3)). reflexivity.
Qed.
Lemma u3_pq02_sym c : cube_symmetric 3 (u3_orbit U_pq02 c).
Proof.
  apply (cube_check_ok 3
      [[p0;p1;oo];[m0;p1;oo];[m0;m1;oo];[p0;m1;oo];[p1;p0;oo];[m1;p0;oo];[m1;m0;oo];[p1;m0;oo];
       [p0;oo;p1];[m0;oo;p1];[m0;oo;m1];[p0;oo;m1];[p1;oo;p0];[m1;oo;p0];[m1;oo;m0];[p1;oo;m0];
       [oo;p0;p1];[oo;m0;p1];[oo;m0;m1];[oo;p0;m1];[oo;p1;p0];[oo;m1;p0];[oo;m1;m0];[oo;p1;m0]] (cv c)).
  vm_compute. reflexivity.
Qed.
Lemma u3_llm2_sym c : cube_symmetric 3 (u3_orbit U_llm2 c).
Proof.
  apply (cube_check_ok 3
      [[p0;p0;p1];[m0;p0;p1];[p0;m0;p1];[m0;m0;p1];[p0;p0;m1];[m0;p0;m1];[p0;m0;m1];[m0;m0;m1];
       [p0;p1;p0];[m0;p1;p0];[p0;p1;m0];[m0;p1;m0];[p0;m1;p0];[m0;m1;p0];[p0;m1;m0];[m0;m1;m0];
       [p1;p0;p0];[p1;m0;p0];[p1;p0;m0];[p1;m0;m0];[m1;p0;p0];[m1;m0;p0];[m1;p0;m0];[m1;m0;m0]] (cv c)).
  vm_compute. reflexivity.
Qed.
Lemma u3_rsw2_sym c : cube_symmetric 3 (u3_orbit U_rsw2 c).
Proof.
  apply (cube_check_ok 3
      [[p0;p1;p2];[p2;p0;p1];[p1;p2;p0];[p1;p0;p2];[p2;p1;p0];[p0;p2;p1];
       [m0;p1;p2];[p2;m0;p1];[p1;p2;m0];[p1;m0;p2];[p2;p1;m0];[m0;p2;p1];
       [p0;m1;p2];[p2;p0;m1];[m1;p2;p0];[m1;p0;p2];[p2;m1;p0];[p0;p2;m1];
       [p0;p1;m2];[m2;p0;p1];[p1;m2;p0];[p1;p0;m2];[m2;p1;p0];[p0;m2;p1];
       [m0;m1;p2];[p2;m0;m1];[m1;p2;m0];[m1;m0;p2];[p2;m1;m0];[m0;p2;m1];
       [m0;p1;m2];[m2;m0;p1];[p1;m2;m0];[p1;m0;m2];[m2;p1;m0];[m0;m2;p1];
       [p0;m1;m2];[m2;p0;m1];[m1;m2;p0];[m1;p0;m2];[m2;m1;p0];[p0;m2;m1];
       [m0;m1;m2];[m2;m0;m1];[m1;m2;m0];[m1;m0;m2];[m2;m1;m0];[m0;m2;m1]] (cv c)).
  vm_compute. reflexivity.
Qed.
Lemma u3_rs0_sym c : cyclic3_symmetric (u3_orbit U_rs0 c) /\ sign_symmetric 3 (u3_orbit U_rs0 c).
Proof.
  apply (cyc_sign_ok [[p0;p1;oo];[m0;p1;oo];[m0;m1;oo];[p0;m1;oo];[p1;oo;p0];[m1;oo;p0];[m1;oo;m0];[p1;oo;m0];
     [oo;p0;p1];[oo;m0;p1];[oo;m0;m1];[oo;p0;m1]] (cv c)). reflexivity.
Qed.
Lemma u3_rst_sym c : cyclic3_symmetric (u3_orbit U_rst c) /\ sign_symmetric 3 (u3_orbit U_rst c).
Proof.
  apply (cyc_sign_ok
      [[p0;p1;p2];[p2;p0;p1];[p1;p2;p0];[m0;p1;p2];[p2;m0;p1];[p1;p2;m0];
       [p0;m1;p2];[p2;p0;m1];[m1;p2;p0];[p0;p1;m2];[m2;p0;p1];[p1;m2;p0];
       [m0;m1;p2];[p2;m0;m1];[m1;p2;m0];[m0;p1;m2];[m2;m0;p1];[p1;m2;m0];
       [p0;m1;m2];[m2;p0;m1];[m1;m2;p0];[m0;m1;m2];[m2;m0;m1];[m1;m2;m0]] (cv c)). vm_compute. reflexivity.
Qed.
Definition rot_check (S : list (list sg)) : bool :=
  (forallb (fun sigma => forallb (fun ss => (odd_flips ss || permb (map (fun p => sflip ss (spermute sigma p)) S) S)%bool)
     (all_signs 3)) even_perms3 &&
   forallb (fun sigma => forallb (fun ss => (negb (odd_flips ss) || permb (map (fun p => sflip ss (spermute sigma p)) S) S)%bool)
     (all_signs 3)) odd_perms3)%bool.
Lemma rot_check_ok S v : rot_check S = true -> rotation3_symmetric (map (map (ev v)) S).
Proof.
  unfold rot_check. rewrite andb_true_iff, !forallb_forall. intros [H1 H2] sigma ss Hl [[Hi Ho]|[Hi Ho]];
    apply invariant_sym.
  - specialize (H1 _ Hi). rewrite forallb_forall in H1. specialize (H1 ss (all_signs_complete _ _ Hl)).
    rewrite Ho in H1. auto.
  - specialize (H2 _ Hi). rewrite forallb_forall in H2. specialize (H2 ss (all_signs_complete _ _ Hl)).
    rewrite Ho in H2. auto.
Qed.
Lemma u3_rst_weird_sym c : rotation3_symmetric (u3_orbit U_rst_weird c).
Proof.
  apply (rot_check_ok
      [[p0;p1;p2];[m0;p2;p1];[p1;p2;p0];[m1;p0;p2];[p2;p0;p1];[m2;p1;p0];
       [p0;m1;m2];[m0;m2;m1];[p1;m2;m0];[m1;m0;m2];[p2;m0;m1];[m2;m1;m0];
       [p0;p2;m1];[m0;p1;m2];[p1;p0;m2];[m1;p2;m0];[p2;p1;m0];[m2;p0;m1];
       [p0;m2;p1];[m0;m1;p2];[p1;m0;p2];[m1;m2;p0];[p2;m1;p0];[m2;m0;p1]] (cv c)). vm_compute. reflexivity.
Qed.
