(** C01-C06: the combinatorial generators and [untangle].
    Points have coordinates in any type A with a zero and an involutive negation that fixes zero; the code uses
    numbers.  Each theorem is followed by the axioms it rests on and by a concrete instance. *)
From Coq Require Import List Arith Lia Bool Permutation Reals Lra.
From Verif Require Import Spec CombSpec CombModel CombProofs CombProofs2 RsumLemmas PyBase.
Import ListNotations.
Open Scope nat_scope.

(* ------------------------------------------------------------------ C01 *)
(** get_all_exponents(dim, m) has m+1 levels; level d lists exactly the exponent vectors of length dim and
    sum d, each once. *)
Theorem C01_get_all_exponents : forall dim m,
  length (get_all_exponents dim m) = S m /\
  forall d, d <= m ->
    NoDup (nth d (get_all_exponents dim m) []) /\
    forall k, In k (nth d (get_all_exponents dim m) []) <-> length k = dim /\ list_sum k = d.
Proof. intros dim m. split; [apply get_all_exponents_length|apply get_all_exponents_level]. Qed.
Print Assumptions C01_get_all_exponents.
Example C01_ex : get_all_exponents 2 2 = [[[0; 0]]; [[1; 0]; [0; 1]]; [[2; 0]; [1; 1]; [0; 2]]].
Proof. reflexivity. Qed.

(* ------------------------------------------------------------------ C02 *)
Theorem C02_combine_rows : forall (A : Type) (elems : list (list A * nat)) (p : list A),
  In p (combine elems) <-> arrangement elems p.
Proof. intros. apply in_combine. Qed.
Print Assumptions C02_combine_rows.

Theorem C02_combine_row_length : forall (A : Type) (elems : list (list A * nat)) (p : list A),
  In p (combine elems) -> length p = list_sum (map snd elems).
Proof. intros. apply combine_row_length; auto. Qed.

(** number of rows * prod c_i! = (sum c_i)! * prod |values_i|^c_i *)
Theorem C02_combine_count : forall (A : Type) (elems : list (list A * nat)),
  length (combine elems) * prodfact (map snd elems) =
  fact (list_sum (map snd elems)) * prodpow (map (fun e => (length (fst e), snd e)) elems).
Proof. intros. apply length_combine. Qed.
Print Assumptions C02_combine_count.

Theorem C02_combine_distinct : forall (A : Type) (elems : list (list A * nat)),
  NoDup (concat (map fst elems)) -> NoDup (combine elems).
Proof. intros. apply NoDup_combine; auto. Qed.
Print Assumptions C02_combine_distinct.
Example C02_ex : combine [([1; 2], 1); ([0], 2)] =
  [[1; 0; 0]; [2; 0; 0]; [0; 1; 0]; [0; 2; 0]; [0; 0; 1]; [0; 0; 2]].
Proof. reflexivity. Qed.

(* ------------------------------------------------------------------ C03 *)
Theorem C03_rd_raises : forall (A : Type) (zero : A) n items,
  rd zero n items = None <->
  (exists it, In it items /\ snd it = 0) \/ n < list_sum (map snd items).
Proof. intros. apply rd_None. Qed.
Print Assumptions C03_rd_raises.

Theorem C03_rd_rows : forall (A : Type) (zero : A) n items rows,
  rd zero n items = Some rows ->
  length (base_vector zero n items) = n /\
  forall p, In p rows <-> Permutation p (base_vector zero n items).
Proof.
  intros A zero n items rows H. split; [|intros p; apply rd_rows; auto].
  apply base_vector_length. destruct (le_lt_dec (list_sum (map snd items)) n); auto.
  assert (E : rd zero n items = None) by (apply rd_None; auto). congruence.
Qed.
Print Assumptions C03_rd_rows.

Theorem C03_rd_distinct : forall (A : Type) (zero : A) n items rows,
  rd zero n items = Some rows -> NoDup (zero :: map fst items) -> NoDup rows.
Proof. intros. eapply rd_NoDup; eauto. Qed.
Print Assumptions C03_rd_distinct.
Example C03_ex : rd 0 3 [(5, 2)] = Some [[5; 5; 0]; [5; 0; 5]; [0; 5; 5]] /\ rd 0 3 [(5, 4)] = None.
Proof. split; reflexivity. Qed.

(* ------------------------------------------------------------------ C04 *)
Theorem C04_fsd_raises : forall (A : Type) (zero : A) opp n tuples,
  fsd zero opp n tuples = None <-> n < list_sum (map snd tuples).
Proof. intros. apply fsd_None. Qed.
Print Assumptions C04_fsd_raises.

Theorem C04_fsd_rows : forall (A : Type) (zero : A) opp, opp zero = zero ->
  forall n tuples rows, fsd zero opp n tuples = Some rows ->
  forall p, In p rows <-> exists q, Permutation q (base_vector zero n tuples) /\ sign_variant opp p q.
Proof. intros. apply fsd_rows; auto. Qed.
Print Assumptions C04_fsd_rows.

(** The set is closed under permuting coordinates and under changing signs. *)
Theorem C04_fsd_fully_symmetric : forall (A : Type) (zero : A) opp, opp zero = zero ->
  (forall x, opp (opp x) = x) ->
  forall n tuples rows, fsd zero opp n tuples = Some rows ->
  forall p p', In p rows -> (Permutation p' p \/ sign_variant opp p' p) -> In p' rows.
Proof.
  intros A zero opp Hz Hi n tuples rows H p p' Hp Hs.
  rewrite (fsd_rows _ _ Hz _ _ _ _ H) in Hp. destruct Hp as [q [Hq Hv]].
  rewrite (fsd_rows _ _ Hz _ _ _ _ H). destruct Hs as [Hs|Hs].
  - assert (G : exists q', Permutation q' q /\ sign_variant opp p' q').
    { clear -Hv Hs. unfold sign_variant in *. revert q Hv. induction Hs; intros q Hv.
      - inversion Hv; subst. exists []. split; constructor.
      - inversion Hv as [|? y ? q0 Hy Hv']; subst. destruct (IHHs _ Hv') as [q' [P F]].
        exists (y :: q'). split; [constructor; auto|constructor; auto].
      - inversion Hv as [|? a ? q0 Ha Hv']; subst. inversion Hv' as [|? b ? q1 Hb Hv'']; subst.
        exists (b :: a :: q1). split; [constructor|constructor; [auto|constructor; auto]].
      - destruct (IHHs2 _ Hv) as [q1 [P1 F1]]. destruct (IHHs1 _ F1) as [q2 [P2 F2]].
        exists q2. split; auto. etransitivity; eauto. }
    destruct G as [q' [P F]]. exists q'. split; auto. etransitivity; eauto.
  - exists q. split; auto. clear -Hv Hs Hi. unfold sign_variant in *. revert q Hv.
    induction Hs as [|x y p' p Hxy Hs IH]; intros q Hv; inversion Hv as [|? w ? q0 Hy Hv']; subst; constructor; auto.
    destruct Hxy as [-> | ->], Hy as [-> | ->]; auto.
Qed.
Print Assumptions C04_fsd_fully_symmetric.

(** number of rows * prod c_i! * (n - sum c_i)! = n! * 2^(sum c_i) *)
Theorem C04_fsd_count : forall (A : Type) (zero : A) opp n tuples rows,
  fsd zero opp n tuples = Some rows ->
  length rows * (prodfact (map snd tuples) * fact (n - list_sum (map snd tuples))) =
  fact n * 2 ^ list_sum (map snd tuples).
Proof.
  intros A zero opp n tuples rows. unfold fsd.
  destruct (Nat.leb_spec (list_sum (map snd tuples)) n) as [Hle|]; [|discriminate].
  intros E; injection E as <-.
  set (s := list_sum (map snd tuples)) in *.
  assert (L := length_combine (map (fun it : A * nat => ([fst it; opp (fst it)], snd it)) tuples ++ [([zero], n - s)])).
  rewrite !map_app, !map_map in L. cbn [map fst snd length] in L.
  assert (F1 : forall l m, prodfact (l ++ [m]) = prodfact l * fact m).
  { induction l; intros m; simpl; [lia|]. rewrite IHl. lia. }
  assert (F2 : prodpow (map (fun x : A * nat => (2, snd x)) tuples ++ [(1, n - s)]) = 2 ^ s).
  { unfold s. generalize (n - list_sum (map snd tuples)). intros m. clear.
    induction tuples as [|[v c] ts IH]; simpl.
    - rewrite Nat.pow_1_l. reflexivity.
    - rewrite IH. rewrite Nat.pow_add_r. reflexivity. }
  rewrite F1, F2, list_sum_app in L. change (map (fun x : A * nat => snd x) tuples) with (map snd tuples) in L.
  fold s in L. cbn [list_sum fold_right] in L. replace (s + (n - s + 0)) with n in L by lia.
  exact L.
Qed.
Print Assumptions C04_fsd_count.

Theorem C04_fsd_distinct : forall (A : Type) (zero : A) opp n tuples rows,
  fsd zero opp n tuples = Some rows ->
  NoDup (zero :: map fst tuples ++ map opp (map fst tuples)) -> NoDup rows.
Proof. intros. eapply fsd_NoDup; eauto. Qed.
Print Assumptions C04_fsd_distinct.

(** Finding: with a zero value the rows are repeated (so the distinctness condition cannot be dropped). *)
Theorem C04_fsd_distinct_refuted : exists rows,
  fsd 0%R Ropp 1 [(0%R, 1)] = Some rows /\ ~ NoDup rows.
Proof.
  eexists. split; [reflexivity|]. simpl. intros H. inversion H as [|x l Hx Hl]; subst. apply Hx. left.
  f_equal. lra.
Qed.

Theorem C04_fs_array_rows : forall (A : Type) opp (v p : list A),
  In p (fs_array opp v) <-> exists q, Permutation q v /\ sign_variant opp p q.
Proof. intros. apply fs_array_rows. Qed.
Print Assumptions C04_fs_array_rows.
Example C04_ex : fsd 0%Z Z.opp 2 [(3%Z, 1)] = Some [[3; 0]; [-3; 0]; [0; 3]; [0; -3]]%Z.
Proof. reflexivity. Qed.

(* ------------------------------------------------------------------ C05 *)
(** [eqz] is the test value == 0. *)
Theorem C05_pm_rows : forall (A : Type) (zero : A) opp (eqz : A -> bool),
  opp zero = zero -> (forall x, eqz x = true <-> x = zero) ->
  forall v p, In p (pm zero opp eqz v) <-> sign_variant opp p v.
Proof. intros. apply pm_rows; auto. Qed.
Print Assumptions C05_pm_rows.

Theorem C05_pm_count : forall (A : Type) (zero : A) opp (eqz : A -> bool) v,
  length (pm zero opp eqz v) = 2 ^ num_nonzero eqz v.
Proof. intros. apply pm_length. Qed.
Print Assumptions C05_pm_count.

Theorem C05_pm_distinct : forall (A : Type) (zero : A) opp (eqz : A -> bool),
  (forall x, eqz x = true <-> x = zero) ->
  forall v, (forall x, In x v -> x <> zero -> opp x <> x) -> NoDup (pm zero opp eqz v).
Proof. intros. apply pm_NoDup; auto. Qed.
Print Assumptions C05_pm_distinct.

Theorem C05_pm_roll_rows : forall (A : Type) (zero : A) opp (eqz : A -> bool),
  opp zero = zero -> (forall x, eqz x = true <-> x = zero) ->
  forall v p, In p (pm_roll zero opp eqz v) <->
  exists i q, i < length v /\ sign_variant opp q v /\ cyclic_shift zero i q p.
Proof. intros. apply pm_roll_rows; auto. Qed.
Print Assumptions C05_pm_roll_rows.

Theorem C05_pm_roll_count : forall (A : Type) (zero : A) opp (eqz : A -> bool) v,
  length (pm_roll zero opp eqz v) = 2 ^ num_nonzero eqz v * length v.
Proof. intros. apply pm_roll_length; auto. Qed.
Print Assumptions C05_pm_roll_count.
Example C05_ex : pm_roll 0%Z Z.opp (Z.eqb 0) [1; 2; 0]%Z =
  [[1; 2; 0]; [1; -2; 0]; [-1; 2; 0]; [-1; -2; 0];
   [0; 1; 2]; [0; 1; -2]; [0; -1; 2]; [0; -1; -2];
   [2; 0; 1]; [-2; 0; 1]; [2; 0; -1]; [-2; 0; -1]]%Z.
Proof. reflexivity. Qed.

(* ------------------------------------------------------------------ C06 *)
Theorem C06_untangle_pairs : forall (W P : Type) (data : list (W * list P)) points weights,
  untangle data = (points, weights) ->
  length points = length weights /\
  List.combine weights points = flat_map (fun g => map (fun p => (fst g, p)) (snd g)) data.
Proof. intros. apply untangle_pairs; auto. Qed.
Print Assumptions C06_untangle_pairs.

(** Hence the weighted sum is the sum over the groups. *)
Theorem C06_untangle_sum : forall (data : list (R * list point)) (f : point -> R),
  apply (mk_rule (untangle data)) f =
  Rsum (map (fun g => (fst g * Rsum (map f (snd g)))%R) data).
Proof.
  intros data f. unfold mk_rule. destruct (untangle data) as [pts ws] eqn:E.
  destruct (untangle_pairs _ _ _ E) as [_ H]. cbn [fst snd]. rewrite H. unfold apply.
  rewrite Rsum_map_flat_map. apply Rsum_map_ext. intros [w ps] _. cbn [fst snd].
  rewrite map_map. cbn [fst snd]. rewrite Rsum_map_scal. reflexivity.
Qed.
Print Assumptions C06_untangle_sum.
Example C06_ex : untangle [(7, [1; 2; 3]); (8, [4])] = ([1; 2; 3; 4], [7; 7; 7; 8]).
Proof. reflexivity. Qed.
