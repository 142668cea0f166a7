(** C19: the McNamee-Stenger builders, for an arbitrary fully symmetric functional. *)
From Coq Require Import Reals List Arith Lia Lra Permutation.
From Verif Require Import Spec IntegralSpec PyBase MiscModel CnModel CnTools CnProofs MsModel MsProofs MsProofs2.
Import ListNotations.
Open Scope R_scope.

(** [I] (the mean of x^k over the domain) is invariant under permuting the exponents and vanishes when one of
    them is odd. *)
Definition fully_symmetric (n : nat) (I : list nat -> R) : Prop :=
  (forall k k', Permutation k k' -> length k = n -> I k = I k') /\
  (forall k, length k = n -> existsb Nat.odd k = true -> I k = 0).
(** The integrator argument of the builders returns, for exponents l padded with zeros to length n, the
    volume times the mean [I]. *)
Definition integrates (n : nat) (I integ : list nat -> R) : Prop :=
  integ [] <> 0 /\
  forall l, (length l <= n)%nat -> integ l = integ [] * I (l ++ repeat 0%nat (n - length l)).

Lemma symmetric_fs n I : fully_symmetric n I ->
  fs_functional n I (fun l => I (l ++ repeat 0%nat (n - length l))).
Proof.
  intros [H1 H2]. split; auto. split; auto. intros l m Hl. replace (n - length l)%nat with m by lia. auto.
Qed.

Theorem C19_mcnamee_stenger_3 : forall n I integ s, (1 <= n)%nat -> fully_symmetric n I -> integrates n I integ ->
  ms3 n integ = Some s -> s_dim s = n /\ s_degree s = 3%nat /\ exact n 3 I (s_rule s).
Proof. intros n I integ s Hn F M H. apply symmetric_fs in F. exact (ms3_exact _ _ _ _ s F M Hn H). Qed.
Theorem C19_mcnamee_stenger_5 : forall n I integ s, fully_symmetric n I -> integrates n I integ ->
  ms5 n integ = Some s -> s_dim s = n /\ s_degree s = 5%nat /\ exact n 5 I (s_rule s).
Proof. intros n I integ s F M H. apply symmetric_fs in F. exact (ms5_exact _ _ _ _ s F M H). Qed.
Theorem C19_mcnamee_stenger_7 : forall n I integ sw s, fully_symmetric n I -> integrates n I integ ->
  ms7 n integ sw = Some s -> s_dim s = n /\ s_degree s = 7%nat /\ exact n 7 I (s_rule s).
Proof. intros n I integ sw s F M H. apply symmetric_fs in F. exact (ms7_exact _ _ _ _ sw s F M H). Qed.
Print Assumptions C19_mcnamee_stenger_7.
(** Finding: full symmetry does not suffice for degree 9.  A returned scheme is exact to degree 9 precisely
    when the pair moments satisfy one three-term relation (true for cube, ball and Gaussian weight, false for
    the weight exp(-r)); otherwise it already misses x1^2 x2^2. *)
Theorem C19_mcnamee_stenger_9 : forall n I integ sw s, fully_symmetric n I -> integrates n I integ ->
  ms9 n integ sw = Some s ->
  s_dim s = n /\ s_degree s = 9%nat /\
  (exact n 9 I (s_rule s) <->
   let I1 a := integ [a] in
   (I1 4%nat ^ 2 - I1 2%nat * I1 6%nat) * integ [2; 6]%nat =
   (I1 4%nat * I1 6%nat - I1 2%nat * I1 8%nat) * integ [2; 4]%nat -
   (I1 6%nat ^ 2 - I1 4%nat * I1 8%nat) * integ [2; 2]%nat).
Proof.
  intros n I integ sw s F M H. apply symmetric_fs in F.
  assert (G : (4 <= n)%nat).
  { unfold ms9 in H. destruct (Nat.leb_spec 4 n); auto. cbn in H. discriminate. }
  destruct (ms9_core _ _ _ _ sw s F M H) as [E1 [E2 [E3 E4]]]. split; auto. split; auto. split.
  - intros Ex. destruct (Req_EM_T ((integ [4%nat] ^ 2 - integ [2%nat] * integ [6%nat]) * integ [2; 6]%nat)
      ((integ [4%nat] * integ [6%nat] - integ [2%nat] * integ [8%nat]) * integ [2; 4]%nat -
       (integ [6%nat] ^ 2 - integ [4%nat] * integ [8%nat]) * integ [2; 2]%nat)) as [|Ne]; auto.
    exfalso. apply (E4 Ne). destruct Ex as [_ Ex]. cbn [length]. cbn [app].
    apply (Ex (2%nat :: 2%nat :: repeat 0%nat (n - 2))).
    + cbn [length]. rewrite repeat_length. lia.
    + unfold tdeg. cbn [list_sum fold_right]. change (fold_right Nat.add 0%nat) with list_sum.
      assert (Z : forall m, list_sum (repeat 0%nat m) = 0%nat) by (induction m; auto). rewrite Z. lia.
  - exact E3.
Qed.
Print Assumptions C19_mcnamee_stenger_9.
(** The cube is an instance (C18 shows that all constructions then succeed). *)
Example C19_ex : fully_symmetric 4 (fun k => cube_mean 4 (mono k)) /\
  integrates 4 (fun k => cube_mean 4 (mono k)) (ms_cube_integrator 4) /\
  (exists s, ms9 4 (ms_cube_integrator 4) false = Some s).
Proof.
  destruct (cube_fs 4) as [H1 [H2 H3]]. split; [split; auto|]. split.
  - destruct (cube_ms_integ 4) as [M0 M]. split; auto. intros l Hl. rewrite M by auto. f_equal.
    symmetry. apply H3. lia.
  - destruct (cn_ms9_exact 4 false (le_n 4)) as [s [E _]]. eauto.
Qed.
