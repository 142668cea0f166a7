(** C14-C18: reference integrals over cube and simplex, and the schemes for the n-cube.
    Every theorem is for all dimensions n (in the stated range).  "Exact" is against the iterated Riemann
    integral of IntegralSpec.v, for every monomial of total degree at most the declared degree. *)
From Coq Require Import Reals List Arith Lia Lra.
From Verif Require Import Spec IntegralSpec PyBase MiscModel CnModel CnTools CnProofs CnProofs2 CnProofs3 CnProofs4 CnProofs5 MsModel MsProofs MsProofs2
  TnBase IntegralProofs2.
Import ListNotations.
Open Scope R_scope.

(** The constructor call [r] returns a scheme in dimension n that declares degree d and whose rule
    reproduces the mean over [-1,1]^n of every monomial of total degree at most d. *)
Definition builds_cube_scheme (n d : nat) (r : option scheme) : Prop :=
  exists s, r = Some s /\ s_dim s = n /\ s_degree s = d /\
    Forall (fun wp => length (snd wp) = n) (s_rule s) /\
    forall k, length k = n -> (tdeg k <= d)%nat -> apply (s_rule s) (mono k) = cube_mean n (mono k).

(* ------------------------------------------------------------------ C14 *)
Theorem C14_monomial_over_box : forall limits k, length k = length limits ->
  integrate_monomial_over_ncube limits k = box_int limits (mono k).
Proof. exact monomial_ncube. Qed.
Print Assumptions C14_monomial_over_box.
Example C14_ex : integrate_monomial_over_ncube [(0, 2); (-1, 1)] [1; 2]%nat = 4/3.
Proof. unfold integrate_monomial_over_ncube. cbn. field. Qed.

(* ------------------------------------------------------------------ C15 *)
Theorem C15_monomial_over_simplex : forall k,
  integrate_monomial_over_unit_simplex k = simplex_int (length k) 1 (mono k).
Proof. exact monomial_unit_simplex. Qed.
Print Assumptions C15_monomial_over_simplex.
Example C15_ex : integrate_monomial_over_unit_simplex [1; 1]%nat = 1/24.
Proof. unfold integrate_monomial_over_unit_simplex. cbn. unfold Rdiv. field. Qed.

(* ------------------------------------------------------------------ C16 *)
Theorem C16_ewing : forall n, (1 <= n)%nat -> builds_cube_scheme n 3 (ewing n).
Proof. exact ewing_exact. Qed.
Theorem C16_tyler : forall n, (1 <= n)%nat -> builds_cube_scheme n 3 (tyler n).
Proof. exact tyler_exact. Qed.
Theorem C16_hammer_stroud_1n : forall n, (1 <= n)%nat -> builds_cube_scheme n 3 (hammer_stroud_1n n).
Proof. exact hammer_stroud_1n_exact. Qed.
Theorem C16_thacher : forall n, (1 <= n)%nat -> builds_cube_scheme n 2 (thacher n).
Proof. exact thacher_exact. Qed.
Theorem C16_stroud_1957_2 : forall n, (1 <= n)%nat -> builds_cube_scheme n 2 (stroud_1957_2 n).
Proof. exact stroud_1957_2_exact. Qed.
Theorem C16_stroud_cn_1_1 : forall n, (1 <= n)%nat -> builds_cube_scheme n 1 (Some (stroud_cn_1_1 n)).
Proof. exact stroud_cn_1_1_exact. Qed.
Theorem C16_stroud_cn_1_2 : forall n, (1 <= n)%nat -> builds_cube_scheme n 1 (Some (stroud_cn_1_2 n)).
Proof. exact stroud_cn_1_2_exact. Qed.
Theorem C16_stroud_cn_3_2 : forall n, (1 <= n)%nat -> builds_cube_scheme n 3 (stroud_cn_3_2 n).
Proof. exact stroud_cn_3_2_exact. Qed.
Theorem C16_stroud_cn_3_4 : forall n, (1 <= n)%nat -> builds_cube_scheme n 3 (stroud_cn_3_4 n).
Proof. exact stroud_cn_3_4_exact. Qed.
Theorem C16_stroud_1957_3 : forall n, (1 <= n)%nat -> builds_cube_scheme n 3 (stroud_1957_3 n).
Proof. exact stroud_1957_3_exact. Qed.
Print Assumptions C16_stroud_1957_3.
Theorem C16_stroud_cn_3_6 : forall n, (1 <= n)%nat -> builds_cube_scheme n 3 (Some (stroud_cn_3_6 n)).
Proof. intros n _. apply stroud_cn_3_6_exact. Qed.
Theorem C16_mcnamee_stenger_3 : forall n, (1 <= n)%nat -> builds_cube_scheme n 3 (cn_mcnamee_stenger_3 n).
Proof. exact cn_ms3_exact. Qed.
(** The free parameter delta2 must be at least 1/3; the code asserts exactly that. *)
Theorem C16_cools_haegemans_1 : forall n delta2, (1 <= n)%nat ->
  (1/3 <= delta2 -> builds_cube_scheme n 3 (cools_haegemans_1 n delta2)) /\
  (delta2 < 1/3 -> cools_haegemans_1 n delta2 = None).
Proof.
  intros n d H. split; intros Hd; [apply cools_haegemans_1_exact; auto|apply cools_haegemans_1_None; auto].
Qed.
Print Assumptions C16_cools_haegemans_1.
Example C16_ex : exists s, ewing 3 = Some s /\ length (s_rule s) = 9%nat.
Proof. eexists. split; [reflexivity|reflexivity]. Qed.

(* ------------------------------------------------------------------ C17 *)
Theorem C17_hammer_stroud_2n : forall n, (2 <= n)%nat -> builds_cube_scheme n 5 (hammer_stroud_2n n).
Proof. exact hammer_stroud_2n_exact. Qed.
Theorem C17_mustard_lyness_blatt : forall n, (1 <= n)%nat -> builds_cube_scheme n 5 (mustard_lyness_blatt n).
Proof. exact mustard_lyness_blatt_exact. Qed.
Theorem C17_stroud_1966_a : forall n, (1 <= n)%nat -> builds_cube_scheme n 5 (stroud_1966_a n).
Proof. exact stroud_1966_a_exact. Qed.
Theorem C17_stroud_1966_b : forall n, (1 <= n)%nat -> builds_cube_scheme n 5 (stroud_1966_b n).
Proof. exact stroud_1966_b_exact. Qed.
Print Assumptions C17_stroud_1966_b.
Theorem C17_stroud_cn_5_9 : forall n, (1 <= n)%nat -> builds_cube_scheme n 5 (stroud_cn_5_9 n).
Proof. intros n _. apply stroud_cn_5_9_exact. Qed.
Theorem C17_mcnamee_stenger_5 : forall n, (2 <= n)%nat -> builds_cube_scheme n 5 (cn_mcnamee_stenger_5 n).
Proof. exact cn_ms5_exact. Qed.
Theorem C17_stroud_1966_c : forall n, (1 <= n)%nat -> builds_cube_scheme n 5 (stroud_1966_c n).
Proof. exact stroud_1966_c_exact. Qed.
(** stroud_1966_d needs a real square root that exists only for n >= 3. *)
Theorem C17_stroud_1966_d : forall n, (1 <= n)%nat ->
  ((3 <= n)%nat -> builds_cube_scheme n 5 (stroud_1966_d n)) /\
  ((n <= 2)%nat -> stroud_1966_d n = None).
Proof.
  intros n H. split; intros Hn; [apply stroud_1966_d_exact; auto|apply stroud_1966_d_None; auto].
Qed.
Theorem C17_stroud_1968 : forall n, (2 <= n)%nat -> builds_cube_scheme n 5 (stroud_1968 n).
Proof. exact stroud_1968_exact. Qed.
(** Finding: in dimension 1 the same constructor returns weights that do not sum to 1. *)
Theorem C17_stroud_1968_dim1_refuted : exists s,
  stroud_1968 1 = Some s /\ s_degree s = 5%nat /\ apply (s_rule s) (fun _ => 1) <> cube_mean 1 (fun _ => 1).
Proof.
  destruct stroud_1968_dim1 as [s [E [D H]]]. exists s. split; auto. split; auto.
  intros C. apply H. etransitivity; [|etransitivity; [exact C|]].
  { reflexivity. }
  transitivity (cube_mean 1 (mono [0%nat])).
  { unfold cube_mean. cbn [cube_int mono]. f_equal. apply Coquelicot.RInt.RInt_ext. intros. simpl. ring. }
  rewrite IntegralProofs.cube_mean_mono by reflexivity. unfold IntegralProofs.cube_moment. cbn. lra.
Qed.
Print Assumptions C17_stroud_1968_dim1_refuted.
(** cools_haegemans_2 with its default parameter delta2 = 1 *)
Theorem C17_cools_haegemans_2 : forall n, (1 <= n)%nat -> builds_cube_scheme n 5 (cools_haegemans_2 n 1).
Proof. exact cools_haegemans_2_exact. Qed.
(** Finding: for every other admissible delta2 not even the weights sum to 1. *)
Theorem C17_cools_haegemans_2_delta_refuted : forall n delta2,
  (1 <= n)%nat -> 1/3 < delta2 -> delta2 <> 1 ->
  exists s, cools_haegemans_2 n delta2 = Some s /\ s_degree s = 5%nat /\ apply (s_rule s) (fun _ => 1) <> 1.
Proof. exact cools_haegemans_2_weights. Qed.
Print Assumptions C17_cools_haegemans_2_delta_refuted.
(** The tabulated dimensions 2..20 are all constructible and exact. *)
Theorem C17_dobrodeev_1978 : forall n, (2 <= n <= 20)%nat -> builds_cube_scheme n 5 (dobrodeev_1978 n).
Proof.
  intros n H. destruct (dobrodeev_1978_defined n H) as [s Hs]. exists s. split; auto.
  exact (dobrodeev_1978_exact n s Hs).
Qed.
Print Assumptions C17_dobrodeev_1978.
Theorem C17_dobrodeev_1978_other : forall n, (n < 2 \/ 20 < n)%nat -> dobrodeev_1978 n = None.
Proof.
  intros n H. unfold dobrodeev_1978. replace (dobrodeev_1978_config n) with (@None (R * nat * nat * nat)); auto.
  do 21 (destruct n as [|n]; [try reflexivity; lia|]). reflexivity.
Qed.

(* ------------------------------------------------------------------ C18 *)
Theorem C18_phillips : forall n, (2 <= n)%nat -> builds_cube_scheme n 7 (phillips n).
Proof. exact phillips_exact. Qed.
Print Assumptions C18_phillips.
Theorem C18_dobrodeev_1970 : forall n, (5 <= n)%nat -> builds_cube_scheme n 7 (dobrodeev_1970 n).
Proof. exact dobrodeev_1970_exact. Qed.
Print Assumptions C18_dobrodeev_1970.
(** Finding: the code's assertion admits n = 3 and n = 4, but there the construction needs the square root
    of a negative number. *)
Theorem C18_dobrodeev_1970_small_refuted : forall n, (n <= 4)%nat -> dobrodeev_1970 n = None.
Proof. exact dobrodeev_1970_None. Qed.
Theorem C18_mcnamee_stenger_7 : forall n, (3 <= n)%nat ->
  builds_cube_scheme n 7 (cn_mcnamee_stenger_7a n) /\ builds_cube_scheme n 7 (cn_mcnamee_stenger_7b n).
Proof. intros n H. split; apply cn_ms7_exact; auto. Qed.
Theorem C18_mcnamee_stenger_9 : forall n, (4 <= n)%nat ->
  builds_cube_scheme n 9 (cn_mcnamee_stenger_9a n) /\ builds_cube_scheme n 9 (cn_mcnamee_stenger_9b n).
Proof. intros n H. split; apply cn_ms9_exact; auto. Qed.
Print Assumptions C18_mcnamee_stenger_9.
