(** C33, C34, C35: Gauss, Gauss-Radau and Gauss-Lobatto rules built from recurrence coefficients. *)
From Coq Require Import Reals List Arith ZArith Lia Lra Sorted ClassicalEpsilon.
From Coquelicot Require Import Coquelicot.
From Verif Require Import Spec Spec1 RsumLemmas IntegralProofs AdaptModel PyBase UnModel C1Tools Interp C1Model C1Proofs GwSpec GwProofs GwExist GwModel GwRc GwRadau GwJacobi WeightSpec GwInt GwInt2 GwBound.
Import ListNotations.
Set Bullet Behavior "Strict Subproofs".
Open Scope R_scope.

(* ------------------------------------------------------------------ C33 *)
(** For every recurrence with positive betas and every functional (given by its moments [mu]) for which its polynomials are
    orthogonal: the n-point rule exists, declares 2n - 1, is exact to 2n - 1, has n points in ascending order which are the zeros
    of p_n, and non-negative weights that add up to mu_0. *)
Theorem C33_gauss : forall eigh alpha beta mu n, eigen_solver eigh -> (forall k, (0 < k)%nat -> 0 < beta k) -> 0 < mu 0%nat ->
  (forall k m, (m < k)%nat -> lmonic alpha beta mu k m = 0) -> (1 <= n)%nat ->
  exists s, gauss_from_rc eigh (mk_rc alpha beta (mu 0%nat)) n = Some s /\ c1_degree s = (2 * Z.of_nat n - 1)%Z /\ length (c1_rule s) = n /\
    exact1_mu (2 * n - 1) mu (c1_rule s) /\ Sorted Rle (map snd (c1_rule s)) /\ (forall r, In r (map snd (c1_rule s)) <-> monic alpha beta n r = 0) /\
    List.Forall (fun wx => 0 <= fst wx) (c1_rule s) /\ Rsum (map fst (c1_rule s)) = mu 0%nat.
Proof.
  intros eigh alpha beta mu n HE Hb Hm HO Hn.
  destruct (gauss_exact eigh (mk_rc alpha beta (mu 0%nat)) mu n HE) as [s [E [D [L [X [P [So Z]]]]]]]; auto.
  { split; [exact Hb|]. split; [reflexivity|]. split; [exact Hm|]. intros m k j Hk. apply HO. lia. }
  exists s. repeat split; auto; try apply Z.
  assert (X0 := X 0%nat ltac:(lia)). rewrite <- X0. unfold apply1. apply Rsum_map_ext. intros [w x] _. cbn. ring.
Qed.
(** The classical rules, against improper Riemann integrals of polynomials. *)
Definition gauss_rule_for (int : (R -> R) -> R -> Prop) (n : nat) (r : option c1_scheme) : Prop :=
  exists s, r = Some s /\ c1_degree s = (2 * Z.of_nat n - 1)%Z /\ length (c1_rule s) = n /\ List.Forall (fun wx => 0 <= fst wx) (c1_rule s) /\
    forall c, (length c <= 2 * n)%nat -> int (peval c) (apply1 (c1_rule s) (peval c)).
Theorem C33_gauss_jacobi : forall eigh a b int_1 n, eigen_solver eigh -> -1 < a -> -1 < b -> jacobi_int a b (fun _ => 1) int_1 -> (1 <= n)%nat ->
  gauss_rule_for (jacobi_int a b) n (gauss_jacobi eigh a b int_1 n).
Proof.
  intros eigh a b I n HE Ha Hb HI Hn. destruct (jacobi_good a b I Ha Hb HI) as [mu [G M]].
  destruct (gauss_exact eigh _ mu n HE G Hn) as [s [E [D [L [X [P _]]]]]]. exists s. repeat split; auto.
  intros c Hc. apply (gen_peval _ _ _ _ jD jDa jDb jDc (jw a b) mu (2 * n - 1) (c1_rule s) c M X). lia.
Qed.
(** the integral of the weight exists *)
Theorem C33_jacobi_weight : forall a b, -1 < a -> -1 < b -> exists I, jacobi_int a b (fun _ => 1) I /\ 0 < I.
Proof.
  intros a b Ha Hb. destruct (jw_exists a b Ha Hb) as [I HI]. exists I. split; [|exact (jw_int_pos a b I HI)]. eapply j_ext; [|exact HI]. intros; unfold jw; ring.
Qed.
Theorem C33_gauss_legendre : forall eigh n, eigen_solver eigh -> (1 <= n)%nat ->
  exists s, gauss_legendre eigh n = Some s /\ c1_degree s = (2 * Z.of_nat n - 1)%Z /\ length (c1_rule s) = n /\ List.Forall (fun wx => 0 <= fst wx) (c1_rule s) /\ exact1 (2 * n - 1) (c1_rule s).
Proof.
  intros eigh n HE Hn. destruct (gauss_exact eigh _ _ n HE legendre_good Hn) as [s [E [D [L [X [P _]]]]]]. exists s. repeat split; auto. apply exact1_of_powers. exact X.
Qed.
Theorem C33_gauss_laguerre : forall eigh a int_1 n, eigen_solver eigh -> -1 < a -> laguerre_int a (fun _ => 1) int_1 -> (1 <= n)%nat ->
  gauss_rule_for (laguerre_int a) n (gauss_laguerre eigh a int_1 n).
Proof.
  intros eigh a I n HE Ha HI Hn. destruct (laguerre_good a I Ha HI) as [mu [G M]].
  destruct (gauss_exact eigh _ mu n HE G Hn) as [s [E [D [L [X [P _]]]]]]. exists s. repeat split; auto.
  intros c Hc. apply (gen_peval _ _ _ _ lD lDa lDb lDc (lw a) mu (2 * n - 1) (c1_rule s) c M X). lia.
Qed.
Theorem C33_laguerre_weight : forall a, -1 < a -> exists I, laguerre_int a (fun _ => 1) I /\ 0 < I.
Proof.
  intros a Ha. destruct (lw_exists a Ha) as [I HI]. exists I. split; [|exact (lw_int_pos a I HI)]. eapply l_ext; [|exact HI]. intros; unfold lw; ring.
Qed.
Theorem C33_gauss_hermite : forall eigh n, eigen_solver eigh -> (1 <= n)%nat -> gauss_rule_for hermite_int n (gauss_hermite eigh n).
Proof.
  intros eigh n HE Hn. destruct hermite_good as [G M].
  destruct (gauss_exact eigh _ hnu n HE G Hn) as [s [E [D [L [X [P _]]]]]]. exists s. repeat split; auto.
  intros c Hc. apply (gen_peval _ _ _ _ hD hDa hDb hDc (fun x => exp (- x ^ 2)) hnu (2 * n - 1) (c1_rule s) c M X). lia.
Qed.
(** Zero points: every constructor raises. *)
Theorem C33_no_points : forall eigh a b int_1, gauss_jacobi eigh a b int_1 0 = None /\ gauss_laguerre eigh a int_1 0 = None.
Proof. intros; split; reflexivity. Qed.
(** The contract of the eigenvalue routine can be met. *)
Theorem C33_decomposition_exists : forall d e n, length d = S n -> length e = n -> (forall i, (i < n)%nat -> nth i e 0 <> 0) -> exists x V, eigen_decomposition d e x V.
Proof. intros d e n Ld Le H. destruct (eigen_exists d e n Ld Le H) as [x [V [HD _]]]. exists x, V. auto. Qed.

Example C33_solver_exists : exists eigh, eigen_solver eigh.
Proof.
  exists (fun d e => match excluded_middle_informative (exists xV : list R * list (list R), eigen_decomposition d e (fst xV) (snd xV)) with
                     | left H => proj1_sig (constructive_indefinite_description _ H) | right _ => ([], []) end).
  intros d e _ [x [V H]]. destruct (excluded_middle_informative _) as [E|N]; [exact (proj2_sig (constructive_indefinite_description _ E))|].
  exfalso. apply N. exists (x, V). exact H.
Qed.
Example C34_banded_solver_exists : exists solve, banded_solver solve.
Proof.
  exists (fun ab f => match excluded_middle_informative (exists x, solves_banded ab f x) with left H => Some (proj1_sig (constructive_indefinite_description _ H)) | right _ => None end).
  intros ab f x H U. destruct (excluded_middle_informative _) as [E|N]; [|exfalso; apply N; exists x; exact H].
  f_equal. apply U. exact (proj2_sig (constructive_indefinite_description _ E)).
Qed.
Example C33_legendre_two : let q := [(1, - sqrt (1 / 3)); (1, sqrt (1 / 3))] in exact1 3 q.
Proof.
  cbv zeta. assert (S : sqrt (1 / 3) * sqrt (1 / 3) = 1 / 3) by (apply sqrt_sqrt; lra). apply exact1_of_powers. intros k Hk. unfold apply1, pow_int. cbn [map Rsum fst snd].
  destruct k as [|[|[|[|k]]]]; [| | | |lia]; cbn [Nat.even pow INR]; nra.
Qed.
Example C33_jacobi_case : exists I, jacobi_int (1 / 2) (-1 / 2) (fun _ => 1) I /\ 0 < I.
Proof. apply C33_jacobi_weight; lra. Qed.
Example C33_laguerre_case : exists I, laguerre_int (-1 / 2) (fun _ => 1) I /\ 0 < I.
Proof. apply C33_laguerre_weight; lra. Qed.

(* ------------------------------------------------------------------ C34 *)
(** For every recurrence whose polynomials do not vanish at -1. *)
Theorem C34_radau : forall eigh solve alpha beta mu n, eigen_solver eigh -> banded_solver solve -> (forall k, (0 < k)%nat -> 0 < beta k) -> 0 < mu 0%nat ->
  (forall k m, (m < k)%nat -> lmonic alpha beta mu k m = 0) -> (forall k, monic alpha beta k (-1) <> 0) -> (2 <= n)%nat ->
  exists s, gauss_radau eigh solve (mk_rc alpha beta (mu 0%nat)) n = Some s /\ length (c1_rule s) = n /\ In (-1) (map snd (c1_rule s)) /\
    exact1_mu (2 * n - 2) mu (c1_rule s) /\ List.Forall (fun wx => 0 <= fst wx) (c1_rule s) /\ Sorted Rle (map snd (c1_rule s)).
Proof.
  intros eigh solve alpha beta mu n HE HB Hb Hm HO Hz Hn.
  destruct (radau_exact eigh solve (mk_rc alpha beta (mu 0%nat)) mu n HE HB) as [s [E [D [[L [X [P So]]] I]]]]; auto.
  { split; [exact Hb|]. split; [reflexivity|]. split; [exact Hm|]. intros m k j Hk. apply HO. lia. }
  exists s. repeat split; auto.
Qed.
Theorem C34_lobatto : forall eigh solve alpha beta mu n, eigen_solver eigh -> banded_solver solve -> (forall k, (0 < k)%nat -> 0 < beta k) -> 0 < mu 0%nat ->
  (forall k m, (m < k)%nat -> lmonic alpha beta mu k m = 0) -> (forall k, 0 < monic alpha beta k 1 /\ 0 < (-1) ^ k * monic alpha beta k (-1)) -> (2 <= n)%nat ->
  exists s, gauss_lobatto eigh solve (mk_rc alpha beta (mu 0%nat)) n = Some s /\ c1_degree s = (2 * Z.of_nat n - 3)%Z /\ length (c1_rule s) = n /\
    In (-1) (map snd (c1_rule s)) /\ In 1 (map snd (c1_rule s)) /\ exact1_mu (2 * n - 3) mu (c1_rule s) /\ List.Forall (fun wx => 0 <= fst wx) (c1_rule s) /\ Sorted Rle (map snd (c1_rule s)).
Proof.
  intros eigh solve alpha beta mu n HE HB Hb Hm HO Hz Hn.
  destruct (lobatto_exact eigh solve (mk_rc alpha beta (mu 0%nat)) mu n HE HB) as [s [E [D [[L [X [P So]]] [I1 I2]]]]]; auto.
  { split; [exact Hb|]. split; [reflexivity|]. split; [exact Hm|]. intros m k j Hk. apply HO. lia. }
  exists s. repeat split; auto.
Qed.
(** The constructors as called: Jacobi weights with any a, b > -1. *)
Theorem C34_radau_jacobi : forall eigh solve a b int_1 n, eigen_solver eigh -> banded_solver solve -> -1 < a -> -1 < b -> jacobi_int a b (fun _ => 1) int_1 -> (2 <= n)%nat ->
  exists s, gauss_radau eigh solve (jacobi_rc a b int_1) n = Some s /\ length (c1_rule s) = n /\ In (-1) (map snd (c1_rule s)) /\ List.Forall (fun wx => 0 <= fst wx) (c1_rule s) /\
    forall c, (length c <= 2 * n - 1)%nat -> jacobi_int a b (peval c) (apply1 (c1_rule s) (peval c)).
Proof.
  intros eigh solve a b I n HE HB Ha Hb HI Hn. destruct (jacobi_good a b I Ha Hb HI) as [mu [G M]].
  destruct (radau_exact eigh solve _ mu n HE HB G) as [s [E [D [[L [X [P So]]] HIn]]]]; auto.
  { intros k. destruct (jacobi_good_ends a b I Ha Hb k) as [_ Q]. intros Z. rewrite Z in Q. lra. }
  exists s. repeat split; auto. intros c Hc. apply (gen_peval _ _ _ _ jD jDa jDb jDc (jw a b) mu (2 * n - 2) (c1_rule s) c M X). lia.
Qed.
Theorem C34_lobatto_jacobi : forall eigh solve a b int_1 n, eigen_solver eigh -> banded_solver solve -> -1 < a -> -1 < b -> jacobi_int a b (fun _ => 1) int_1 -> (2 <= n)%nat ->
  exists s, gauss_lobatto eigh solve (jacobi_rc a b int_1) n = Some s /\ c1_degree s = (2 * Z.of_nat n - 3)%Z /\ length (c1_rule s) = n /\ In (-1) (map snd (c1_rule s)) /\ In 1 (map snd (c1_rule s)) /\
    List.Forall (fun wx => 0 <= fst wx) (c1_rule s) /\ forall c, (length c <= 2 * n - 2)%nat -> jacobi_int a b (peval c) (apply1 (c1_rule s) (peval c)).
Proof.
  intros eigh solve a b I n HE HB Ha Hb HI Hn. destruct (jacobi_good a b I Ha Hb HI) as [mu [G M]].
  destruct (lobatto_exact eigh solve _ mu n HE HB G (jacobi_good_ends a b I Ha Hb) Hn) as [s [E [D [[L [X [P So]]] [I1 I2]]]]].
  exists s. repeat split; auto. intros c Hc. apply (gen_peval _ _ _ _ jD jDa jDb jDc (jw a b) mu (2 * n - 3) (c1_rule s) c M X). lia.
Qed.
Theorem C34_needs_two_points : forall eigh solve rc n, (n < 2)%nat -> gauss_radau eigh solve rc n = None /\ gauss_lobatto eigh solve rc n = None.
Proof. intros eigh solve rc [|[|n]] H; [split; reflexivity|split; reflexivity|lia]. Qed.
Example C34_jacobi_ends : forall k, 0 < monic (jacobi_alpha (1 / 2) 0) (jacobi_beta (1 / 2) 0) k 1.
Proof. intros k. apply (jacobi_good_ends (1 / 2) 0 1 ltac:(lra) ltac:(lra) k). Qed.

(* ------------------------------------------------------------------ C35 *)
(** gauss_radau declares 2n - 1, one more than the rule can do, for every n and every weight. *)
Theorem C35_radau_refuted : forall eigh solve a b int_1 n, eigen_solver eigh -> banded_solver solve -> -1 < a -> -1 < b -> jacobi_int a b (fun _ => 1) int_1 -> (2 <= n)%nat ->
  exists s, gauss_radau eigh solve (jacobi_rc a b int_1) n = Some s /\ c1_degree s = (2 * Z.of_nat n - 1)%Z /\
    exists c, (length c <= 2 * n)%nat /\ ~ jacobi_int a b (peval c) (apply1 (c1_rule s) (peval c)).
Proof.
  intros eigh solve a b I n HE HB Ha Hb HI Hn. destruct (jacobi_good a b I Ha Hb HI) as [mu [G M]].
  destruct (radau_exact eigh solve _ mu n HE HB G) as [s [E [D [[L [X [P So]]] HIn]]]]; auto.
  { intros k. destruct (jacobi_good_ends a b I Ha Hb k) as [_ Q]. intros Z. rewrite Z in Q. lra. }
  exists s. split; auto. split; auto. rewrite <- L. apply too_many_end. auto.
Qed.
(** Gauss rules do not over-claim, and no n-point rule can do better. *)
Theorem C35_gauss_optimal : forall a b q, exists c, (length c <= 2 * length q + 1)%nat /\ ~ jacobi_int a b (peval c) (apply1 q (peval c)).
Proof. exact too_many. Qed.

Print Assumptions C33_gauss.
Print Assumptions C33_gauss_jacobi.
Print Assumptions C33_jacobi_weight.
Print Assumptions C33_gauss_legendre.
Print Assumptions C33_gauss_laguerre.
Print Assumptions C33_laguerre_weight.
Print Assumptions C33_gauss_hermite.
Print Assumptions C33_no_points.
Print Assumptions C33_decomposition_exists.
Print Assumptions C34_radau.
Print Assumptions C34_lobatto.
Print Assumptions C34_radau_jacobi.
Print Assumptions C34_lobatto_jacobi.
Print Assumptions C34_needs_two_points.
Print Assumptions C35_radau_refuted.
Print Assumptions C35_gauss_optimal.
