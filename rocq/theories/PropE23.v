(** C65: the schemes for the plane and the space with the weights exp(-|x|) and exp(-|x|^2).
    [delivers M n d r] (FixSpec.v): the call [r] returns a scheme which declares degree d and gives exactly the mean value M
    of every monomial in n variables of total degree at most d; [enr_mean n] and [enr2_mean n] are the means with respect to
    exp(-|x|) and exp(-|x|^2) over R^n, [radial_int w n f] is the integral of f(x) w(|x|) over R^n (SphereSpec.v). *)
From Coq Require Import Reals List Arith ZArith Lia Lra.
From Verif Require Import Spec IntegralSpec SphereSpec PyBase FixSpec E23Model E23Proofs E23Integrate.
Import ListNotations.
Set Bullet Behavior "Strict Subproofs".
Open Scope R_scope.

Theorem C65_e2r : List.Forall (fun c => delivers (enr_mean 2) 2 (fst c) (snd c))
    [(5, e2r_stroud_secrest_5); (7, e2r_stroud_secrest_6); (4, e2r_stroud_4_1)]%nat.
Proof.
  constructor; [exact e2r_stroud_secrest_5_ok|].
  constructor; [exact e2r_stroud_secrest_6_ok|].
  constructor; [exact e2r_stroud_4_1_ok|].
  constructor.
Qed.
Print Assumptions C65_e2r.
Theorem C65_e2r2 : List.Forall (fun c => delivers (enr2_mean 2) 2 (fst c) (snd c))
    [(5, e2r2_stroud_5_2); (1, e2r2_stroud_7_2); (5, e2r2_stroud_secrest_5); (7, e2r2_stroud_secrest_6);
     (4, e2r2_stroud_4_1)]%nat.
Proof.
  constructor; [exact e2r2_stroud_5_2_ok|].
  constructor; [exact e2r2_stroud_7_2_ok|].
  constructor; [exact e2r2_stroud_secrest_5_ok|].
  constructor; [exact e2r2_stroud_secrest_6_ok|].
  constructor; [exact e2r2_stroud_4_1_ok|].
  constructor.
Qed.
Print Assumptions C65_e2r2.
Theorem C65_e3r : List.Forall (fun c => delivers (enr_mean 3) 3 (fst c) (snd c))
    [(5, e3r_stroud_secrest_07); (5, e3r_stroud_secrest_08); (5, e3r_stroud_secrest_09); (7, e3r_stroud_secrest_10);
     (7, e3r_stroud_secrest_11)]%nat.
Proof.
  constructor; [exact e3r_stroud_secrest_07_ok|].
  constructor; [exact e3r_stroud_secrest_08_ok|].
  constructor; [exact e3r_stroud_secrest_09_ok|].
  constructor; [exact e3r_stroud_secrest_10_ok|].
  constructor; [exact e3r_stroud_secrest_11_ok|].
  constructor.
Qed.
Print Assumptions C65_e3r.
Theorem C65_e3r2 : List.Forall (fun c => delivers (enr2_mean 3) 3 (fst c) (snd c))
    [(5, e3r2_stroud_secrest_07); (5, e3r2_stroud_secrest_08a); (5, e3r2_stroud_secrest_08b); (5, e3r2_stroud_secrest_09);
     (7, e3r2_stroud_secrest_10a); (7, e3r2_stroud_secrest_10b); (7, e3r2_stroud_secrest_11a); (7, e3r2_stroud_secrest_11b)]%nat.
Proof.
  constructor; [exact e3r2_stroud_secrest_07_ok|].
  constructor; [exact e3r2_stroud_secrest_08a_ok|].
  constructor; [exact e3r2_stroud_secrest_08b_ok|].
  constructor; [exact e3r2_stroud_secrest_09_ok|].
  constructor; [exact e3r2_stroud_secrest_10a_ok|].
  constructor; [exact e3r2_stroud_secrest_10b_ok|].
  constructor; [exact e3r2_stroud_secrest_11a_ok|].
  constructor; [exact e3r2_stroud_secrest_11b_ok|].
  constructor.
Qed.
Print Assumptions C65_e3r2.

(** integrate() multiplies by the integral of the weight, so it returns the integral over the plane or the space of every
    polynomial the rule is exact for; likewise for the n-dimensional classes. *)
Theorem C65_integrate_exp : forall n d q p, (1 <= n)%nat ->
  (forall k, length k = n -> (tdeg k <= d)%nat -> apply q (mono k) = enr_mean n (mono k)) -> mp_ok n d p ->
  enr_integrate n q (mpeval p) = radial_int (fun r => exp (- r)) n (mpeval p) /\
  (n = 2%nat -> e2r_integrate q (mpeval p) = radial_int (fun r => exp (- r)) n (mpeval p)) /\
  (n = 3%nat -> e3r_integrate q (mpeval p) = radial_int (fun r => exp (- r)) n (mpeval p)).
Proof.
  intros n d q p Hn HM Hp. assert (E := enr_integrate_exact n d q p Hn HM Hp).
  split; [exact E|]. split; intros ->; rewrite <- E; [apply e2r_is_enr|apply e3r_is_enr].
Qed.
Print Assumptions C65_integrate_exp.
Theorem C65_integrate_gauss : forall n d q p, (1 <= n)%nat ->
  (forall k, length k = n -> (tdeg k <= d)%nat -> apply q (mono k) = enr2_mean n (mono k)) -> mp_ok n d p ->
  enr2_integrate n q (mpeval p) = radial_int (fun r => exp (- (r * r))) n (mpeval p) /\
  (n = 2%nat -> e2r2_integrate q (mpeval p) = radial_int (fun r => exp (- (r * r))) n (mpeval p)) /\
  (n = 3%nat -> e3r2_integrate q (mpeval p) = radial_int (fun r => exp (- (r * r))) n (mpeval p)).
Proof.
  intros n d q p Hn HM Hp. assert (E := enr2_integrate_exact n d q p Hn HM Hp).
  split; [exact E|]. split; intros ->; rewrite <- E; [apply e2r2_is_enr2|apply e3r2_is_enr2].
Qed.
Print Assumptions C65_integrate_gauss.
Example C65_ex : exists s, e3r2_stroud_secrest_11a = Some s /\
  e3r2_integrate (s_rule s) (mpeval [(5, [4; 2; 0]%nat)]) = radial_int (fun r => exp (- (r * r))) 3 (mpeval [(5, [4; 2; 0]%nat)]).
Proof.
  destruct e3r2_stroud_secrest_11a_ok as [s [E [_ [_ H]]]]. exists s. split; auto.
  refine (proj2 (proj2 (C65_integrate_gauss 3 7 (s_rule s) _ _ H _)) eq_refl); [lia|]. apply List.Forall_cons; [|apply List.Forall_nil]. unfold tdeg. cbn. lia.
Qed.
