(** Moments of the closed-form schemes of quadpy/e2r, e2r2, e3r, e3r2. *)
From Coq Require Import Reals List Arith ZArith Lia Lra String QArith Qreals.
From Verif Require Import Spec RsumLemmas IntegralSpec SphereSpec PyBase SymmModel SchemeTools Tower TowerSym TowerMoments FixSpec FixTools RingTools RingFix S2Model S2Proofs E23Model.
Import ListNotations.
Set Bullet Behavior "Strict Subproofs".
Open Scope R_scope.

Ltac e2r_go := repeat fix_step; fix_finish (enrQ 2) ltac:(apply enrQ_ok; auto).
Ltac e2r2_go := repeat fix_step; fix_finish (enr2Q 2) ltac:(apply enr2Q_ok; auto).
Ltac e3r_go := repeat fix_step; fix_finish (enrQ 3) ltac:(apply enrQ_ok; auto).
Ltac e3r2_go := repeat fix_step; fix_finish (enr2Q 3) ltac:(apply enr2Q_ok; auto).
Lemma e2r_stroud_secrest_5_ok : delivers (enr_mean 2) 2 5 e2r_stroud_secrest_5.
Proof. unfold e2r_stroud_secrest_5. cbv zeta. e2r_go. Qed.
Lemma e2r_stroud_secrest_6_ok : delivers (enr_mean 2) 2 7 e2r_stroud_secrest_6.
Proof. unfold e2r_stroud_secrest_6. cbv zeta. fix_step. bounds r 272 273. e2r_go. Qed.
Lemma e2r2_stroud_5_2_ok : delivers (enr2_mean 2) 2 5 e2r2_stroud_5_2.
Proof. unfold e2r2_stroud_5_2. e2r2_go. Qed.
Lemma e2r2_stroud_7_2_ok : delivers (enr2_mean 2) 2 1 e2r2_stroud_7_2.
Proof. unfold e2r2_stroud_7_2. cbv zeta. fix_step. bounds r (24/10) (25/10). e2r2_go. Qed.
Lemma e2r2_stroud_secrest_5_ok : delivers (enr2_mean 2) 2 5 e2r2_stroud_secrest_5.
Proof. unfold e2r2_stroud_secrest_5. cbv zeta. e2r2_go. Qed.
Lemma e2r2_stroud_secrest_6_ok : delivers (enr2_mean 2) 2 7 e2r2_stroud_secrest_6.
Proof. unfold e2r2_stroud_secrest_6. cbv zeta. fix_step. bounds r (22/10) (23/10). e2r2_go. Qed.
Lemma e3r_stroud_secrest_07_ok : delivers (enr_mean 3) 3 5 e3r_stroud_secrest_07.
Proof. unfold e3r_stroud_secrest_07. fix_step. bounds r (22/10) (23/10). e3r_go. Qed.
Lemma e3r_stroud_secrest_08_ok : delivers (enr_mean 3) 3 5 e3r_stroud_secrest_08.
Proof. unfold e3r_stroud_secrest_08. e3r_go. Qed.
Lemma e3r_stroud_secrest_09_ok : delivers (enr_mean 3) 3 5 e3r_stroud_secrest_09.
Proof. unfold e3r_stroud_secrest_09. cbv zeta. fix_step. fix_step. bounds r0 (22/10) (23/10). e3r_go. Qed.
Lemma e3r_stroud_secrest_10_ok : delivers (enr_mean 3) 3 7 e3r_stroud_secrest_10.
Proof. unfold e3r_stroud_secrest_10. cbv zeta. fix_step. bounds r (114/10) (115/10). e3r_go. Qed.
Lemma e3r2_stroud_secrest_07_ok : delivers (enr2_mean 3) 3 5 e3r2_stroud_secrest_07.
Proof. unfold e3r2_stroud_secrest_07. fix_step. bounds r (22/10) (23/10). e3r2_go. Qed.
Lemma e3r2_stroud_secrest_08a_ok : delivers (enr2_mean 3) 3 5 e3r2_stroud_secrest_08a.
Proof. unfold e3r2_stroud_secrest_08a. e3r2_go. Qed.
Lemma e3r2_stroud_secrest_08b_ok : delivers (enr2_mean 3) 3 5 e3r2_stroud_secrest_08b.
Proof. unfold e3r2_stroud_secrest_08b. e3r2_go. Qed.
Lemma e3r2_stroud_secrest_09_ok : delivers (enr2_mean 3) 3 5 e3r2_stroud_secrest_09.
Proof. unfold e3r2_stroud_secrest_09. fix_step. bounds r (22/10) (23/10). e3r2_go. Qed.
Lemma e3r2_stroud_secrest_10a_ok : delivers (enr2_mean 3) 3 7 e3r2_stroud_secrest_10a.
Proof. unfold e3r2_stroud_secrest_10a, e3r2_stroud_secrest_10. cbv zeta iota. fix_step. bounds r (38/10) (39/10). e3r2_go. Qed.
Lemma e3r2_stroud_secrest_10b_ok : delivers (enr2_mean 3) 3 7 e3r2_stroud_secrest_10b.
Proof. unfold e3r2_stroud_secrest_10b, e3r2_stroud_secrest_10. cbv zeta iota. fix_step. bounds r (38/10) (39/10). e3r2_go. Qed.
(** The product of two square roots is the third one. *)
Lemma sqrt_prod r s t a b c : 0 <= r -> 0 <= s -> 0 <= t -> r * r = a -> s * s = b -> t * t = c -> a * b = c -> t = r * s.
Proof. intros. apply Rsqr_inj; auto; [apply Rmult_le_pos; auto|]. unfold Rsqr. replace (r * s * (r * s)) with ((r * r) * (s * s)) by ring. congruence. Qed.
Lemma e3r_stroud_secrest_11_ok : delivers (enr_mean 3) 3 7 e3r_stroud_secrest_11.
Proof.
  unfold e3r_stroud_secrest_11. cbv zeta. fix_step. fix_step. fix_step. rewrite (sqrt_prod r r0 r1 5 39 195 P P0 P1 H H0 H1 ltac:(lra)). clear r1 P1 H1.
  bounds r (223/100) (224/100). bounds r0 (624/100) (625/100). e3r_go.
Qed.
Lemma e3r2_stroud_secrest_11a_ok : delivers (enr2_mean 3) 3 7 e3r2_stroud_secrest_11a.
Proof.
  unfold e3r2_stroud_secrest_11a, e3r2_stroud_secrest_11. cbv zeta iota. fix_step. fix_step. fix_step. rewrite (sqrt_prod r r0 r1 2 5 10 P P0 P1 H H0 H1 ltac:(lra)). clear r1 P1 H1.
  bounds r (141/100) (142/100). bounds r0 (223/100) (224/100). e3r2_go.
Qed.
Lemma e3r2_stroud_secrest_11b_ok : delivers (enr2_mean 3) 3 7 e3r2_stroud_secrest_11b.
Proof.
  unfold e3r2_stroud_secrest_11b, e3r2_stroud_secrest_11. cbv zeta iota. fix_step. fix_step. fix_step. rewrite (sqrt_prod r r0 r1 2 5 10 P P0 P1 H H0 H1 ltac:(lra)). clear r1 P1 H1.
  bounds r (141/100) (142/100). bounds r0 (223/100) (224/100). e3r2_go.
Qed.

(** The regular pentagon. *)
Definition h_list (l : list R) (s : nat) : R := nth s l 0.
Ltac plane_cases a b d :=
  let go := (destruct b as [|[|[|[|[|b]]]]]; try lia) in
  destruct a as [|[|[|[|[|a]]]]]; try lia; go.
Ltac qval f := match goal with |- context [Q2R (f 2%nat ?k)] => let v := eval vm_compute in (f 2%nat k) in change (f 2%nat k) with v end.
Lemma e2r_h a b : (a + b <= 4)%nat -> enr_mean 2 (mono [a; b]) = h_list [1; 2; 6; 24; 120] (a + b)%nat * sphere_mean 2 (mono [a; b]).
Proof.
  intros H. plane_cases a b 4%nat; rewrite enrQ_ok, sphereQ_ok by (auto; reflexivity); unfold h_list; cbn [nth Nat.add]; qval enrQ; qval sphereQ; unfold Q2R; cbn [Qnum Qden]; field.
Qed.
Lemma e2r2_h a b : (a + b <= 4)%nat -> enr2_mean 2 (mono [a; b]) = h_list [1; 1; 1; 1; 2] (a + b)%nat * sphere_mean 2 (mono [a; b]).
Proof.
  intros H. plane_cases a b 4%nat; rewrite enr2Q_ok, sphereQ_ok by (auto; reflexivity); unfold h_list; cbn [nth Nat.add]; qval enr2Q; qval sphereQ; unfold Q2R; cbn [Qnum Qden]; field.
Qed.
Ltac e2_rings M h lem rs :=
  match goal with |- delivers _ _ ?d (e2_scheme ?data ?d) => change (delivers M 2 d (s2_scheme data d)) end;
  eapply (s2_rings_ok M h _ _ _ rs);
  [intros; apply lem; auto | reflexivity | repeat constructor; discriminate
  | repeat constructor; intros cols Ec; injection Ec as <-; reflexivity
  | cbn [flat_map]; rewrite ?ring_centre; lazy -[Rplus Rmult Rminus Ropp Rdiv Rinv IZR pow cos sin]; reflexivity
  | reflexivity | | | repeat constructor; intros; try discriminate; reflexivity].
Lemma e2r_stroud_4_1_ok : delivers (enr_mean 2) 2 4 e2r_stroud_4_1.
Proof. unfold e2r_stroud_4_1. fix_step. e2_rings (enr_mean 2) (h_list [1; 2; 6; 24; 120]) e2r_h [mk_ring (7/10) 1 0 0; mk_ring (3/50) 5 (2 * r) 0]; ring_cond. Qed.
Lemma e2r2_stroud_4_1_ok : delivers (enr2_mean 2) 2 4 e2r2_stroud_4_1.
Proof. unfold e2r2_stroud_4_1. fix_step. e2_rings (enr2_mean 2) (h_list [1; 1; 1; 1; 2]) e2r2_h [mk_ring (1/2) 1 0 0; mk_ring (1/10) 5 r 0]; ring_cond. Qed.
