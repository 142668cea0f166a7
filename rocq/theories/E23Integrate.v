(** integrate() with the weights exp(-|x|) and exp(-|x|^2). *)
From Coq Require Import Reals List Arith Lia Lra.
From Coquelicot Require Import Coquelicot.
From Verif Require Import Spec RsumLemmas IntegralSpec SphereSpec SphereInt RadialInt GaussInt RoundProofs PyBase E23Model.
Import ListNotations.
Set Bullet Behavior "Strict Subproofs".
Open Scope R_scope.

Lemma dot_apply q f : Rsum (map (fun wp => f (snd wp) * fst wp) q) = apply q f.
Proof. unfold apply. apply Rsum_map_ext. intros. ring. Qed.
Lemma apply_mpeval q p : apply q (mpeval p) = Rsum (map (fun ck => fst ck * apply q (mono (snd ck))) p).
Proof.
  induction p as [|[c k] p IH]; cbn [map Rsum fst snd].
  - unfold apply, mpeval. cbn [map Rsum]. transitivity (Rsum (map (fun _ : R * point => 0) q)); [apply Rsum_map_ext; intros; ring|]. rewrite Rsum_map_const. ring.
  - rewrite <- IH. unfold apply. rewrite <- Rsum_map_scal, <- Rsum_map_plus. apply Rsum_map_ext. intros wp _. unfold mpeval. cbn [map Rsum fst snd]. ring.
Qed.
Lemma radial_integrate w G n d q p : (forall a, imp (fun r => r ^ a * w r) (G a)) -> G n <> 0 ->
  (forall k, length k = S n -> (tdeg k <= d)%nat -> apply q (mono k) = radial_mean w (S n) (mono k)) -> mp_ok (S n) d p ->
  radial_int w (S n) (fun _ => 1) * Rsum (map (fun wp => mpeval p (snd wp) * fst wp) q) = radial_int w (S n) (mpeval p).
Proof.
  intros HG G0 HM Hp. rewrite dot_apply, apply_mpeval, (radial_int_mpeval w G) by (auto; apply List.Forall_impl with (2 := Hp); intros ck [H _]; auto).
  rewrite <- Rsum_map_scal. apply Rsum_map_ext. intros [c k] Hin. unfold mp_ok in Hp. rewrite List.Forall_forall in Hp. destruct (Hp _ Hin) as [L T]. cbn [fst snd] in *.
  rewrite HM by auto. unfold radial_mean. rewrite (radial_int_k w G), (radial_int_1 w G) by auto. field. split; auto. apply Rgt_not_eq, sph0_pos.
Qed.
Lemma imp_unique f a b : imp f a -> imp f b -> a = b.
Proof. intros H1 H2. rewrite <- (imp_RInt_gen f a H1). apply imp_RInt_gen. auto. Qed.
Lemma gauss_G : exists G : nat -> R, (forall a, 0 < G a /\ imp (fun r => r ^ a * exp (- (r * r))) (G a)) /\ (forall a, G (a + 2)%nat = INR (a + 1) / 2 * G a) /\ G 0%nat = sqrt PI / 2.
Proof.
  destruct gauss_moments as [G [HG HS]]. exists G. split; auto. split; auto.
  apply (imp_unique _ _ _ (proj2 (HG 0%nat)) gauss_integral).
Qed.
Lemma enr_integrate_exact n d q p : (1 <= n)%nat -> 
  (forall k, length k = n -> (tdeg k <= d)%nat -> apply q (mono k) = enr_mean n (mono k)) -> mp_ok n d p ->
  enr_integrate n q (mpeval p) = radial_int (fun r => exp (- r)) n (mpeval p).
Proof.
  intros Hn HM Hp. destruct n as [|n]; [lia|]. unfold enr_integrate. apply (radial_integrate _ (fun a => INR (fact a)) n d); auto using imp_exp. apply INR_fact_neq_0.
Qed.
Lemma enr2_integrate_exact n d q p : (1 <= n)%nat -> 
  (forall k, length k = n -> (tdeg k <= d)%nat -> apply q (mono k) = enr2_mean n (mono k)) -> mp_ok n d p ->
  enr2_integrate n q (mpeval p) = radial_int (fun r => exp (- (r * r))) n (mpeval p).
Proof.
  intros Hn HM Hp. destruct n as [|n]; [lia|]. destruct gauss_moments as [G [HG _]]. unfold enr2_integrate. apply (radial_integrate _ G n d); auto; [intros; apply HG|]. apply Rgt_not_eq, HG.
Qed.
Lemma enr_volume n : radial_int (fun r => exp (- r)) (S n) (fun _ => 1) = sphere_int (S n) (fun _ => 1) * INR (fact n).
Proof. rewrite (radial_int_1 _ (fun a => INR (fact a))) by apply imp_exp. rewrite sphere_int_1. auto. Qed.
Lemma e2r_is_enr q f : e2r_integrate q f = enr_integrate 2 q f.
Proof. unfold e2r_integrate, enr_integrate. rewrite enr_volume, sphere_2. f_equal. cbn. ring. Qed.
Lemma e3r_is_enr q f : e3r_integrate q f = enr_integrate 3 q f.
Proof. unfold e3r_integrate, enr_integrate. rewrite enr_volume, sphere_3. f_equal. cbn. ring. Qed.
Lemma e2r2_is_enr2 q f : e2r2_integrate q f = enr2_integrate 2 q f.
Proof.
  unfold e2r2_integrate, enr2_integrate. destruct gauss_G as [G [HG [HS H0]]]. rewrite (radial_int_1 _ G) by (intros; apply HG). rewrite <- sphere_int_1, sphere_2. f_equal.
  assert (E : G 1%nat = 1/2); [|rewrite E; field]. symmetry. apply (imp_unique _ _ _ imp_gauss1 (proj2 (HG 1%nat))).
Qed.
Lemma e3r2_is_enr2 q f : e3r2_integrate q f = enr2_integrate 3 q f.
Proof.
  unfold e3r2_integrate, enr2_integrate. destruct gauss_G as [G [HG [HS H0]]]. rewrite (radial_int_1 _ G) by (intros; apply HG). rewrite <- sphere_int_1, sphere_3. f_equal.
  change 2%nat with (0 + 2)%nat. rewrite HS, H0. cbn [Nat.add INR]. pose proof (sqrt_sqrt PI (Rlt_le _ _ PI_RGT_0)) as E. cbn [pow]. rewrite Rmult_1_r. rewrite <- Rmult_assoc. rewrite E. field.
Qed.
