(** The rule of Stroud (1967) of degree 7 for exp(-r^2) made of two scaled sphere rules. *)
From Coq Require Import Reals List Arith Lia Lra Permutation Bool.
From Verif Require Import Spec RsumLemmas CombModel CombProofs CombProofs2 Moments SymExact
  IntegralSpec IntegralProofs PyBase SymmModel SymmProofs MiscModel CnModel SchemeTools CnTools CnProofs IntegralProofs2 CnProofs2 CnProofs4
  TrigSums CnProofs5 MsModel MsProofs MsProofs2 Dobrodeev SphereSpec SphereInt RadialInt RadialTools UnModel UnProofs NsimplexProofs RadialDob SnModel RadialTrig
  SnProofs SnDob EnrModel RadialMs EnrProofs GaussInt.
Import ListNotations.
Set Bullet Behavior "Strict Subproofs".
Open Scope R_scope.

Lemma ndim_vol w n : (1 <= n)%nat -> radial_int w n (mono (repeat 0%nat n)) = radial_int w n (fun _ => 1).
Proof. intros H. destruct n as [|n]; [lia|]. apply radial_int_ext'. intros x Hx. apply mono0. apply tdeg_repeat0. Qed.
Lemma ndim_sph_vol n : (1 <= n)%nat -> ndim_nsphere n (repeat 0%nat n) = sphere_int n (fun _ => 1).
Proof.
  intros H. unfold ndim_nsphere. destruct n as [|n]; [lia|]. rewrite sphere_int_1. rewrite sphere_int_k by apply repeat_length. reflexivity.
Qed.
Theorem enr2_stroud_1967_7_4_exact n : (3 <= n)%nat -> good_scheme n 7 (enr2I n) (enr2_stroud_1967_7_4 n).
Proof.
  intros H. unfold enr2_stroud_1967_7_4. cbv zeta. assert (N3 : 3 <= INR n) by (replace 3 with (INR 3) by (simpl; lra); apply le_INR; lia).
  apply bind_guard; [apply Nat.leb_le; lia|]. apply bind_sqrt; [lra|]. intros a Pa Qa. assert (B : a < INR n + 2) by nra.
  apply bind_sqrt; [lra|]. intros r1 P1 Q1. apply bind_sqrt; [lra|]. intros r2 P2 Q2.
  destruct (enr2_volume n ltac:(lia)) as [g [Eg [Pg Hv]]]. rewrite Eg. cbn [bind].
  apply bind_div; [lra|]. intros q1 H1. apply bind_div; [lra|]. intros q2 H2.
  destruct (stroud_1967_exact n ltac:(lia)) as [s [Es G]]. rewrite Es. cbn [bind].
  assert (PS : 0 < sphere_int n (fun _ => 1)) by (destruct n as [|n]; [lia|]; rewrite sphere_int_1; apply sph0_pos; lia).
  rewrite ndim_sph_vol by lia. unfold ndim_enr2. rewrite ndim_vol, Hv by lia. apply bind_div; [apply Rmult_integral_contrapositive; split; lra|]. intros f Hf.
  assert (Hf' : f = 2 / g) by (rewrite Hf; field; lra). clear Hf Hv Eg.
  apply (scaled_exact n 7 (h_sphere n) (h_enr2 n) (sphereI n) (enr2I n)).
  - intros k Hk. apply sphereI_val; auto; lia.
  - apply ne2_h. lia.
  - exists s. auto.
  - intros m Hm. rewrite Q1, Q2, H1, H2, Hf'. assert (Ea : a ^ 2 = 2 * (INR n + 2)) by (rewrite <- Qa; ring).
    assert (Ea4 : a ^ 4 = (2 * (INR n + 2)) ^ 2) by (rewrite <- Ea; ring).
    destruct m as [|[|[|[|m]]]]; [| | | |lia]; unfold h_sphere, h_enr2; cbn [rise]; field_simplify_eq; try (repeat split; lra); rewrite ?Ea4, ?Ea; ring.
Qed.
