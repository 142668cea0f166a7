(** The moments of the weight |x|^alpha on the unit ball. *)
From Coq Require Import Reals List Arith ZArith Lia Lra.
From Coquelicot Require Import Coquelicot.
From Verif Require Import Spec RsumLemmas IntegralSpec SphereSpec IntegralProofs SphereInt RadialInt PowerBallSpec.
Import ListNotations.
Set Bullet Behavior "Strict Subproofs".
Open Scope R_scope.

Lemma RInt_pow01 m : RInt (fun r => r ^ m) 0 1 = 1 / INR (S m).
Proof.
  assert (P : INR (S m) <> 0) by (apply not_0_INR; lia).
  apply is_RInt_unique. replace (1 / INR (S m)) with (minus (1 ^ S m / INR (S m)) (0 ^ S m / INR (S m))).
  - apply (is_RInt_derive (fun r => r ^ S m / INR (S m)) (fun r => r ^ m)).
    + intros x _. auto_derive; auto. change (match m with O => 1 | S _ => INR m + 1 end) with (INR (S m)). replace (Init.Nat.pred (S m)) with m by auto. field. auto.
    + intros x _. apply (ex_derive_continuous (fun r => r ^ m)). auto_derive. auto.
  - rewrite pow1, pow_i by lia. unfold minus, plus, opp. cbn -[INR]. field. auto.
Qed.
Lemma power_ball_int_gen al n f s v : (1 <= n)%nat -> (- Z.of_nat n < al)%Z ->
  (forall r, sphere_int n (fun y => f (map (Rmult r) y)) = r ^ s * v) ->
  power_ball_int al n f = v / (INR n + IZR al + INR s).
Proof.
  intros Hn Ha H. unfold power_ball_int. set (m := Z.to_nat (Z.of_nat n - 1 + al)).
  assert (Em : INR (S (m + s)) = INR n + IZR al + INR s).
  { rewrite S_INR, plus_INR. replace (INR m) with (INR n - 1 + IZR al); [ring|]. unfold m. rewrite (INR_IZR_INZ (Z.to_nat _)), Z2Nat.id by lia.
    rewrite plus_IZR, minus_IZR, <- INR_IZR_INZ. ring. }
  transitivity (v * RInt (fun r => r ^ (m + s)) 0 1).
  - change (v * RInt (fun r => r ^ (m + s)) 0 1) with (scal v (RInt (fun r => r ^ (m + s)) 0 1)).
    rewrite <- (RInt_scal (V := R_CompleteNormedModule) (fun r => r ^ (m + s)) 0 1 v).
    + apply RInt_ext. intros r _. rewrite H, pow_add. unfold scal. cbn. unfold mult. cbn. ring.
    + apply ex_RInt_continuous. intros z _. apply (ex_derive_continuous (fun r => r ^ (m + s))). auto_derive. auto.
  - rewrite RInt_pow01, Em. unfold Rdiv. ring.
Qed.
Definition h_power (al : Z) (n : nat) (s : nat) : R := (INR n + IZR al) / (INR n + IZR al + INR s).
Theorem power_ball_val al n k : (1 <= n)%nat -> (- Z.of_nat n < al)%Z -> length k = n ->
  power_ball_mean al n (mono k) = h_power al n (tdeg k) * sphere_mean n (mono k).
Proof.
  intros Hn Ha Hk. unfold power_ball_mean, sphere_mean.
  rewrite (power_ball_int_gen al n (mono k) (tdeg k) (sphere_int n (mono k))); auto.
  - rewrite (power_ball_int_gen al n (fun _ : point => 1) 0 (sphere_int n (fun _ : point => 1))); auto; [|intros; cbn; ring].
    unfold h_power. assert (P : 0 < INR n + IZR al).
    { rewrite INR_IZR_INZ, <- plus_IZR. apply IZR_lt. lia. }
    destruct n as [|n]; [lia|]. rewrite sphere_int_1. pose proof (sph0_pos n). pose proof (pos_INR (tdeg k)). cbn [INR] in *. field. repeat split; lra.
  - intros r. destruct n as [|n]; [lia|]. rewrite (sphere_int_ext _ _ (mpeval [(r ^ tdeg k, k)])).
    + rewrite sphere_int_mpeval by (repeat constructor; auto). cbn [map Rsum fst snd]. rewrite sphere_int_k by auto. ring.
    + intros x Hx. unfold mpeval. cbn [map Rsum fst snd]. rewrite mono_scale by congruence. ring.
Qed.
(** With alpha = 0 this is the mean over the ball. *)
Theorem power_ball_0 n k : (1 <= n)%nat -> length k = n -> power_ball_mean 0 n (mono k) = ball_mean n (mono k).
Proof.
  intros Hn Hk. rewrite power_ball_val by (auto; lia). change (ball_mean n (mono k)) with (ballI n k). change (sphere_mean n (mono k)) with (sphereI n k).
  rewrite ballI_val, sphereI_val by auto. unfold rmoment. destruct (existsb Nat.odd k) eqn:E; [ring|].
  destruct (all_even_tdeg k (not_all_even k E)) as [j Hj]. rewrite Hj, half_double. unfold h_power, h_sphere, h_ball.
  assert (Pn : 0 < INR n) by (apply lt_0_INR; lia). pose proof (rise_pos (INR n) j Pn). pose proof (rise_pos (INR n + 2) j ltac:(lra)). pose proof (pos_INR j).
  assert (R : INR n * rise (INR n + 2) j = rise (INR n) j * (INR n + 2 * INR j)) by (rewrite <- rise_S; auto).
  rewrite mult_INR. replace (INR 2) with 2 by (cbn; ring). replace (/ rise (INR n + 2) j) with (INR n / (INR n * rise (INR n + 2) j)) by (field; lra).
  rewrite R. field. repeat split; lra.
Qed.
