(** From the symmetry data of a disk scheme to its rings, and the finite list of conditions for exactness. *)
From Coq Require Import Reals List Arith ZArith Lia Lra String Permutation.
From Coquelicot Require Import Coquelicot.
From Verif Require Import Spec RsumLemmas IntegralSpec SphereSpec PyBase SymmModel SymmProofs SphereInt RadialInt SchemeTools FixSpec FixTools RingTools.
Import ListNotations.
Set Bullet Behavior "Strict Subproofs".
Open Scope R_scope.
Local Notation length := List.length.

Notation plane_spec := (entry_spec (fun k => key_cols k 2) (fun k => orbit k 2)).
Lemma plane_expand data kd : resolve key_table data = Some kd ->
  List.Forall (fun kv => key_cols (fst kv) 2 (snd (snd kv)) <> None) kd ->
  List.Forall (entry_aligned (fun k => key_cols k 2)) kd ->
  exists pw, expand_symmetries_str data 2 = Some pw /\ Permutation (mk_rule pw) (flat_map plane_spec kd).
Proof.
  intros R S A. destruct (proj2 (gen_expand_Some (fun k => key_cols k 2) (fun k => orbit k 2) kd) S) as [pw E].
  exists pw. split; [unfold expand_symmetries_str; rewrite R; exact E|].
  apply (gen_expand_spec (fun k => key_cols k 2) (fun k => orbit k 2) (fun k c => orbit_length 2 k c) kd pw E A).
Qed.
Lemma ring_centre w : ring_rule (mk_ring w 1 0 0) = [(w, [0; 0])].
Proof. unfold ring_rule. cbn [rg_K rg_rho rg_w seq map]. rewrite !Rmult_0_r. reflexivity. Qed.
Lemma apply_flat_rings rs f : apply (flat_map ring_rule rs) f = Rsum (map (fun r => apply (ring_rule r) f) rs).
Proof. induction rs as [|r rs IH]; auto. cbn [flat_map map Rsum]. rewrite <- IH. unfold apply. rewrite map_app, Rsum_app. auto. Qed.
Lemma ring_dim r : List.Forall (fun wp => length (snd wp) = 2%nat) (ring_rule r).
Proof. unfold ring_rule. apply List.Forall_forall. intros x H. apply in_map_iff in H. destruct H as [i [<- _]]. reflexivity. Qed.

(** The moments h s of the radial weights: mean of r^s (s even). *)
Definition h_disk (s : nat) : R := 2 / IZR (Z.of_nat s + 2).
Definition zK (r : ring) : R := IZR (Z.of_nat (rg_K r)).
Lemma rings_exact_list d (M : (point -> R) -> R) (h : nat -> R) (rs : list ring) (q : rule) :
  (forall a b, (a + b <= d)%nat -> M (mono [a; b]) = h (a + b)%nat * sphere_mean 2 (mono [a; b])) ->
  Permutation q (flat_map ring_rule rs) ->
  List.forallb (fun r => (1 <=? rg_K r)%nat) rs = true ->
  List.Forall (fun s => Rsum (map (fun r => rg_w r * zK r * rg_rho r ^ s) rs) = h s) (filter Nat.even (seq 0 (S d))) ->
  List.Forall (fun sm => Rsum (map (fun r => if (snd sm mod rg_K r =? 0)%nat then rg_w r * zK r * rg_rho r ^ (fst sm) * (-1) ^ ((snd sm / rg_K r) * rg_off r) else 0) rs) = 0)
    (filter (fun sm => Nat.even (fst sm + snd sm) && existsb (fun r => (snd sm mod rg_K r =? 0)%nat) (filter (fun r => negb (rg_K r =? 1)%nat) rs))%bool
       (flat_map (fun s => map (fun m => (s, m)) (seq 1 s)) (seq 0 (S d)))) ->
  List.Forall (fun r => rg_K r = 1%nat -> rg_rho r = 0) rs ->
  exact 2 d (fun k => M (mono k)) q.
Proof.
  intros HM P HK H0 H1 HC. assert (ZK : forall r, INR (rg_K r) = zK r) by (intros; apply INR_IZR_INZ).
  apply (rings_exact d M h rs q); auto.
  - intros f. rewrite (apply_perm _ _ f P). apply apply_flat_rings.
  - apply (Permutation_Forall (Permutation_sym P)). apply List.Forall_forall. intros x Hx. apply in_flat_map in Hx. destruct Hx as [r [_ Hr]].
    pose proof (ring_dim r) as D. rewrite List.Forall_forall in D. apply D. auto.
  - apply List.Forall_forall. rewrite forallb_forall in HK. intros r Hr. apply Nat.leb_le. auto.
  - intros s Hs Es. rewrite List.Forall_forall in H0. rewrite <- (H0 s).
    + apply Rsum_map_ext. intros r _. rewrite ZK. auto.
    + apply filter_In. split; auto. apply in_seq. lia.
  - intros s m Hm Hs Es. set (g := fun sm : nat * nat => (Nat.even (fst sm + snd sm) && existsb (fun r => (snd sm mod rg_K r =? 0)%nat) (filter (fun r => negb (rg_K r =? 1)%nat) rs))%bool) in H1.
    destruct (existsb (fun r => (m mod rg_K r =? 0)%nat) (filter (fun r => negb (rg_K r =? 1)%nat) rs)) eqn:E.
    + rewrite List.Forall_forall in H1. rewrite <- (H1 (s, m)).
      * apply Rsum_map_ext. intros r _. cbn [fst snd]. unfold ring_sign. rewrite ZK. destruct (m mod rg_K r =? 0)%nat; [auto|ring].
      * apply filter_In. split; [|unfold g; cbn [fst snd]; rewrite Es, E; auto]. apply in_flat_map. exists s. split; [apply in_seq; lia|].
        apply in_map. apply in_seq. lia.
    + transitivity (Rsum (map (fun _ : ring => 0) rs)); [|rewrite Rsum_map_const; ring]. apply Rsum_map_ext. intros r Hr. unfold ring_sign.
      destruct (Nat.eqb_spec (rg_K r) 1) as [E1 | E1].
      * rewrite List.Forall_forall in HC. rewrite (HC r Hr E1), (pow_i s) by lia. ring.
      * destruct (m mod rg_K r =? 0)%nat eqn:E2; [|ring]. exfalso. rewrite <- Bool.not_true_iff_false in E. apply E. apply existsb_exists. exists r. split; auto.
        apply filter_In. split; auto. destruct (Nat.eqb_spec (rg_K r) 1); auto.
Qed.

(** The three radial weights on the plane. *)
Lemma rise_2_S m : rise 2 (S m) = 2 * rise 4 m.
Proof. cbn [rise]. replace (2 + 2) with 4 by ring. auto. Qed.
Lemma plane_h (I : list nat -> R) g h a b : (forall k, length k = 2%nat -> I k = rmoment g k) ->
  (forall m, (2 * m = a + b)%nat -> g m * rise 2 m = h (a + b)%nat) -> I [a; b] = h (a + b)%nat * sphere_mean 2 (mono [a; b]).
Proof.
  intros HI Hg. change (sphere_mean 2 (mono [a; b])) with (sphereI 2 [a; b]). rewrite HI, sphereI_val by (auto; lia). unfold rmoment.
  destruct (existsb Nat.odd [a; b]) eqn:E; [ring|]. cbn [existsb] in E. rewrite Bool.orb_false_r in E. apply Bool.orb_false_iff in E. destruct E as [Ea Eb].
  assert (Em : exists m, (a + b = 2 * m)%nat).
  { apply Nat.even_spec. rewrite Nat.even_add. rewrite <- !Nat.negb_odd, Ea, Eb. auto. }
  destruct Em as [m Em]. rewrite <- (Hg m) by lia.
  replace (tdeg [a; b] / 2)%nat with m by (unfold tdeg; cbn [list_sum fold_right]; replace (a + (b + 0))%nat with (m * 2)%nat by lia; rewrite Nat.div_mul; lia).
  unfold h_sphere. replace (INR 2) with 2 by (cbn; ring). field. apply Rgt_not_eq, rise_pos. lra.
Qed.
Lemma disk_h a b : ball_mean 2 (mono [a; b]) = h_disk (a + b)%nat * sphere_mean 2 (mono [a; b]).
Proof.
  apply (plane_h (ballI 2) (h_ball 2) h_disk); [intros; apply ballI_val; auto|]. intros m Hm. unfold h_ball, h_disk.
  replace (INR 2 + 2) with 4 by (cbn; ring). assert (P : 0 < rise 4 m) by (apply rise_pos; lra).
  assert (E := rise_2_S m). rewrite rise_S in E. apply (Rmult_eq_reg_r (2 + 2 * INR m)); [|pose proof (pos_INR m); lra].
  replace (/ rise 4 m * rise 2 m * (2 + 2 * INR m)) with (/ rise 4 m * (rise 2 m * (2 + 2 * INR m))) by ring. rewrite E, <- Hm.
  rewrite plus_IZR, <- INR_IZR_INZ, mult_INR. replace (INR 2) with 2 by (cbn; ring). pose proof (pos_INR m). field. split; lra.
Qed.
