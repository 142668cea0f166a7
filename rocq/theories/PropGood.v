(** C51: get_good_scheme.  [declares_enough], [good_for], [good_or_none] and [files_declare] are explained in GoodSpec.v.
    C68: the readers of the data files. *)
From Coq Require Import Reals List Arith ZArith Lia Lra String.
From Verif Require Import Spec IntegralSpec SphereSpec PyBase FixSpec RootSpec RootSat C1Model C1Proofs C2Model C2Proofs C3Model C3Proofs C3Param S2Model S2Proofs S3Model S3Proofs
  T2Model T2Proofs T3Model T3Proofs T3Cubic U3Model U3Proofs E23Model E23Proofs GoodModel GoodSpec GoodProofs.
Import ListNotations.
Set Bullet Behavior "Strict Subproofs".
Local Notation length := List.length.
Open Scope R_scope.
Open Scope string_scope.

Ltac closed_entry ok :=
  let s := fresh "s" in let E := fresh "E" in let D := fresh "D" in let H := fresh "H" in
  destruct ok as [s [E [D [_ H]]]]; exists s; split; [apply registered_closed; rewrite <- E; reflexivity|].
Ltac decimal_entry ok :=
  let s := fresh "s" in let E := fresh "E" in let D := fresh "D" in
  destruct ok as [s [E D]]; exists s; split; [apply registered_closed; rewrite <- E; reflexivity|rewrite D; lia].
Ltac file_entry HF R :=
  match goal with |- context [registered _ _ _ ?name] =>
    let d := fresh "d" in let L := fresh "L" in let s := fresh "s" in let E := fresh "E" in
    edestruct (HF name) as [L [s E]]; [cbn; tauto|]; exists s; split;
    [rewrite registered_file by reflexivity; rewrite E; reflexivity|]; destruct (R _ _ E) as [_ [_ [-> _]]]; lia
  end.

(* ------------------------------------------------------------------ c2 *)
Theorem C51_c2_partial : forall files degree, files_declare read_c2 files c2_file_degrees -> 
  ((0 <= degree <= 21)%Z -> declares_enough degree (c2_get_good_scheme files degree)) /\ ((22 < degree)%Z -> c2_get_good_scheme files degree = NoScheme).
Proof.
  intros files degree HF. unfold c2_get_good_scheme, c2_schemes. split; [intros Hd|apply good_lazy_none].
  apply good_lazy_ok; [lia|apply (in_range c2_table 21 _ eq_refl); lia| |].
  - apply registered_all. reflexivity.
  - intros e He Ed. cbn in He.
    destruct He as [<-|He]; [cbn [fst snd] in *; subst degree; closed_entry c2_dunavant_00_ok; rewrite D; lia|].
    destruct He as [<-|He]; [cbn [fst snd] in *; subst degree; closed_entry c2_dunavant_00_ok; rewrite D; lia|].
    destruct He as [<-|He]; [cbn [fst snd] in *; subst degree; closed_entry c2_hammer_stroud_1_2_ok; rewrite D; lia|].
    destruct He as [<-|He]; [cbn [fst snd] in *; subst degree; closed_entry c2_hammer_stroud_1_2_ok; rewrite D; lia|].
    destruct He as [<-|He]; [cbn [fst snd] in *; subst degree; closed_entry c2_burnside_ok; rewrite D; lia|].
    destruct He as [<-|He]; [cbn [fst snd] in *; subst degree; closed_entry c2_burnside_ok; rewrite D; lia|].
    destruct He as [<-|He]; [cbn [fst snd] in *; subst degree; closed_entry c2_tyler_2_ok; rewrite D; lia|].
    destruct He as [<-|He]; [cbn [fst snd] in *; subst degree; closed_entry c2_tyler_2_ok; rewrite D; lia|].
    destruct He as [<-|He]; [cbn [fst snd] in *; subst degree; file_entry HF reads_c2|].
    destruct He as [<-|He]; [cbn [fst snd] in *; subst degree; file_entry HF reads_c2|].
    destruct He as [<-|He]; [cbn [fst snd] in *; subst degree; file_entry HF reads_c2|].
    destruct He as [<-|He]; [cbn [fst snd] in *; subst degree; file_entry HF reads_c2|].
    destruct He as [<-|He]; [cbn [fst snd] in *; subst degree; file_entry HF reads_c2|].
    destruct He as [<-|He]; [cbn [fst snd] in *; subst degree; file_entry HF reads_c2|].
    destruct He as [<-|He]; [cbn [fst snd] in *; subst degree; file_entry HF reads_c2|].
    destruct He as [<-|He]; [cbn [fst snd] in *; subst degree; file_entry HF reads_c2|].
    destruct He as [<-|He]; [cbn [fst snd] in *; subst degree; file_entry HF reads_c2|].
    destruct He as [<-|He]; [cbn [fst snd] in *; subst degree; file_entry HF reads_c2|].
    destruct He as [<-|He]; [cbn [fst snd] in *; subst degree; file_entry HF reads_c2|].
    destruct He as [<-|He]; [cbn [fst snd] in *; subst degree; file_entry HF reads_c2|].
    destruct He as [<-|He]; [cbn [fst snd] in *; subst degree; file_entry HF reads_c2|].
    destruct He as [<-|He]; [cbn [fst snd] in *; subst degree; file_entry HF reads_c2|].
    destruct He.
Qed.
Print Assumptions C51_c2_partial.
Theorem C51_c2_exact : forall files degree, In degree [0; 1; 2; 3; 4; 5; 6; 7]%Z ->
  good_for (cube_mean 2) 2 degree (c2_get_good_scheme files degree).
Proof.
  intros files degree Hd. unfold c2_get_good_scheme, c2_schemes.
  assert (Hb : (0 <= degree <= 21)%Z) by (cbn in Hd; lia).
  apply good_lazy_ok; [lia|apply (in_range c2_table 21 _ eq_refl); lia| |].
  - apply registered_all. reflexivity.
  - intros e He Ed. cbn in He.
    destruct He as [<-|He]; [cbn [fst snd] in *; subst degree; closed_entry c2_dunavant_00_ok; rewrite D; split; [lia|]; intros k L T; apply H; auto; lia|].
    destruct He as [<-|He]; [cbn [fst snd] in *; subst degree; closed_entry c2_dunavant_00_ok; rewrite D; split; [lia|]; intros k L T; apply H; auto; lia|].
    destruct He as [<-|He]; [cbn [fst snd] in *; subst degree; closed_entry c2_hammer_stroud_1_2_ok; rewrite D; split; [lia|]; intros k L T; apply H; auto; lia|].
    destruct He as [<-|He]; [cbn [fst snd] in *; subst degree; closed_entry c2_hammer_stroud_1_2_ok; rewrite D; split; [lia|]; intros k L T; apply H; auto; lia|].
    destruct He as [<-|He]; [cbn [fst snd] in *; subst degree; closed_entry c2_burnside_ok; rewrite D; split; [lia|]; intros k L T; apply H; auto; lia|].
    destruct He as [<-|He]; [cbn [fst snd] in *; subst degree; closed_entry c2_burnside_ok; rewrite D; split; [lia|]; intros k L T; apply H; auto; lia|].
    destruct He as [<-|He]; [cbn [fst snd] in *; subst degree; closed_entry c2_tyler_2_ok; rewrite D; split; [lia|]; intros k L T; apply H; auto; lia|].
    destruct He as [<-|He]; [cbn [fst snd] in *; subst degree; closed_entry c2_tyler_2_ok; rewrite D; split; [lia|]; intros k L T; apply H; auto; lia|].
    destruct He as [<-|He]; [cbn [fst snd] in *; subst degree; exfalso; cbn in Hd; lia|].
    destruct He as [<-|He]; [cbn [fst snd] in *; subst degree; exfalso; cbn in Hd; lia|].
    destruct He as [<-|He]; [cbn [fst snd] in *; subst degree; exfalso; cbn in Hd; lia|].
    destruct He as [<-|He]; [cbn [fst snd] in *; subst degree; exfalso; cbn in Hd; lia|].
    destruct He as [<-|He]; [cbn [fst snd] in *; subst degree; exfalso; cbn in Hd; lia|].
    destruct He as [<-|He]; [cbn [fst snd] in *; subst degree; exfalso; cbn in Hd; lia|].
    destruct He as [<-|He]; [cbn [fst snd] in *; subst degree; exfalso; cbn in Hd; lia|].
    destruct He as [<-|He]; [cbn [fst snd] in *; subst degree; exfalso; cbn in Hd; lia|].
    destruct He as [<-|He]; [cbn [fst snd] in *; subst degree; exfalso; cbn in Hd; lia|].
    destruct He as [<-|He]; [cbn [fst snd] in *; subst degree; exfalso; cbn in Hd; lia|].
    destruct He as [<-|He]; [cbn [fst snd] in *; subst degree; exfalso; cbn in Hd; lia|].
    destruct He as [<-|He]; [cbn [fst snd] in *; subst degree; exfalso; cbn in Hd; lia|].
    destruct He as [<-|He]; [cbn [fst snd] in *; subst degree; exfalso; cbn in Hd; lia|].
    destruct He as [<-|He]; [cbn [fst snd] in *; subst degree; exfalso; cbn in Hd; lia|].
    destruct He.
Qed.
Print Assumptions C51_c2_exact.

(* ------------------------------------------------------------------ c3 *)
Theorem C51_c3_partial : forall degree, 
  ((0 <= degree <= 11)%Z -> declares_enough degree (c3_get_good_scheme degree)) /\ ((11 < degree)%Z -> c3_get_good_scheme degree = NoScheme).
Proof.
  intros  degree. unfold c3_get_good_scheme, c3_schemes. split; [intros Hd|apply good_eager_none].
  apply good_eager_ok; [lia|apply (in_range c3_table 11 _ eq_refl); lia| |].
  - intros e He. cbn in He. 
    destruct He as [<-|He]; [destruct c3_midpoint_ok as [s [E _]]; exists s; apply registered_closed; rewrite <- E; reflexivity|].
    destruct He as [<-|He]; [destruct c3_midpoint_ok as [s [E _]]; exists s; apply registered_closed; rewrite <- E; reflexivity|].
    destruct He as [<-|He]; [destruct c3_face_midpoint_ok as [s [E _]]; exists s; apply registered_closed; rewrite <- E; reflexivity|].
    destruct He as [<-|He]; [destruct c3_face_midpoint_ok as [s [E _]]; exists s; apply registered_closed; rewrite <- E; reflexivity|].
    destruct He as [<-|He]; [destruct c3_hammer_stroud_4_3_ok as [s [E _]]; exists s; apply registered_closed; rewrite <- E; reflexivity|].
    destruct He as [<-|He]; [destruct c3_hammer_stroud_4_3_ok as [s [E _]]; exists s; apply registered_closed; rewrite <- E; reflexivity|].
    destruct He as [<-|He]; [destruct hammer_wymore_default as [s [E _]]; exists s; apply registered_closed; rewrite <- E; reflexivity|].
    destruct He as [<-|He]; [destruct hammer_wymore_default as [s [E _]]; exists s; apply registered_closed; rewrite <- E; reflexivity|].
    destruct He as [<-|He]; [destruct c3_witherden_vincent_09_builds as [s [E _]]; exists s; apply registered_closed; rewrite <- E; reflexivity|].
    destruct He as [<-|He]; [destruct c3_witherden_vincent_09_builds as [s [E _]]; exists s; apply registered_closed; rewrite <- E; reflexivity|].
    destruct He as [<-|He]; [destruct c3_witherden_vincent_11_builds as [s [E _]]; exists s; apply registered_closed; rewrite <- E; reflexivity|].
    destruct He as [<-|He]; [destruct c3_witherden_vincent_11_builds as [s [E _]]; exists s; apply registered_closed; rewrite <- E; reflexivity|].
    destruct He.
  - intros e He Ed. cbn in He.
    destruct He as [<-|He]; [cbn [fst snd] in *; subst degree; closed_entry c3_midpoint_ok; rewrite D; lia|].
    destruct He as [<-|He]; [cbn [fst snd] in *; subst degree; closed_entry c3_midpoint_ok; rewrite D; lia|].
    destruct He as [<-|He]; [cbn [fst snd] in *; subst degree; closed_entry c3_face_midpoint_ok; rewrite D; lia|].
    destruct He as [<-|He]; [cbn [fst snd] in *; subst degree; closed_entry c3_face_midpoint_ok; rewrite D; lia|].
    destruct He as [<-|He]; [cbn [fst snd] in *; subst degree; closed_entry c3_hammer_stroud_4_3_ok; rewrite D; lia|].
    destruct He as [<-|He]; [cbn [fst snd] in *; subst degree; closed_entry c3_hammer_stroud_4_3_ok; rewrite D; lia|].
    destruct He as [<-|He]; [cbn [fst snd] in *; subst degree; closed_entry hammer_wymore_default; rewrite D; lia|].
    destruct He as [<-|He]; [cbn [fst snd] in *; subst degree; closed_entry hammer_wymore_default; rewrite D; lia|].
    destruct He as [<-|He]; [cbn [fst snd] in *; subst degree; decimal_entry c3_witherden_vincent_09_builds|].
    destruct He as [<-|He]; [cbn [fst snd] in *; subst degree; decimal_entry c3_witherden_vincent_09_builds|].
    destruct He as [<-|He]; [cbn [fst snd] in *; subst degree; decimal_entry c3_witherden_vincent_11_builds|].
    destruct He as [<-|He]; [cbn [fst snd] in *; subst degree; decimal_entry c3_witherden_vincent_11_builds|].
    destruct He.
Qed.
Print Assumptions C51_c3_partial.
Theorem C51_c3_exact : forall degree, In degree [0; 1; 2; 3; 4; 5; 6; 7]%Z ->
  good_for (cube_mean 3) 3 degree (c3_get_good_scheme degree).
Proof.
  intros  degree Hd. unfold c3_get_good_scheme, c3_schemes.
  assert (Hb : (0 <= degree <= 11)%Z) by (cbn in Hd; lia).
  apply good_eager_ok; [lia|apply (in_range c3_table 11 _ eq_refl); lia| |].
  - intros e He. cbn in He.
    destruct He as [<-|He]; [destruct c3_midpoint_ok as [s [E _]]; exists s; apply registered_closed; rewrite <- E; reflexivity|].
    destruct He as [<-|He]; [destruct c3_midpoint_ok as [s [E _]]; exists s; apply registered_closed; rewrite <- E; reflexivity|].
    destruct He as [<-|He]; [destruct c3_face_midpoint_ok as [s [E _]]; exists s; apply registered_closed; rewrite <- E; reflexivity|].
    destruct He as [<-|He]; [destruct c3_face_midpoint_ok as [s [E _]]; exists s; apply registered_closed; rewrite <- E; reflexivity|].
    destruct He as [<-|He]; [destruct c3_hammer_stroud_4_3_ok as [s [E _]]; exists s; apply registered_closed; rewrite <- E; reflexivity|].
    destruct He as [<-|He]; [destruct c3_hammer_stroud_4_3_ok as [s [E _]]; exists s; apply registered_closed; rewrite <- E; reflexivity|].
    destruct He as [<-|He]; [destruct hammer_wymore_default as [s [E _]]; exists s; apply registered_closed; rewrite <- E; reflexivity|].
    destruct He as [<-|He]; [destruct hammer_wymore_default as [s [E _]]; exists s; apply registered_closed; rewrite <- E; reflexivity|].
    destruct He as [<-|He]; [destruct c3_witherden_vincent_09_builds as [s [E _]]; exists s; apply registered_closed; rewrite <- E; reflexivity|].
    destruct He as [<-|He]; [destruct c3_witherden_vincent_09_builds as [s [E _]]; exists s; apply registered_closed; rewrite <- E; reflexivity|].
    destruct He as [<-|He]; [destruct c3_witherden_vincent_11_builds as [s [E _]]; exists s; apply registered_closed; rewrite <- E; reflexivity|].
    destruct He as [<-|He]; [destruct c3_witherden_vincent_11_builds as [s [E _]]; exists s; apply registered_closed; rewrite <- E; reflexivity|].
    destruct He.
  - intros e He Ed. cbn in He.
    destruct He as [<-|He]; [cbn [fst snd] in *; subst degree; closed_entry c3_midpoint_ok; rewrite D; split; [lia|]; intros k L T; apply H; auto; lia|].
    destruct He as [<-|He]; [cbn [fst snd] in *; subst degree; closed_entry c3_midpoint_ok; rewrite D; split; [lia|]; intros k L T; apply H; auto; lia|].
    destruct He as [<-|He]; [cbn [fst snd] in *; subst degree; closed_entry c3_face_midpoint_ok; rewrite D; split; [lia|]; intros k L T; apply H; auto; lia|].
    destruct He as [<-|He]; [cbn [fst snd] in *; subst degree; closed_entry c3_face_midpoint_ok; rewrite D; split; [lia|]; intros k L T; apply H; auto; lia|].
    destruct He as [<-|He]; [cbn [fst snd] in *; subst degree; closed_entry c3_hammer_stroud_4_3_ok; rewrite D; split; [lia|]; intros k L T; apply H; auto; lia|].
    destruct He as [<-|He]; [cbn [fst snd] in *; subst degree; closed_entry c3_hammer_stroud_4_3_ok; rewrite D; split; [lia|]; intros k L T; apply H; auto; lia|].
    destruct He as [<-|He]; [cbn [fst snd] in *; subst degree; closed_entry hammer_wymore_default; rewrite D; split; [lia|]; intros k L T; apply H; auto; lia|].
    destruct He as [<-|He]; [cbn [fst snd] in *; subst degree; closed_entry hammer_wymore_default; rewrite D; split; [lia|]; intros k L T; apply H; auto; lia|].
    destruct He as [<-|He]; [cbn [fst snd] in *; subst degree; exfalso; cbn in Hd; lia|].
    destruct He as [<-|He]; [cbn [fst snd] in *; subst degree; exfalso; cbn in Hd; lia|].
    destruct He as [<-|He]; [cbn [fst snd] in *; subst degree; exfalso; cbn in Hd; lia|].
    destruct He as [<-|He]; [cbn [fst snd] in *; subst degree; exfalso; cbn in Hd; lia|].
    destruct He.
Qed.
Print Assumptions C51_c3_exact.

(* ------------------------------------------------------------------ t2 *)
Theorem C51_t2_partial : forall roots files degree, root_finder roots -> files_declare read_t2 files t2_file_degrees -> 
  ((0 <= degree <= 50)%Z -> declares_enough degree (t2_get_good_scheme roots files degree)) /\ ((50 < degree)%Z -> t2_get_good_scheme roots files degree = NoScheme).
Proof.
  intros roots files degree Hr HF. unfold t2_get_good_scheme, t2_schemes. split; [intros Hd|apply good_lazy_none].
  apply good_lazy_ok; [lia|apply (in_range t2_table 50 _ eq_refl); lia| |].
  - apply registered_all. reflexivity.
  - intros e He Ed. cbn in He.
    destruct He as [<-|He]; [cbn [fst snd] in *; subst degree; closed_entry t2_centroid_ok; rewrite D; lia|].
    destruct He as [<-|He]; [cbn [fst snd] in *; subst degree; closed_entry t2_centroid_ok; rewrite D; lia|].
    destruct He as [<-|He]; [cbn [fst snd] in *; subst degree; closed_entry t2_hammer_marlowe_stroud_3_ok; rewrite D; lia|].
    destruct He as [<-|He]; [cbn [fst snd] in *; subst degree; closed_entry (t2_strang_fix_cowper_04_ok roots Hr); rewrite D; lia|].
    destruct He as [<-|He]; [cbn [fst snd] in *; subst degree; file_entry HF reads_t2|].
    destruct He as [<-|He]; [cbn [fst snd] in *; subst degree; closed_entry t2_hammer_marlowe_stroud_5_ok; rewrite D; lia|].
    destruct He as [<-|He]; [cbn [fst snd] in *; subst degree; file_entry HF reads_t2|].
    destruct He as [<-|He]; [cbn [fst snd] in *; subst degree; file_entry HF reads_t2|].
    destruct He as [<-|He]; [cbn [fst snd] in *; subst degree; decimal_entry t2_lyness_jespersen_15_builds|].
    destruct He as [<-|He]; [cbn [fst snd] in *; subst degree; decimal_entry t2_lyness_jespersen_18_builds|].
    destruct He as [<-|He]; [cbn [fst snd] in *; subst degree; file_entry HF reads_t2|].
    destruct He as [<-|He]; [cbn [fst snd] in *; subst degree; file_entry HF reads_t2|].
    destruct He as [<-|He]; [cbn [fst snd] in *; subst degree; file_entry HF reads_t2|].
    destruct He as [<-|He]; [cbn [fst snd] in *; subst degree; file_entry HF reads_t2|].
    destruct He as [<-|He]; [cbn [fst snd] in *; subst degree; file_entry HF reads_t2|].
    destruct He as [<-|He]; [cbn [fst snd] in *; subst degree; file_entry HF reads_t2|].
    destruct He as [<-|He]; [cbn [fst snd] in *; subst degree; file_entry HF reads_t2|].
    destruct He as [<-|He]; [cbn [fst snd] in *; subst degree; file_entry HF reads_t2|].
    destruct He as [<-|He]; [cbn [fst snd] in *; subst degree; file_entry HF reads_t2|].
    destruct He as [<-|He]; [cbn [fst snd] in *; subst degree; file_entry HF reads_t2|].
    destruct He as [<-|He]; [cbn [fst snd] in *; subst degree; file_entry HF reads_t2|].
    destruct He as [<-|He]; [cbn [fst snd] in *; subst degree; file_entry HF reads_t2|].
    destruct He as [<-|He]; [cbn [fst snd] in *; subst degree; file_entry HF reads_t2|].
    destruct He as [<-|He]; [cbn [fst snd] in *; subst degree; file_entry HF reads_t2|].
    destruct He as [<-|He]; [cbn [fst snd] in *; subst degree; file_entry HF reads_t2|].
    destruct He as [<-|He]; [cbn [fst snd] in *; subst degree; file_entry HF reads_t2|].
    destruct He as [<-|He]; [cbn [fst snd] in *; subst degree; file_entry HF reads_t2|].
    destruct He as [<-|He]; [cbn [fst snd] in *; subst degree; file_entry HF reads_t2|].
    destruct He as [<-|He]; [cbn [fst snd] in *; subst degree; file_entry HF reads_t2|].
    destruct He as [<-|He]; [cbn [fst snd] in *; subst degree; file_entry HF reads_t2|].
    destruct He as [<-|He]; [cbn [fst snd] in *; subst degree; file_entry HF reads_t2|].
    destruct He as [<-|He]; [cbn [fst snd] in *; subst degree; file_entry HF reads_t2|].
    destruct He as [<-|He]; [cbn [fst snd] in *; subst degree; file_entry HF reads_t2|].
    destruct He as [<-|He]; [cbn [fst snd] in *; subst degree; file_entry HF reads_t2|].
    destruct He as [<-|He]; [cbn [fst snd] in *; subst degree; file_entry HF reads_t2|].
    destruct He as [<-|He]; [cbn [fst snd] in *; subst degree; file_entry HF reads_t2|].
    destruct He as [<-|He]; [cbn [fst snd] in *; subst degree; file_entry HF reads_t2|].
    destruct He as [<-|He]; [cbn [fst snd] in *; subst degree; file_entry HF reads_t2|].
    destruct He as [<-|He]; [cbn [fst snd] in *; subst degree; file_entry HF reads_t2|].
    destruct He as [<-|He]; [cbn [fst snd] in *; subst degree; file_entry HF reads_t2|].
    destruct He as [<-|He]; [cbn [fst snd] in *; subst degree; file_entry HF reads_t2|].
    destruct He as [<-|He]; [cbn [fst snd] in *; subst degree; file_entry HF reads_t2|].
    destruct He as [<-|He]; [cbn [fst snd] in *; subst degree; file_entry HF reads_t2|].
    destruct He as [<-|He]; [cbn [fst snd] in *; subst degree; file_entry HF reads_t2|].
    destruct He as [<-|He]; [cbn [fst snd] in *; subst degree; file_entry HF reads_t2|].
    destruct He as [<-|He]; [cbn [fst snd] in *; subst degree; file_entry HF reads_t2|].
    destruct He as [<-|He]; [cbn [fst snd] in *; subst degree; file_entry HF reads_t2|].
    destruct He as [<-|He]; [cbn [fst snd] in *; subst degree; file_entry HF reads_t2|].
    destruct He as [<-|He]; [cbn [fst snd] in *; subst degree; file_entry HF reads_t2|].
    destruct He as [<-|He]; [cbn [fst snd] in *; subst degree; file_entry HF reads_t2|].
    destruct He as [<-|He]; [cbn [fst snd] in *; subst degree; file_entry HF reads_t2|].
    destruct He.
Qed.
Print Assumptions C51_t2_partial.
Theorem C51_t2_exact : forall roots files degree, root_finder roots -> In degree [0; 1; 2; 3; 5]%Z ->
  good_for (simplex_mean 2) 3 degree (t2_get_good_scheme roots files degree).
Proof.
  intros roots files degree Hr Hd. unfold t2_get_good_scheme, t2_schemes.
  assert (Hb : (0 <= degree <= 50)%Z) by (cbn in Hd; lia).
  apply good_lazy_ok; [lia|apply (in_range t2_table 50 _ eq_refl); lia| |].
  - apply registered_all. reflexivity.
  - intros e He Ed. cbn in He.
    destruct He as [<-|He]; [cbn [fst snd] in *; subst degree; closed_entry t2_centroid_ok; rewrite D; split; [lia|]; intros k L T; apply H; auto; lia|].
    destruct He as [<-|He]; [cbn [fst snd] in *; subst degree; closed_entry t2_centroid_ok; rewrite D; split; [lia|]; intros k L T; apply H; auto; lia|].
    destruct He as [<-|He]; [cbn [fst snd] in *; subst degree; closed_entry t2_hammer_marlowe_stroud_3_ok; rewrite D; split; [lia|]; intros k L T; apply H; auto; lia|].
    destruct He as [<-|He]; [cbn [fst snd] in *; subst degree; closed_entry (t2_strang_fix_cowper_04_ok roots Hr); rewrite D; split; [lia|]; intros k L T; apply H; auto; lia|].
    destruct He as [<-|He]; [cbn [fst snd] in *; subst degree; exfalso; cbn in Hd; lia|].
    destruct He as [<-|He]; [cbn [fst snd] in *; subst degree; closed_entry t2_hammer_marlowe_stroud_5_ok; rewrite D; split; [lia|]; intros k L T; apply H; auto; lia|].
    destruct He as [<-|He]; [cbn [fst snd] in *; subst degree; exfalso; cbn in Hd; lia|].
    destruct He as [<-|He]; [cbn [fst snd] in *; subst degree; exfalso; cbn in Hd; lia|].
    destruct He as [<-|He]; [cbn [fst snd] in *; subst degree; exfalso; cbn in Hd; lia|].
    destruct He as [<-|He]; [cbn [fst snd] in *; subst degree; exfalso; cbn in Hd; lia|].
    destruct He as [<-|He]; [cbn [fst snd] in *; subst degree; exfalso; cbn in Hd; lia|].
    destruct He as [<-|He]; [cbn [fst snd] in *; subst degree; exfalso; cbn in Hd; lia|].
    destruct He as [<-|He]; [cbn [fst snd] in *; subst degree; exfalso; cbn in Hd; lia|].
    destruct He as [<-|He]; [cbn [fst snd] in *; subst degree; exfalso; cbn in Hd; lia|].
    destruct He as [<-|He]; [cbn [fst snd] in *; subst degree; exfalso; cbn in Hd; lia|].
    destruct He as [<-|He]; [cbn [fst snd] in *; subst degree; exfalso; cbn in Hd; lia|].
    destruct He as [<-|He]; [cbn [fst snd] in *; subst degree; exfalso; cbn in Hd; lia|].
    destruct He as [<-|He]; [cbn [fst snd] in *; subst degree; exfalso; cbn in Hd; lia|].
    destruct He as [<-|He]; [cbn [fst snd] in *; subst degree; exfalso; cbn in Hd; lia|].
    destruct He as [<-|He]; [cbn [fst snd] in *; subst degree; exfalso; cbn in Hd; lia|].
    destruct He as [<-|He]; [cbn [fst snd] in *; subst degree; exfalso; cbn in Hd; lia|].
    destruct He as [<-|He]; [cbn [fst snd] in *; subst degree; exfalso; cbn in Hd; lia|].
    destruct He as [<-|He]; [cbn [fst snd] in *; subst degree; exfalso; cbn in Hd; lia|].
    destruct He as [<-|He]; [cbn [fst snd] in *; subst degree; exfalso; cbn in Hd; lia|].
    destruct He as [<-|He]; [cbn [fst snd] in *; subst degree; exfalso; cbn in Hd; lia|].
    destruct He as [<-|He]; [cbn [fst snd] in *; subst degree; exfalso; cbn in Hd; lia|].
    destruct He as [<-|He]; [cbn [fst snd] in *; subst degree; exfalso; cbn in Hd; lia|].
    destruct He as [<-|He]; [cbn [fst snd] in *; subst degree; exfalso; cbn in Hd; lia|].
    destruct He as [<-|He]; [cbn [fst snd] in *; subst degree; exfalso; cbn in Hd; lia|].
    destruct He as [<-|He]; [cbn [fst snd] in *; subst degree; exfalso; cbn in Hd; lia|].
    destruct He as [<-|He]; [cbn [fst snd] in *; subst degree; exfalso; cbn in Hd; lia|].
    destruct He as [<-|He]; [cbn [fst snd] in *; subst degree; exfalso; cbn in Hd; lia|].
    destruct He as [<-|He]; [cbn [fst snd] in *; subst degree; exfalso; cbn in Hd; lia|].
    destruct He as [<-|He]; [cbn [fst snd] in *; subst degree; exfalso; cbn in Hd; lia|].
    destruct He as [<-|He]; [cbn [fst snd] in *; subst degree; exfalso; cbn in Hd; lia|].
    destruct He as [<-|He]; [cbn [fst snd] in *; subst degree; exfalso; cbn in Hd; lia|].
    destruct He as [<-|He]; [cbn [fst snd] in *; subst degree; exfalso; cbn in Hd; lia|].
    destruct He as [<-|He]; [cbn [fst snd] in *; subst degree; exfalso; cbn in Hd; lia|].
    destruct He as [<-|He]; [cbn [fst snd] in *; subst degree; exfalso; cbn in Hd; lia|].
    destruct He as [<-|He]; [cbn [fst snd] in *; subst degree; exfalso; cbn in Hd; lia|].
    destruct He as [<-|He]; [cbn [fst snd] in *; subst degree; exfalso; cbn in Hd; lia|].
    destruct He as [<-|He]; [cbn [fst snd] in *; subst degree; exfalso; cbn in Hd; lia|].
    destruct He as [<-|He]; [cbn [fst snd] in *; subst degree; exfalso; cbn in Hd; lia|].
    destruct He as [<-|He]; [cbn [fst snd] in *; subst degree; exfalso; cbn in Hd; lia|].
    destruct He as [<-|He]; [cbn [fst snd] in *; subst degree; exfalso; cbn in Hd; lia|].
    destruct He as [<-|He]; [cbn [fst snd] in *; subst degree; exfalso; cbn in Hd; lia|].
    destruct He as [<-|He]; [cbn [fst snd] in *; subst degree; exfalso; cbn in Hd; lia|].
    destruct He as [<-|He]; [cbn [fst snd] in *; subst degree; exfalso; cbn in Hd; lia|].
    destruct He as [<-|He]; [cbn [fst snd] in *; subst degree; exfalso; cbn in Hd; lia|].
    destruct He as [<-|He]; [cbn [fst snd] in *; subst degree; exfalso; cbn in Hd; lia|].
    destruct He as [<-|He]; [cbn [fst snd] in *; subst degree; exfalso; cbn in Hd; lia|].
    destruct He.
Qed.
Print Assumptions C51_t2_exact.

(* ------------------------------------------------------------------ t3 *)
Theorem C51_t3_partial : forall files degree, files_declare read_t3 files t3_file_degrees -> 
  ((0 <= degree <= 14)%Z -> declares_enough degree (t3_get_good_scheme files degree)) /\ ((14 < degree)%Z -> t3_get_good_scheme files degree = NoScheme).
Proof.
  intros files degree HF. unfold t3_get_good_scheme, t3_schemes. split; [intros Hd|apply good_lazy_none].
  apply good_lazy_ok; [lia|apply (in_range t3_table 14 _ eq_refl); lia| |].
  - apply registered_all. reflexivity.
  - intros e He Ed. cbn in He.
    destruct He as [<-|He]; [cbn [fst snd] in *; subst degree; closed_entry t3_keast_0_ok; rewrite D; lia|].
    destruct He as [<-|He]; [cbn [fst snd] in *; subst degree; closed_entry t3_keast_0_ok; rewrite D; lia|].
    destruct He as [<-|He]; [cbn [fst snd] in *; subst degree; closed_entry t3_hammer_marlowe_stroud_1_ok; rewrite D; lia|].
    destruct He as [<-|He]; [cbn [fst snd] in *; subst degree; file_entry HF reads_t3|].
    destruct He as [<-|He]; [cbn [fst snd] in *; subst degree; closed_entry t3_liu_vinokur_12_ok; rewrite D; lia|].
    destruct He as [<-|He]; [cbn [fst snd] in *; subst degree; closed_entry t3_liu_vinokur_12_ok; rewrite D; lia|].
    destruct He as [<-|He]; [cbn [fst snd] in *; subst degree; file_entry HF reads_t3|].
    destruct He as [<-|He]; [cbn [fst snd] in *; subst degree; file_entry HF reads_t3|].
    destruct He as [<-|He]; [cbn [fst snd] in *; subst degree; file_entry HF reads_t3|].
    destruct He as [<-|He]; [cbn [fst snd] in *; subst degree; file_entry HF reads_t3|].
    destruct He as [<-|He]; [cbn [fst snd] in *; subst degree; file_entry HF reads_t3|].
    destruct He as [<-|He]; [cbn [fst snd] in *; subst degree; file_entry HF reads_t3|].
    destruct He as [<-|He]; [cbn [fst snd] in *; subst degree; file_entry HF reads_t3|].
    destruct He as [<-|He]; [cbn [fst snd] in *; subst degree; file_entry HF reads_t3|].
    destruct He as [<-|He]; [cbn [fst snd] in *; subst degree; file_entry HF reads_t3|].
    destruct He.
Qed.
Print Assumptions C51_t3_partial.
Theorem C51_t3_exact : forall files degree, In degree [0; 1; 2; 4; 5]%Z ->
  good_for (simplex_mean 3) 4 degree (t3_get_good_scheme files degree).
Proof.
  intros files degree Hd. unfold t3_get_good_scheme, t3_schemes.
  assert (Hb : (0 <= degree <= 14)%Z) by (cbn in Hd; lia).
  apply good_lazy_ok; [lia|apply (in_range t3_table 14 _ eq_refl); lia| |].
  - apply registered_all. reflexivity.
  - intros e He Ed. cbn in He.
    destruct He as [<-|He]; [cbn [fst snd] in *; subst degree; closed_entry t3_keast_0_ok; rewrite D; split; [lia|]; intros k L T; apply H; auto; lia|].
    destruct He as [<-|He]; [cbn [fst snd] in *; subst degree; closed_entry t3_keast_0_ok; rewrite D; split; [lia|]; intros k L T; apply H; auto; lia|].
    destruct He as [<-|He]; [cbn [fst snd] in *; subst degree; closed_entry t3_hammer_marlowe_stroud_1_ok; rewrite D; split; [lia|]; intros k L T; apply H; auto; lia|].
    destruct He as [<-|He]; [cbn [fst snd] in *; subst degree; exfalso; cbn in Hd; lia|].
    destruct He as [<-|He]; [cbn [fst snd] in *; subst degree; closed_entry t3_liu_vinokur_12_ok; rewrite D; split; [lia|]; intros k L T; apply H; auto; lia|].
    destruct He as [<-|He]; [cbn [fst snd] in *; subst degree; closed_entry t3_liu_vinokur_12_ok; rewrite D; split; [lia|]; intros k L T; apply H; auto; lia|].
    destruct He as [<-|He]; [cbn [fst snd] in *; subst degree; exfalso; cbn in Hd; lia|].
    destruct He as [<-|He]; [cbn [fst snd] in *; subst degree; exfalso; cbn in Hd; lia|].
    destruct He as [<-|He]; [cbn [fst snd] in *; subst degree; exfalso; cbn in Hd; lia|].
    destruct He as [<-|He]; [cbn [fst snd] in *; subst degree; exfalso; cbn in Hd; lia|].
    destruct He as [<-|He]; [cbn [fst snd] in *; subst degree; exfalso; cbn in Hd; lia|].
    destruct He as [<-|He]; [cbn [fst snd] in *; subst degree; exfalso; cbn in Hd; lia|].
    destruct He as [<-|He]; [cbn [fst snd] in *; subst degree; exfalso; cbn in Hd; lia|].
    destruct He as [<-|He]; [cbn [fst snd] in *; subst degree; exfalso; cbn in Hd; lia|].
    destruct He as [<-|He]; [cbn [fst snd] in *; subst degree; exfalso; cbn in Hd; lia|].
    destruct He.
Qed.
Print Assumptions C51_t3_exact.

(* ------------------------------------------------------------------ s2 *)
Theorem C51_s2_partial : forall files degree, files_declare read_s2 files s2_file_degrees -> 
  ((0 <= degree <= 19)%Z -> declares_enough degree (s2_get_good_scheme files degree)) /\ ((19 < degree)%Z -> s2_get_good_scheme files degree = NoScheme).
Proof.
  intros files degree HF. unfold s2_get_good_scheme, s2_schemes. split; [intros Hd|apply good_lazy_none].
  apply good_lazy_ok; [lia|apply (in_range s2_table 19 _ eq_refl); lia| |].
  - apply registered_all. reflexivity.
  - intros e He Ed. cbn in He.
    destruct He as [<-|He]; [cbn [fst snd] in *; subst degree; closed_entry s2_midpoint_ok; rewrite D; lia|].
    destruct He as [<-|He]; [cbn [fst snd] in *; subst degree; closed_entry s2_midpoint_ok; rewrite D; lia|].
    destruct He as [<-|He]; [cbn [fst snd] in *; subst degree; closed_entry s2_albrecht_collatz_ok; rewrite D; lia|].
    destruct He as [<-|He]; [cbn [fst snd] in *; subst degree; closed_entry s2_albrecht_collatz_ok; rewrite D; lia|].
    destruct He as [<-|He]; [cbn [fst snd] in *; subst degree; closed_entry s2_mysovskih_1_0_ok; rewrite D; lia|].
    destruct He as [<-|He]; [cbn [fst snd] in *; subst degree; closed_entry s2_radon_0_ok; rewrite D; lia|].
    destruct He as [<-|He]; [cbn [fst snd] in *; subst degree; file_entry HF reads_s2|].
    destruct He as [<-|He]; [cbn [fst snd] in *; subst degree; file_entry HF reads_s2|].
    destruct He as [<-|He]; [cbn [fst snd] in *; subst degree; file_entry HF reads_s2|].
    destruct He as [<-|He]; [cbn [fst snd] in *; subst degree; file_entry HF reads_s2|].
    destruct He as [<-|He]; [cbn [fst snd] in *; subst degree; closed_entry s2_mysovskih_2_ok; rewrite D; lia|].
    destruct He as [<-|He]; [cbn [fst snd] in *; subst degree; closed_entry s2_mysovskih_2_ok; rewrite D; lia|].
    destruct He as [<-|He]; [cbn [fst snd] in *; subst degree; file_entry HF reads_s2|].
    destruct He as [<-|He]; [cbn [fst snd] in *; subst degree; file_entry HF reads_s2|].
    destruct He as [<-|He]; [cbn [fst snd] in *; subst degree; file_entry HF reads_s2|].
    destruct He as [<-|He]; [cbn [fst snd] in *; subst degree; file_entry HF reads_s2|].
    destruct He as [<-|He]; [cbn [fst snd] in *; subst degree; file_entry HF reads_s2|].
    destruct He as [<-|He]; [cbn [fst snd] in *; subst degree; file_entry HF reads_s2|].
    destruct He as [<-|He]; [cbn [fst snd] in *; subst degree; file_entry HF reads_s2|].
    destruct He as [<-|He]; [cbn [fst snd] in *; subst degree; file_entry HF reads_s2|].
    destruct He.
Qed.
Print Assumptions C51_s2_partial.
Theorem C51_s2_exact : forall files degree, In degree [0; 1; 2; 3; 4; 5; 10; 11]%Z ->
  good_for (ball_mean 2) 2 degree (s2_get_good_scheme files degree).
Proof.
  intros files degree Hd. unfold s2_get_good_scheme, s2_schemes.
  assert (Hb : (0 <= degree <= 19)%Z) by (cbn in Hd; lia).
  apply good_lazy_ok; [lia|apply (in_range s2_table 19 _ eq_refl); lia| |].
  - apply registered_all. reflexivity.
  - intros e He Ed. cbn in He.
    destruct He as [<-|He]; [cbn [fst snd] in *; subst degree; closed_entry s2_midpoint_ok; rewrite D; split; [lia|]; intros k L T; apply H; auto; lia|].
    destruct He as [<-|He]; [cbn [fst snd] in *; subst degree; closed_entry s2_midpoint_ok; rewrite D; split; [lia|]; intros k L T; apply H; auto; lia|].
    destruct He as [<-|He]; [cbn [fst snd] in *; subst degree; closed_entry s2_albrecht_collatz_ok; rewrite D; split; [lia|]; intros k L T; apply H; auto; lia|].
    destruct He as [<-|He]; [cbn [fst snd] in *; subst degree; closed_entry s2_albrecht_collatz_ok; rewrite D; split; [lia|]; intros k L T; apply H; auto; lia|].
    destruct He as [<-|He]; [cbn [fst snd] in *; subst degree; closed_entry s2_mysovskih_1_0_ok; rewrite D; split; [lia|]; intros k L T; apply H; auto; lia|].
    destruct He as [<-|He]; [cbn [fst snd] in *; subst degree; closed_entry s2_radon_0_ok; rewrite D; split; [lia|]; intros k L T; apply H; auto; lia|].
    destruct He as [<-|He]; [cbn [fst snd] in *; subst degree; exfalso; cbn in Hd; lia|].
    destruct He as [<-|He]; [cbn [fst snd] in *; subst degree; exfalso; cbn in Hd; lia|].
    destruct He as [<-|He]; [cbn [fst snd] in *; subst degree; exfalso; cbn in Hd; lia|].
    destruct He as [<-|He]; [cbn [fst snd] in *; subst degree; exfalso; cbn in Hd; lia|].
    destruct He as [<-|He]; [cbn [fst snd] in *; subst degree; closed_entry s2_mysovskih_2_ok; rewrite D; split; [lia|]; intros k L T; apply H; auto; lia|].
    destruct He as [<-|He]; [cbn [fst snd] in *; subst degree; closed_entry s2_mysovskih_2_ok; rewrite D; split; [lia|]; intros k L T; apply H; auto; lia|].
    destruct He as [<-|He]; [cbn [fst snd] in *; subst degree; exfalso; cbn in Hd; lia|].
    destruct He as [<-|He]; [cbn [fst snd] in *; subst degree; exfalso; cbn in Hd; lia|].
    destruct He as [<-|He]; [cbn [fst snd] in *; subst degree; exfalso; cbn in Hd; lia|].
    destruct He as [<-|He]; [cbn [fst snd] in *; subst degree; exfalso; cbn in Hd; lia|].
    destruct He as [<-|He]; [cbn [fst snd] in *; subst degree; exfalso; cbn in Hd; lia|].
    destruct He as [<-|He]; [cbn [fst snd] in *; subst degree; exfalso; cbn in Hd; lia|].
    destruct He as [<-|He]; [cbn [fst snd] in *; subst degree; exfalso; cbn in Hd; lia|].
    destruct He as [<-|He]; [cbn [fst snd] in *; subst degree; exfalso; cbn in Hd; lia|].
    destruct He.
Qed.
Print Assumptions C51_s2_exact.

(* ------------------------------------------------------------------ s3 *)
Theorem C51_s3_partial : forall u3_14_1 degree, 
  ((0 <= degree <= 7)%Z -> declares_enough degree (s3_get_good_scheme u3_14_1 degree)) /\ ((7 < degree)%Z -> s3_get_good_scheme u3_14_1 degree = NoScheme).
Proof.
  intros u3_14_1 degree. unfold s3_get_good_scheme, s3_schemes. split; [intros Hd|apply good_lazy_none].
  apply good_lazy_ok; [lia|apply (in_range s3_table 7 _ eq_refl); lia| |].
  - apply registered_all. reflexivity.
  - intros e He Ed. cbn in He.
    destruct He as [<-|He]; [cbn [fst snd] in *; subst degree; closed_entry s3_midpoint_ok; rewrite D; lia|].
    destruct He as [<-|He]; [cbn [fst snd] in *; subst degree; closed_entry s3_midpoint_ok; rewrite D; lia|].
    destruct He as [<-|He]; [cbn [fst snd] in *; subst degree; closed_entry s3_hammer_stroud_11_3_ok; rewrite D; lia|].
    destruct He as [<-|He]; [cbn [fst snd] in *; subst degree; closed_entry s3_hammer_stroud_11_3_ok; rewrite D; lia|].
    destruct He as [<-|He]; [cbn [fst snd] in *; subst degree; closed_entry s3_hammer_stroud_12_3_ok; rewrite D; lia|].
    destruct He as [<-|He]; [cbn [fst snd] in *; subst degree; closed_entry s3_hammer_stroud_12_3_ok; rewrite D; lia|].
    destruct He as [<-|He]; [cbn [fst snd] in *; subst degree; closed_entry s3_mysovskih_ok; rewrite D; lia|].
    destruct He as [<-|He]; [cbn [fst snd] in *; subst degree; closed_entry s3_mysovskih_ok; rewrite D; lia|].
    destruct He as [<-|He]; [cbn [fst snd] in *; subst degree; exfalso; lia|].
    destruct He as [<-|He]; [cbn [fst snd] in *; subst degree; exfalso; lia|].
    destruct He as [<-|He]; [cbn [fst snd] in *; subst degree; exfalso; lia|].
    destruct He as [<-|He]; [cbn [fst snd] in *; subst degree; exfalso; lia|].
    destruct He as [<-|He]; [cbn [fst snd] in *; subst degree; exfalso; lia|].
    destruct He as [<-|He]; [cbn [fst snd] in *; subst degree; exfalso; lia|].
    destruct He as [<-|He]; [cbn [fst snd] in *; subst degree; exfalso; lia|].
    destruct He.
Qed.
Print Assumptions C51_s3_partial.
Theorem C51_s3_exact : forall u3_14_1 degree, (0 <= degree <= 7)%Z ->
  good_for (ball_mean 3) 3 degree (s3_get_good_scheme u3_14_1 degree).
Proof.
  intros u3_14_1 degree Hd. unfold s3_get_good_scheme, s3_schemes.
  assert (Hb := Hd).
  apply good_lazy_ok; [lia|apply (in_range s3_table 7 _ eq_refl); lia| |].
  - apply registered_all. reflexivity.
  - intros e He Ed. cbn in He.
    destruct He as [<-|He]; [cbn [fst snd] in *; subst degree; closed_entry s3_midpoint_ok; rewrite D; split; [lia|]; intros k L T; apply H; auto; lia|].
    destruct He as [<-|He]; [cbn [fst snd] in *; subst degree; closed_entry s3_midpoint_ok; rewrite D; split; [lia|]; intros k L T; apply H; auto; lia|].
    destruct He as [<-|He]; [cbn [fst snd] in *; subst degree; closed_entry s3_hammer_stroud_11_3_ok; rewrite D; split; [lia|]; intros k L T; apply H; auto; lia|].
    destruct He as [<-|He]; [cbn [fst snd] in *; subst degree; closed_entry s3_hammer_stroud_11_3_ok; rewrite D; split; [lia|]; intros k L T; apply H; auto; lia|].
    destruct He as [<-|He]; [cbn [fst snd] in *; subst degree; closed_entry s3_hammer_stroud_12_3_ok; rewrite D; split; [lia|]; intros k L T; apply H; auto; lia|].
    destruct He as [<-|He]; [cbn [fst snd] in *; subst degree; closed_entry s3_hammer_stroud_12_3_ok; rewrite D; split; [lia|]; intros k L T; apply H; auto; lia|].
    destruct He as [<-|He]; [cbn [fst snd] in *; subst degree; closed_entry s3_mysovskih_ok; rewrite D; split; [lia|]; intros k L T; apply H; auto; lia|].
    destruct He as [<-|He]; [cbn [fst snd] in *; subst degree; closed_entry s3_mysovskih_ok; rewrite D; split; [lia|]; intros k L T; apply H; auto; lia|].
    destruct He as [<-|He]; [cbn [fst snd] in *; subst degree; exfalso; cbn in Hd; lia|].
    destruct He as [<-|He]; [cbn [fst snd] in *; subst degree; exfalso; cbn in Hd; lia|].
    destruct He as [<-|He]; [cbn [fst snd] in *; subst degree; exfalso; cbn in Hd; lia|].
    destruct He as [<-|He]; [cbn [fst snd] in *; subst degree; exfalso; cbn in Hd; lia|].
    destruct He as [<-|He]; [cbn [fst snd] in *; subst degree; exfalso; cbn in Hd; lia|].
    destruct He as [<-|He]; [cbn [fst snd] in *; subst degree; exfalso; cbn in Hd; lia|].
    destruct He as [<-|He]; [cbn [fst snd] in *; subst degree; exfalso; cbn in Hd; lia|].
    destruct He.
Qed.
Print Assumptions C51_s3_exact.

(* ------------------------------------------------------------------ u3 *)
Theorem C51_u3_partial : forall files degree, files_declare read_u3 files u3_file_degrees -> 
  ((0 <= degree <= 47)%Z -> declares_enough degree (u3_get_good_scheme files degree)) /\ ((47 < degree)%Z -> u3_get_good_scheme files degree = NoScheme).
Proof.
  intros files degree HF. unfold u3_get_good_scheme, u3_schemes. split; [intros Hd|apply good_lazy_none].
  apply good_lazy_ok; [lia|apply (in_range u3_table 47 _ eq_refl); lia| |].
  - apply registered_all. reflexivity.
  - intros e He Ed. cbn in He.
    destruct He as [<-|He]; [cbn [fst snd] in *; subst degree; file_entry HF reads_u3|].
    destruct He as [<-|He]; [cbn [fst snd] in *; subst degree; file_entry HF reads_u3|].
    destruct He as [<-|He]; [cbn [fst snd] in *; subst degree; file_entry HF reads_u3|].
    destruct He as [<-|He]; [cbn [fst snd] in *; subst degree; file_entry HF reads_u3|].
    destruct He as [<-|He]; [cbn [fst snd] in *; subst degree; closed_entry u3_albrecht_collatz_1_ok; rewrite D; lia|].
    destruct He as [<-|He]; [cbn [fst snd] in *; subst degree; closed_entry u3_albrecht_collatz_1_ok; rewrite D; lia|].
    destruct He as [<-|He]; [cbn [fst snd] in *; subst degree; closed_entry u3_albrecht_collatz_5_ok; rewrite D; lia|].
    destruct He as [<-|He]; [cbn [fst snd] in *; subst degree; closed_entry u3_albrecht_collatz_5_ok; rewrite D; lia|].
    destruct He as [<-|He]; [cbn [fst snd] in *; subst degree; closed_entry u3_mclaren_05_ok; rewrite D; lia|].
    destruct He as [<-|He]; [cbn [fst snd] in *; subst degree; closed_entry u3_mclaren_05_ok; rewrite D; lia|].
    destruct He as [<-|He]; [cbn [fst snd] in *; subst degree; closed_entry u3_mclaren_08_ok; rewrite D; lia|].
    destruct He as [<-|He]; [cbn [fst snd] in *; subst degree; closed_entry u3_mclaren_08_ok; rewrite D; lia|].
    destruct He as [<-|He]; [cbn [fst snd] in *; subst degree; file_entry HF reads_u3|].
    destruct He as [<-|He]; [cbn [fst snd] in *; subst degree; file_entry HF reads_u3|].
    destruct He as [<-|He]; [cbn [fst snd] in *; subst degree; file_entry HF reads_u3|].
    destruct He as [<-|He]; [cbn [fst snd] in *; subst degree; file_entry HF reads_u3|].
    destruct He as [<-|He]; [cbn [fst snd] in *; subst degree; file_entry HF reads_u3|].
    destruct He as [<-|He]; [cbn [fst snd] in *; subst degree; file_entry HF reads_u3|].
    destruct He as [<-|He]; [cbn [fst snd] in *; subst degree; file_entry HF reads_u3|].
    destruct He as [<-|He]; [cbn [fst snd] in *; subst degree; file_entry HF reads_u3|].
    destruct He as [<-|He]; [cbn [fst snd] in *; subst degree; file_entry HF reads_u3|].
    destruct He as [<-|He]; [cbn [fst snd] in *; subst degree; file_entry HF reads_u3|].
    destruct He as [<-|He]; [cbn [fst snd] in *; subst degree; file_entry HF reads_u3|].
    destruct He as [<-|He]; [cbn [fst snd] in *; subst degree; file_entry HF reads_u3|].
    destruct He as [<-|He]; [cbn [fst snd] in *; subst degree; file_entry HF reads_u3|].
    destruct He as [<-|He]; [cbn [fst snd] in *; subst degree; file_entry HF reads_u3|].
    destruct He as [<-|He]; [cbn [fst snd] in *; subst degree; file_entry HF reads_u3|].
    destruct He as [<-|He]; [cbn [fst snd] in *; subst degree; file_entry HF reads_u3|].
    destruct He as [<-|He]; [cbn [fst snd] in *; subst degree; file_entry HF reads_u3|].
    destruct He as [<-|He]; [cbn [fst snd] in *; subst degree; file_entry HF reads_u3|].
    destruct He as [<-|He]; [cbn [fst snd] in *; subst degree; file_entry HF reads_u3|].
    destruct He as [<-|He]; [cbn [fst snd] in *; subst degree; file_entry HF reads_u3|].
    destruct He as [<-|He]; [cbn [fst snd] in *; subst degree; file_entry HF reads_u3|].
    destruct He as [<-|He]; [cbn [fst snd] in *; subst degree; file_entry HF reads_u3|].
    destruct He as [<-|He]; [cbn [fst snd] in *; subst degree; file_entry HF reads_u3|].
    destruct He as [<-|He]; [cbn [fst snd] in *; subst degree; file_entry HF reads_u3|].
    destruct He as [<-|He]; [cbn [fst snd] in *; subst degree; file_entry HF reads_u3|].
    destruct He as [<-|He]; [cbn [fst snd] in *; subst degree; file_entry HF reads_u3|].
    destruct He as [<-|He]; [cbn [fst snd] in *; subst degree; file_entry HF reads_u3|].
    destruct He as [<-|He]; [cbn [fst snd] in *; subst degree; file_entry HF reads_u3|].
    destruct He as [<-|He]; [cbn [fst snd] in *; subst degree; file_entry HF reads_u3|].
    destruct He as [<-|He]; [cbn [fst snd] in *; subst degree; file_entry HF reads_u3|].
    destruct He as [<-|He]; [cbn [fst snd] in *; subst degree; file_entry HF reads_u3|].
    destruct He as [<-|He]; [cbn [fst snd] in *; subst degree; file_entry HF reads_u3|].
    destruct He as [<-|He]; [cbn [fst snd] in *; subst degree; file_entry HF reads_u3|].
    destruct He as [<-|He]; [cbn [fst snd] in *; subst degree; file_entry HF reads_u3|].
    destruct He as [<-|He]; [cbn [fst snd] in *; subst degree; file_entry HF reads_u3|].
    destruct He as [<-|He]; [cbn [fst snd] in *; subst degree; file_entry HF reads_u3|].
    destruct He.
Qed.
Print Assumptions C51_u3_partial.
Theorem C51_u3_exact : forall files degree, In degree [4; 5; 6; 7; 8; 9; 10; 11]%Z ->
  good_for (sphere_mean 3) 3 degree (u3_get_good_scheme files degree).
Proof.
  intros files degree Hd. unfold u3_get_good_scheme, u3_schemes.
  assert (Hb : (0 <= degree <= 47)%Z) by (cbn in Hd; lia).
  apply good_lazy_ok; [lia|apply (in_range u3_table 47 _ eq_refl); lia| |].
  - apply registered_all. reflexivity.
  - intros e He Ed. cbn in He.
    destruct He as [<-|He]; [cbn [fst snd] in *; subst degree; exfalso; cbn in Hd; lia|].
    destruct He as [<-|He]; [cbn [fst snd] in *; subst degree; exfalso; cbn in Hd; lia|].
    destruct He as [<-|He]; [cbn [fst snd] in *; subst degree; exfalso; cbn in Hd; lia|].
    destruct He as [<-|He]; [cbn [fst snd] in *; subst degree; exfalso; cbn in Hd; lia|].
    destruct He as [<-|He]; [cbn [fst snd] in *; subst degree; closed_entry u3_albrecht_collatz_1_ok; rewrite D; split; [lia|]; intros k L T; apply H; auto; lia|].
    destruct He as [<-|He]; [cbn [fst snd] in *; subst degree; closed_entry u3_albrecht_collatz_1_ok; rewrite D; split; [lia|]; intros k L T; apply H; auto; lia|].
    destruct He as [<-|He]; [cbn [fst snd] in *; subst degree; closed_entry u3_albrecht_collatz_5_ok; rewrite D; split; [lia|]; intros k L T; apply H; auto; lia|].
    destruct He as [<-|He]; [cbn [fst snd] in *; subst degree; closed_entry u3_albrecht_collatz_5_ok; rewrite D; split; [lia|]; intros k L T; apply H; auto; lia|].
    destruct He as [<-|He]; [cbn [fst snd] in *; subst degree; closed_entry u3_mclaren_05_ok; rewrite D; split; [lia|]; intros k L T; apply H; auto; lia|].
    destruct He as [<-|He]; [cbn [fst snd] in *; subst degree; closed_entry u3_mclaren_05_ok; rewrite D; split; [lia|]; intros k L T; apply H; auto; lia|].
    destruct He as [<-|He]; [cbn [fst snd] in *; subst degree; closed_entry u3_mclaren_08_ok; rewrite D; split; [lia|]; intros k L T; apply H; auto; lia|].
    destruct He as [<-|He]; [cbn [fst snd] in *; subst degree; closed_entry u3_mclaren_08_ok; rewrite D; split; [lia|]; intros k L T; apply H; auto; lia|].
    destruct He as [<-|He]; [cbn [fst snd] in *; subst degree; exfalso; cbn in Hd; lia|].
    destruct He as [<-|He]; [cbn [fst snd] in *; subst degree; exfalso; cbn in Hd; lia|].
    destruct He as [<-|He]; [cbn [fst snd] in *; subst degree; exfalso; cbn in Hd; lia|].
    destruct He as [<-|He]; [cbn [fst snd] in *; subst degree; exfalso; cbn in Hd; lia|].
    destruct He as [<-|He]; [cbn [fst snd] in *; subst degree; exfalso; cbn in Hd; lia|].
    destruct He as [<-|He]; [cbn [fst snd] in *; subst degree; exfalso; cbn in Hd; lia|].
    destruct He as [<-|He]; [cbn [fst snd] in *; subst degree; exfalso; cbn in Hd; lia|].
    destruct He as [<-|He]; [cbn [fst snd] in *; subst degree; exfalso; cbn in Hd; lia|].
    destruct He as [<-|He]; [cbn [fst snd] in *; subst degree; exfalso; cbn in Hd; lia|].
    destruct He as [<-|He]; [cbn [fst snd] in *; subst degree; exfalso; cbn in Hd; lia|].
    destruct He as [<-|He]; [cbn [fst snd] in *; subst degree; exfalso; cbn in Hd; lia|].
    destruct He as [<-|He]; [cbn [fst snd] in *; subst degree; exfalso; cbn in Hd; lia|].
    destruct He as [<-|He]; [cbn [fst snd] in *; subst degree; exfalso; cbn in Hd; lia|].
    destruct He as [<-|He]; [cbn [fst snd] in *; subst degree; exfalso; cbn in Hd; lia|].
    destruct He as [<-|He]; [cbn [fst snd] in *; subst degree; exfalso; cbn in Hd; lia|].
    destruct He as [<-|He]; [cbn [fst snd] in *; subst degree; exfalso; cbn in Hd; lia|].
    destruct He as [<-|He]; [cbn [fst snd] in *; subst degree; exfalso; cbn in Hd; lia|].
    destruct He as [<-|He]; [cbn [fst snd] in *; subst degree; exfalso; cbn in Hd; lia|].
    destruct He as [<-|He]; [cbn [fst snd] in *; subst degree; exfalso; cbn in Hd; lia|].
    destruct He as [<-|He]; [cbn [fst snd] in *; subst degree; exfalso; cbn in Hd; lia|].
    destruct He as [<-|He]; [cbn [fst snd] in *; subst degree; exfalso; cbn in Hd; lia|].
    destruct He as [<-|He]; [cbn [fst snd] in *; subst degree; exfalso; cbn in Hd; lia|].
    destruct He as [<-|He]; [cbn [fst snd] in *; subst degree; exfalso; cbn in Hd; lia|].
    destruct He as [<-|He]; [cbn [fst snd] in *; subst degree; exfalso; cbn in Hd; lia|].
    destruct He as [<-|He]; [cbn [fst snd] in *; subst degree; exfalso; cbn in Hd; lia|].
    destruct He as [<-|He]; [cbn [fst snd] in *; subst degree; exfalso; cbn in Hd; lia|].
    destruct He as [<-|He]; [cbn [fst snd] in *; subst degree; exfalso; cbn in Hd; lia|].
    destruct He as [<-|He]; [cbn [fst snd] in *; subst degree; exfalso; cbn in Hd; lia|].
    destruct He as [<-|He]; [cbn [fst snd] in *; subst degree; exfalso; cbn in Hd; lia|].
    destruct He as [<-|He]; [cbn [fst snd] in *; subst degree; exfalso; cbn in Hd; lia|].
    destruct He as [<-|He]; [cbn [fst snd] in *; subst degree; exfalso; cbn in Hd; lia|].
    destruct He as [<-|He]; [cbn [fst snd] in *; subst degree; exfalso; cbn in Hd; lia|].
    destruct He as [<-|He]; [cbn [fst snd] in *; subst degree; exfalso; cbn in Hd; lia|].
    destruct He as [<-|He]; [cbn [fst snd] in *; subst degree; exfalso; cbn in Hd; lia|].
    destruct He as [<-|He]; [cbn [fst snd] in *; subst degree; exfalso; cbn in Hd; lia|].
    destruct He as [<-|He]; [cbn [fst snd] in *; subst degree; exfalso; cbn in Hd; lia|].
    destruct He.
Qed.
Print Assumptions C51_u3_exact.

(* ------------------------------------------------------------------ e2r *)
Theorem C51_e2r_partial : forall files degree, files_declare read_e2 files e2r_file_degrees -> 
  ((0 <= degree <= 15)%Z -> declares_enough degree (e2r_get_good_scheme files degree)) /\ ((15 < degree)%Z -> e2r_get_good_scheme files degree = NoScheme).
Proof.
  intros files degree HF. unfold e2r_get_good_scheme, e2r_schemes. split; [intros Hd|apply good_lazy_none].
  apply good_lazy_ok; [lia|apply (in_range e2r_table 15 _ eq_refl); lia| |].
  - apply registered_all. reflexivity.
  - intros e He Ed. cbn in He.
    destruct He as [<-|He]; [cbn [fst snd] in *; subst degree; closed_entry e2r_stroud_4_1_ok; rewrite D; lia|].
    destruct He as [<-|He]; [cbn [fst snd] in *; subst degree; closed_entry e2r_stroud_4_1_ok; rewrite D; lia|].
    destruct He as [<-|He]; [cbn [fst snd] in *; subst degree; closed_entry e2r_stroud_4_1_ok; rewrite D; lia|].
    destruct He as [<-|He]; [cbn [fst snd] in *; subst degree; closed_entry e2r_stroud_4_1_ok; rewrite D; lia|].
    destruct He as [<-|He]; [cbn [fst snd] in *; subst degree; closed_entry e2r_stroud_4_1_ok; rewrite D; lia|].
    destruct He as [<-|He]; [cbn [fst snd] in *; subst degree; closed_entry e2r_stroud_secrest_5_ok; rewrite D; lia|].
    destruct He as [<-|He]; [cbn [fst snd] in *; subst degree; closed_entry e2r_stroud_secrest_6_ok; rewrite D; lia|].
    destruct He as [<-|He]; [cbn [fst snd] in *; subst degree; closed_entry e2r_stroud_secrest_6_ok; rewrite D; lia|].
    destruct He as [<-|He]; [cbn [fst snd] in *; subst degree; file_entry HF reads_e2|].
    destruct He as [<-|He]; [cbn [fst snd] in *; subst degree; file_entry HF reads_e2|].
    destruct He as [<-|He]; [cbn [fst snd] in *; subst degree; file_entry HF reads_e2|].
    destruct He as [<-|He]; [cbn [fst snd] in *; subst degree; file_entry HF reads_e2|].
    destruct He as [<-|He]; [cbn [fst snd] in *; subst degree; file_entry HF reads_e2|].
    destruct He as [<-|He]; [cbn [fst snd] in *; subst degree; file_entry HF reads_e2|].
    destruct He as [<-|He]; [cbn [fst snd] in *; subst degree; file_entry HF reads_e2|].
    destruct He as [<-|He]; [cbn [fst snd] in *; subst degree; file_entry HF reads_e2|].
    destruct He.
Qed.
Print Assumptions C51_e2r_partial.
Theorem C51_e2r_exact : forall files degree, In degree [0; 1; 2; 3; 4; 5; 6; 7]%Z ->
  good_for (enr_mean 2) 2 degree (e2r_get_good_scheme files degree).
Proof.
  intros files degree Hd. unfold e2r_get_good_scheme, e2r_schemes.
  assert (Hb : (0 <= degree <= 15)%Z) by (cbn in Hd; lia).
  apply good_lazy_ok; [lia|apply (in_range e2r_table 15 _ eq_refl); lia| |].
  - apply registered_all. reflexivity.
  - intros e He Ed. cbn in He.
    destruct He as [<-|He]; [cbn [fst snd] in *; subst degree; closed_entry e2r_stroud_4_1_ok; rewrite D; split; [lia|]; intros k L T; apply H; auto; lia|].
    destruct He as [<-|He]; [cbn [fst snd] in *; subst degree; closed_entry e2r_stroud_4_1_ok; rewrite D; split; [lia|]; intros k L T; apply H; auto; lia|].
    destruct He as [<-|He]; [cbn [fst snd] in *; subst degree; closed_entry e2r_stroud_4_1_ok; rewrite D; split; [lia|]; intros k L T; apply H; auto; lia|].
    destruct He as [<-|He]; [cbn [fst snd] in *; subst degree; closed_entry e2r_stroud_4_1_ok; rewrite D; split; [lia|]; intros k L T; apply H; auto; lia|].
    destruct He as [<-|He]; [cbn [fst snd] in *; subst degree; closed_entry e2r_stroud_4_1_ok; rewrite D; split; [lia|]; intros k L T; apply H; auto; lia|].
    destruct He as [<-|He]; [cbn [fst snd] in *; subst degree; closed_entry e2r_stroud_secrest_5_ok; rewrite D; split; [lia|]; intros k L T; apply H; auto; lia|].
    destruct He as [<-|He]; [cbn [fst snd] in *; subst degree; closed_entry e2r_stroud_secrest_6_ok; rewrite D; split; [lia|]; intros k L T; apply H; auto; lia|].
    destruct He as [<-|He]; [cbn [fst snd] in *; subst degree; closed_entry e2r_stroud_secrest_6_ok; rewrite D; split; [lia|]; intros k L T; apply H; auto; lia|].
    destruct He as [<-|He]; [cbn [fst snd] in *; subst degree; exfalso; cbn in Hd; lia|].
    destruct He as [<-|He]; [cbn [fst snd] in *; subst degree; exfalso; cbn in Hd; lia|].
    destruct He as [<-|He]; [cbn [fst snd] in *; subst degree; exfalso; cbn in Hd; lia|].
    destruct He as [<-|He]; [cbn [fst snd] in *; subst degree; exfalso; cbn in Hd; lia|].
    destruct He as [<-|He]; [cbn [fst snd] in *; subst degree; exfalso; cbn in Hd; lia|].
    destruct He as [<-|He]; [cbn [fst snd] in *; subst degree; exfalso; cbn in Hd; lia|].
    destruct He as [<-|He]; [cbn [fst snd] in *; subst degree; exfalso; cbn in Hd; lia|].
    destruct He as [<-|He]; [cbn [fst snd] in *; subst degree; exfalso; cbn in Hd; lia|].
    destruct He.
Qed.
Print Assumptions C51_e2r_exact.

(* ------------------------------------------------------------------ e2r2 *)
Theorem C51_e2r2_partial : forall files degree, files_declare read_e2 files e2r2_file_degrees -> 
  ((0 <= degree <= 15)%Z -> declares_enough degree (e2r2_get_good_scheme files degree)) /\ ((15 < degree)%Z -> e2r2_get_good_scheme files degree = NoScheme).
Proof.
  intros files degree HF. unfold e2r2_get_good_scheme, e2r2_schemes. split; [intros Hd|apply good_lazy_none].
  apply good_lazy_ok; [lia|apply (in_range e2r2_table 15 _ eq_refl); lia| |].
  - apply registered_all. reflexivity.
  - intros e He Ed. cbn in He.
    destruct He as [<-|He]; [cbn [fst snd] in *; subst degree; closed_entry e2r2_stroud_4_1_ok; rewrite D; lia|].
    destruct He as [<-|He]; [cbn [fst snd] in *; subst degree; closed_entry e2r2_stroud_4_1_ok; rewrite D; lia|].
    destruct He as [<-|He]; [cbn [fst snd] in *; subst degree; closed_entry e2r2_stroud_4_1_ok; rewrite D; lia|].
    destruct He as [<-|He]; [cbn [fst snd] in *; subst degree; closed_entry e2r2_stroud_4_1_ok; rewrite D; lia|].
    destruct He as [<-|He]; [cbn [fst snd] in *; subst degree; closed_entry e2r2_stroud_4_1_ok; rewrite D; lia|].
    destruct He as [<-|He]; [cbn [fst snd] in *; subst degree; closed_entry e2r2_stroud_secrest_5_ok; rewrite D; lia|].
    destruct He as [<-|He]; [cbn [fst snd] in *; subst degree; closed_entry e2r2_stroud_secrest_6_ok; rewrite D; lia|].
    destruct He as [<-|He]; [cbn [fst snd] in *; subst degree; closed_entry e2r2_stroud_secrest_6_ok; rewrite D; lia|].
    destruct He as [<-|He]; [cbn [fst snd] in *; subst degree; file_entry HF reads_e2|].
    destruct He as [<-|He]; [cbn [fst snd] in *; subst degree; file_entry HF reads_e2|].
    destruct He as [<-|He]; [cbn [fst snd] in *; subst degree; file_entry HF reads_e2|].
    destruct He as [<-|He]; [cbn [fst snd] in *; subst degree; file_entry HF reads_e2|].
    destruct He as [<-|He]; [cbn [fst snd] in *; subst degree; file_entry HF reads_e2|].
    destruct He as [<-|He]; [cbn [fst snd] in *; subst degree; file_entry HF reads_e2|].
    destruct He as [<-|He]; [cbn [fst snd] in *; subst degree; file_entry HF reads_e2|].
    destruct He as [<-|He]; [cbn [fst snd] in *; subst degree; file_entry HF reads_e2|].
    destruct He.
Qed.
Print Assumptions C51_e2r2_partial.
Theorem C51_e2r2_exact : forall files degree, In degree [0; 1; 2; 3; 4; 5; 6; 7]%Z ->
  good_for (enr2_mean 2) 2 degree (e2r2_get_good_scheme files degree).
Proof.
  intros files degree Hd. unfold e2r2_get_good_scheme, e2r2_schemes.
  assert (Hb : (0 <= degree <= 15)%Z) by (cbn in Hd; lia).
  apply good_lazy_ok; [lia|apply (in_range e2r2_table 15 _ eq_refl); lia| |].
  - apply registered_all. reflexivity.
  - intros e He Ed. cbn in He.
    destruct He as [<-|He]; [cbn [fst snd] in *; subst degree; closed_entry e2r2_stroud_4_1_ok; rewrite D; split; [lia|]; intros k L T; apply H; auto; lia|].
    destruct He as [<-|He]; [cbn [fst snd] in *; subst degree; closed_entry e2r2_stroud_4_1_ok; rewrite D; split; [lia|]; intros k L T; apply H; auto; lia|].
    destruct He as [<-|He]; [cbn [fst snd] in *; subst degree; closed_entry e2r2_stroud_4_1_ok; rewrite D; split; [lia|]; intros k L T; apply H; auto; lia|].
    destruct He as [<-|He]; [cbn [fst snd] in *; subst degree; closed_entry e2r2_stroud_4_1_ok; rewrite D; split; [lia|]; intros k L T; apply H; auto; lia|].
    destruct He as [<-|He]; [cbn [fst snd] in *; subst degree; closed_entry e2r2_stroud_4_1_ok; rewrite D; split; [lia|]; intros k L T; apply H; auto; lia|].
    destruct He as [<-|He]; [cbn [fst snd] in *; subst degree; closed_entry e2r2_stroud_secrest_5_ok; rewrite D; split; [lia|]; intros k L T; apply H; auto; lia|].
    destruct He as [<-|He]; [cbn [fst snd] in *; subst degree; closed_entry e2r2_stroud_secrest_6_ok; rewrite D; split; [lia|]; intros k L T; apply H; auto; lia|].
    destruct He as [<-|He]; [cbn [fst snd] in *; subst degree; closed_entry e2r2_stroud_secrest_6_ok; rewrite D; split; [lia|]; intros k L T; apply H; auto; lia|].
    destruct He as [<-|He]; [cbn [fst snd] in *; subst degree; exfalso; cbn in Hd; lia|].
    destruct He as [<-|He]; [cbn [fst snd] in *; subst degree; exfalso; cbn in Hd; lia|].
    destruct He as [<-|He]; [cbn [fst snd] in *; subst degree; exfalso; cbn in Hd; lia|].
    destruct He as [<-|He]; [cbn [fst snd] in *; subst degree; exfalso; cbn in Hd; lia|].
    destruct He as [<-|He]; [cbn [fst snd] in *; subst degree; exfalso; cbn in Hd; lia|].
    destruct He as [<-|He]; [cbn [fst snd] in *; subst degree; exfalso; cbn in Hd; lia|].
    destruct He as [<-|He]; [cbn [fst snd] in *; subst degree; exfalso; cbn in Hd; lia|].
    destruct He as [<-|He]; [cbn [fst snd] in *; subst degree; exfalso; cbn in Hd; lia|].
    destruct He.
Qed.
Print Assumptions C51_e2r2_exact.

(* ------------------------------------------------------------------ e3r *)
Theorem C51_e3r_partial : forall degree, 
  ((0 <= degree <= 7)%Z -> declares_enough degree (e3r_get_good_scheme degree)) /\ ((7 < degree)%Z -> e3r_get_good_scheme degree = NoScheme).
Proof.
  intros  degree. unfold e3r_get_good_scheme, e3r_schemes. split; [intros Hd|apply good_lazy_none].
  apply good_lazy_ok; [lia|apply (in_range e3r_table 7 _ eq_refl); lia| |].
  - apply registered_all. reflexivity.
  - intros e He Ed. cbn in He.
    destruct He as [<-|He]; [cbn [fst snd] in *; subst degree; closed_entry e3r_stroud_secrest_08_ok; rewrite D; lia|].
    destruct He as [<-|He]; [cbn [fst snd] in *; subst degree; closed_entry e3r_stroud_secrest_08_ok; rewrite D; lia|].
    destruct He as [<-|He]; [cbn [fst snd] in *; subst degree; closed_entry e3r_stroud_secrest_08_ok; rewrite D; lia|].
    destruct He as [<-|He]; [cbn [fst snd] in *; subst degree; closed_entry e3r_stroud_secrest_08_ok; rewrite D; lia|].
    destruct He as [<-|He]; [cbn [fst snd] in *; subst degree; closed_entry e3r_stroud_secrest_08_ok; rewrite D; lia|].
    destruct He as [<-|He]; [cbn [fst snd] in *; subst degree; closed_entry e3r_stroud_secrest_08_ok; rewrite D; lia|].
    destruct He as [<-|He]; [cbn [fst snd] in *; subst degree; closed_entry e3r_stroud_secrest_10_ok; rewrite D; lia|].
    destruct He as [<-|He]; [cbn [fst snd] in *; subst degree; closed_entry e3r_stroud_secrest_10_ok; rewrite D; lia|].
    destruct He.
Qed.
Print Assumptions C51_e3r_partial.
Theorem C51_e3r_exact : forall degree, (0 <= degree <= 7)%Z ->
  good_for (enr_mean 3) 3 degree (e3r_get_good_scheme degree).
Proof.
  intros  degree Hd. unfold e3r_get_good_scheme, e3r_schemes.
  assert (Hb := Hd).
  apply good_lazy_ok; [lia|apply (in_range e3r_table 7 _ eq_refl); lia| |].
  - apply registered_all. reflexivity.
  - intros e He Ed. cbn in He.
    destruct He as [<-|He]; [cbn [fst snd] in *; subst degree; closed_entry e3r_stroud_secrest_08_ok; rewrite D; split; [lia|]; intros k L T; apply H; auto; lia|].
    destruct He as [<-|He]; [cbn [fst snd] in *; subst degree; closed_entry e3r_stroud_secrest_08_ok; rewrite D; split; [lia|]; intros k L T; apply H; auto; lia|].
    destruct He as [<-|He]; [cbn [fst snd] in *; subst degree; closed_entry e3r_stroud_secrest_08_ok; rewrite D; split; [lia|]; intros k L T; apply H; auto; lia|].
    destruct He as [<-|He]; [cbn [fst snd] in *; subst degree; closed_entry e3r_stroud_secrest_08_ok; rewrite D; split; [lia|]; intros k L T; apply H; auto; lia|].
    destruct He as [<-|He]; [cbn [fst snd] in *; subst degree; closed_entry e3r_stroud_secrest_08_ok; rewrite D; split; [lia|]; intros k L T; apply H; auto; lia|].
    destruct He as [<-|He]; [cbn [fst snd] in *; subst degree; closed_entry e3r_stroud_secrest_08_ok; rewrite D; split; [lia|]; intros k L T; apply H; auto; lia|].
    destruct He as [<-|He]; [cbn [fst snd] in *; subst degree; closed_entry e3r_stroud_secrest_10_ok; rewrite D; split; [lia|]; intros k L T; apply H; auto; lia|].
    destruct He as [<-|He]; [cbn [fst snd] in *; subst degree; closed_entry e3r_stroud_secrest_10_ok; rewrite D; split; [lia|]; intros k L T; apply H; auto; lia|].
    destruct He.
Qed.
Print Assumptions C51_e3r_exact.

(* ------------------------------------------------------------------ e3r2 *)
Theorem C51_e3r2_partial : forall degree, 
  ((0 <= degree <= 7)%Z -> declares_enough degree (e3r2_get_good_scheme degree)) /\ ((7 < degree)%Z -> e3r2_get_good_scheme degree = NoScheme).
Proof.
  intros  degree. unfold e3r2_get_good_scheme, e3r2_schemes. split; [intros Hd|apply good_eager_none].
  apply good_eager_ok; [lia|apply (in_range e3r2_table 7 _ eq_refl); lia| |].
  - intros e He. cbn in He. 
    destruct He as [<-|He]; [destruct e3r2_stroud_secrest_08a_ok as [s [E _]]; exists s; apply registered_closed; rewrite <- E; reflexivity|].
    destruct He as [<-|He]; [destruct e3r2_stroud_secrest_08a_ok as [s [E _]]; exists s; apply registered_closed; rewrite <- E; reflexivity|].
    destruct He as [<-|He]; [destruct e3r2_stroud_secrest_08a_ok as [s [E _]]; exists s; apply registered_closed; rewrite <- E; reflexivity|].
    destruct He as [<-|He]; [destruct e3r2_stroud_secrest_08a_ok as [s [E _]]; exists s; apply registered_closed; rewrite <- E; reflexivity|].
    destruct He as [<-|He]; [destruct e3r2_stroud_secrest_08a_ok as [s [E _]]; exists s; apply registered_closed; rewrite <- E; reflexivity|].
    destruct He as [<-|He]; [destruct e3r2_stroud_secrest_08a_ok as [s [E _]]; exists s; apply registered_closed; rewrite <- E; reflexivity|].
    destruct He as [<-|He]; [destruct e3r2_stroud_secrest_10b_ok as [s [E _]]; exists s; apply registered_closed; rewrite <- E; reflexivity|].
    destruct He as [<-|He]; [destruct e3r2_stroud_secrest_10b_ok as [s [E _]]; exists s; apply registered_closed; rewrite <- E; reflexivity|].
    destruct He.
  - intros e He Ed. cbn in He.
    destruct He as [<-|He]; [cbn [fst snd] in *; subst degree; closed_entry e3r2_stroud_secrest_08a_ok; rewrite D; lia|].
    destruct He as [<-|He]; [cbn [fst snd] in *; subst degree; closed_entry e3r2_stroud_secrest_08a_ok; rewrite D; lia|].
    destruct He as [<-|He]; [cbn [fst snd] in *; subst degree; closed_entry e3r2_stroud_secrest_08a_ok; rewrite D; lia|].
    destruct He as [<-|He]; [cbn [fst snd] in *; subst degree; closed_entry e3r2_stroud_secrest_08a_ok; rewrite D; lia|].
    destruct He as [<-|He]; [cbn [fst snd] in *; subst degree; closed_entry e3r2_stroud_secrest_08a_ok; rewrite D; lia|].
    destruct He as [<-|He]; [cbn [fst snd] in *; subst degree; closed_entry e3r2_stroud_secrest_08a_ok; rewrite D; lia|].
    destruct He as [<-|He]; [cbn [fst snd] in *; subst degree; closed_entry e3r2_stroud_secrest_10b_ok; rewrite D; lia|].
    destruct He as [<-|He]; [cbn [fst snd] in *; subst degree; closed_entry e3r2_stroud_secrest_10b_ok; rewrite D; lia|].
    destruct He.
Qed.
Print Assumptions C51_e3r2_partial.
Theorem C51_e3r2_exact : forall degree, (0 <= degree <= 7)%Z ->
  good_for (enr2_mean 3) 3 degree (e3r2_get_good_scheme degree).
Proof.
  intros  degree Hd. unfold e3r2_get_good_scheme, e3r2_schemes.
  assert (Hb := Hd).
  apply good_eager_ok; [lia|apply (in_range e3r2_table 7 _ eq_refl); lia| |].
  - intros e He. cbn in He.
    destruct He as [<-|He]; [destruct e3r2_stroud_secrest_08a_ok as [s [E _]]; exists s; apply registered_closed; rewrite <- E; reflexivity|].
    destruct He as [<-|He]; [destruct e3r2_stroud_secrest_08a_ok as [s [E _]]; exists s; apply registered_closed; rewrite <- E; reflexivity|].
    destruct He as [<-|He]; [destruct e3r2_stroud_secrest_08a_ok as [s [E _]]; exists s; apply registered_closed; rewrite <- E; reflexivity|].
    destruct He as [<-|He]; [destruct e3r2_stroud_secrest_08a_ok as [s [E _]]; exists s; apply registered_closed; rewrite <- E; reflexivity|].
    destruct He as [<-|He]; [destruct e3r2_stroud_secrest_08a_ok as [s [E _]]; exists s; apply registered_closed; rewrite <- E; reflexivity|].
    destruct He as [<-|He]; [destruct e3r2_stroud_secrest_08a_ok as [s [E _]]; exists s; apply registered_closed; rewrite <- E; reflexivity|].
    destruct He as [<-|He]; [destruct e3r2_stroud_secrest_10b_ok as [s [E _]]; exists s; apply registered_closed; rewrite <- E; reflexivity|].
    destruct He as [<-|He]; [destruct e3r2_stroud_secrest_10b_ok as [s [E _]]; exists s; apply registered_closed; rewrite <- E; reflexivity|].
    destruct He.
  - intros e He Ed. cbn in He.
    destruct He as [<-|He]; [cbn [fst snd] in *; subst degree; closed_entry e3r2_stroud_secrest_08a_ok; rewrite D; split; [lia|]; intros k L T; apply H; auto; lia|].
    destruct He as [<-|He]; [cbn [fst snd] in *; subst degree; closed_entry e3r2_stroud_secrest_08a_ok; rewrite D; split; [lia|]; intros k L T; apply H; auto; lia|].
    destruct He as [<-|He]; [cbn [fst snd] in *; subst degree; closed_entry e3r2_stroud_secrest_08a_ok; rewrite D; split; [lia|]; intros k L T; apply H; auto; lia|].
    destruct He as [<-|He]; [cbn [fst snd] in *; subst degree; closed_entry e3r2_stroud_secrest_08a_ok; rewrite D; split; [lia|]; intros k L T; apply H; auto; lia|].
    destruct He as [<-|He]; [cbn [fst snd] in *; subst degree; closed_entry e3r2_stroud_secrest_08a_ok; rewrite D; split; [lia|]; intros k L T; apply H; auto; lia|].
    destruct He as [<-|He]; [cbn [fst snd] in *; subst degree; closed_entry e3r2_stroud_secrest_08a_ok; rewrite D; split; [lia|]; intros k L T; apply H; auto; lia|].
    destruct He as [<-|He]; [cbn [fst snd] in *; subst degree; closed_entry e3r2_stroud_secrest_10b_ok; rewrite D; split; [lia|]; intros k L T; apply H; auto; lia|].
    destruct He as [<-|He]; [cbn [fst snd] in *; subst degree; closed_entry e3r2_stroud_secrest_10b_ok; rewrite D; split; [lia|]; intros k L T; apply H; auto; lia|].
    destruct He.
Qed.
Print Assumptions C51_e3r2_exact.

(* ------------------------------------------------------------------ what is false *)
(** "Never raises" fails: negative degrees raise in every module, and c2.get_good_scheme(22) raises. *)
Theorem C51_negative_refuted : forall files roots u3_14_1 degree, (degree < 0)%Z ->
  List.Forall (fun f => f degree = Error)
    [c2_get_good_scheme files; c3_get_good_scheme; t2_get_good_scheme roots files; t3_get_good_scheme files; s2_get_good_scheme files;
     s3_get_good_scheme u3_14_1; u3_get_good_scheme files; e2r_get_good_scheme files; e2r2_get_good_scheme files;
     e3r_get_good_scheme; e3r2_get_good_scheme].
Proof.
  intros files roots u3_14_1 degree H.
  repeat (apply List.Forall_cons; [first [apply good_lazy_absent|apply good_eager_absent]; [lia|];
    let e := fresh in let He := fresh in intros e He; cbn in He; repeat (destruct He as [<-|He]; [cbn [fst]; lia|]); destruct He|]).
  apply List.Forall_nil.
Qed.
Print Assumptions C51_negative_refuted.
Theorem C51_c2_refuted : forall files, c2_get_good_scheme files 22 = Error /\ ~ good_or_none (c2_get_good_scheme files).
Proof.
  intros files. assert (E : c2_get_good_scheme files 22 = Error).
  { apply good_lazy_absent; [lia|]. intros e He. cbn in He. repeat (destruct He as [<-|He]; [cbn [fst]; lia|]). destruct He. }
  split; auto. intros H. destruct (H 22%Z) as [X|[s [X _]]]; rewrite E in X; discriminate.
Qed.
Print Assumptions C51_c2_refuted.
(** s3.get_good_scheme gives up at degree 8 although its table goes up to degree 14. *)
Theorem C51_s3_unreachable : forall u3_14_1 degree, (8 <= degree <= 14)%Z ->
  s3_get_good_scheme u3_14_1 degree = NoScheme /\ In (degree, "stroud_14_1") s3_table.
Proof.
  intros u3_14_1 degree H. split; [apply good_lazy_none; lia|].
  assert (C : (degree = 8 \/ degree = 9 \/ degree = 10 \/ degree = 11 \/ degree = 12 \/ degree = 13 \/ degree = 14)%Z) by lia.
  cbn. decompose [or] C; subst; tauto.
Qed.
Print Assumptions C51_s3_unreachable.
(** u2.get_good_scheme(n) declares degree n - 1 only. *)
Theorem C51_u2_refuted : forall n, (1 <= n)%nat -> exists s, u2_get_good_scheme n = Some s /\ (u2_degree s < Z.of_nat n)%Z.
Proof. intros n H. unfold u2_get_good_scheme. rewrite krylov_run by auto. eexists. split; [reflexivity|]. cbn. lia. Qed.
Print Assumptions C51_u2_refuted.
(** The hypotheses about the data files can be met, e.g. by files which all declare degree 50. *)
Example C51_ex : exists files roots, files_declare read_t2 files t2_file_degrees /\ root_finder roots /\
  declares_enough 31 (t2_get_good_scheme roots files 31) /\ good_for (simplex_mean 2) 3 3 (t2_get_good_scheme roots files 3).
Proof.
  destruct root_finder_exists as [roots Hr]. set (files := fun _ : string => mk_content 50 None [("centroid", ([1], []))]).
  assert (F : files_declare read_t2 files t2_file_degrees).
  { intros name d Hd. split; [|eexists; reflexivity]. assert (A : forallb (fun e => (snd e <=? 50)%nat) t2_file_degrees = true) by reflexivity.
    rewrite forallb_forall in A. apply (A _) in Hd. apply Nat.leb_le in Hd. exact Hd. }
  exists files, roots. split; auto. split; auto. split.
  - apply (C51_t2_partial roots files 31 Hr F). lia.
  - apply (C51_t2_exact roots files 3 Hr). cbn. tauto.
Qed.

(* ------------------------------------------------------------------ C68 *)
(** Reading a data file gives the scheme that the constructor builds from its data, with the degree stated in the file and
    with every weight multiplied by the file's weight factor (1 if there is none), whether the factor is applied before or
    after the symmetries are expanded. *)
Theorem C68_read : forall c s,
  (read_c2 c = Some s -> exists s0, c2_scheme (c_data c) (c_degree c) = Some s0 /\ s_degree s = c_degree c /\
     map snd (s_rule s) = map snd (s_rule s0) /\ forall f, apply (s_rule s) f = factor c * apply (s_rule s0) f) /\
  (read_t2 c = Some s -> exists s0, t2_scheme (c_data c) (c_degree c) = Some s0 /\ s_degree s = c_degree c /\
     map snd (s_rule s) = map snd (s_rule s0) /\ forall f, apply (s_rule s) f = factor c * apply (s_rule s0) f) /\
  (read_s2 c = Some s -> exists s0, s2_scheme (c_data c) (c_degree c) = Some s0 /\ s_degree s = c_degree c /\
     map snd (s_rule s) = map snd (s_rule s0) /\ forall f, apply (s_rule s) f = factor c * apply (s_rule s0) f) /\
  (read_t3 c = Some s -> exists s0, t3_scheme (c_data c) (c_degree c) = Some s0 /\ s_degree s = c_degree c /\
     map snd (s_rule s) = map snd (s_rule s0) /\ forall f, apply (s_rule s) f = factor c * apply (s_rule s0) f) /\
  (read_u3 c = Some s -> exists s0, u3_scheme (c_data c) (c_degree c) = Some s0 /\ s_degree s = c_degree c /\
     map snd (s_rule s) = map snd (s_rule s0) /\ forall f, apply (s_rule s) f = factor c * apply (s_rule s0) f) /\
  (read_e2 c = Some s -> exists s0, e2_scheme (c_data c) (c_degree c) = Some s0 /\ s_degree s = c_degree c /\
     map snd (s_rule s) = map snd (s_rule s0) /\ forall f, apply (s_rule s) f = factor c * apply (s_rule s0) f).
Proof.
  intros c s. split; [apply reads_c2|]. split; [apply reads_t2|]. split; [apply reads_s2|]. split; [apply reads_t3|]. split; [apply reads_u3|apply reads_e2].
Qed.
Print Assumptions C68_read.
(** Reading fails only when building the scheme from the data fails. *)
Theorem C68_read_total : forall c, 
  (read_c2 c = None <-> c2_scheme (c_data c) (c_degree c) = None) /\ (read_t2 c = None <-> t2_scheme (c_data c) (c_degree c) = None) /\
  (read_s2 c = None <-> s2_scheme (c_data c) (c_degree c) = None) /\ (read_t3 c = None <-> t3_scheme (c_data c) (c_degree c) = None) /\
  (read_u3 c = None <-> u3_scheme (c_data c) (c_degree c) = None) /\ (read_e2 c = None <-> e2_scheme (c_data c) (c_degree c) = None).
Proof.
  assert (G : forall (a : option scheme) w, (let! s := a in Some (scale_scheme w s)) = None <-> a = None).
  { intros [a|] w; cbn; split; congruence. }
  intros c. rewrite read_c2_scaled, read_u3_scaled. unfold read_t2, read_s2, read_t3, read_e2. repeat split; apply G.
Qed.
Print Assumptions C68_read_total.
Example C68_ex : exists s, read_c2 (mk_content 3 (Some (1/4)) [("d4_aa", ([1; 2], [[1/2; 1/3]]))]) = Some s /\
  apply (s_rule s) (fun _ => 1) = 3.
Proof. eexists. split; [reflexivity|]. cbn. lra. Qed.
