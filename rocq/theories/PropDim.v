(** C87, continued: the schemes for the pyramid and the wedge, which are built from lists of orbits. *)
From Coq Require Import Reals List Arith Lia Lra Permutation Bool.
From Verif Require Import Spec OrbitSpec RsumLemmas CombModel PyBase SchemeTools FelippaModel DecModel RestModel PropSymmetric.
Import ListNotations.
Set Bullet Behavior "Strict Subproofs".
Local Notation length := List.length.
Open Scope R_scope.

Lemma mk3_fixes g data degree : List.Forall (fun wO => Permutation (map g (snd wO)) (snd wO)) data -> fixes g (s_rule (mk3 data degree)).
Proof.
  intros H. unfold fixes, mk3. cbn [s_rule]. rewrite mk_rule_untangle. induction H as [|[w O] data H HF IH]; cbn [flat_map]; [constructor|].
  rewrite map_app. apply Permutation_app; auto. rewrite map_map. cbn [fst snd] in *. rewrite <- (map_map g (fun p => (w, p))). apply Permutation_map, H.
Qed.
Definition three (q : rule) : Prop := List.Forall (fun wp => length (snd wp) = 3%nat) q.
Lemma mk3_three data degree : List.Forall (fun wO => List.Forall (fun p => length p = 3%nat) (snd wO)) data -> three (s_rule (mk3 data degree)).
Proof.
  intros H. unfold three, mk3. cbn [s_rule]. rewrite mk_rule_untangle. induction H as [|[w O] data H HF IH]; cbn [flat_map]; [constructor|].
  apply List.Forall_app. split; auto. apply List.Forall_forall. intros wp Hwp. apply in_map_iff in Hwp. destruct Hwp as (p & <- & Hp). cbn [fst snd] in *. rewrite List.Forall_forall in H. auto.
Qed.
Lemma kym_three data degree s : kym data degree = Some s -> s_dim s = 3%nat /\ three (s_rule s).
Proof.
  unfold kym. destruct (untangle data) as [points weights]. intros H. injection H as <-. cbn [s_dim s_rule]. split; auto. unfold three, mk_rule. cbn [fst snd]. apply List.Forall_forall. intros [w p] Hwp. apply in_combine_r in Hwp. cbn [snd].
  apply in_map_iff in Hwp. destruct Hwp as (p' & <- & _). reflexivity.
Qed.
(** the mirror images of (x, y, z) *)
Definition mirror_x (p : point) : point := [- nth 0 p 0; nth 1 p 0; nth 2 p 0].
Definition mirror_z (p : point) : point := [nth 0 p 0; nth 1 p 0; - nth 2 p 0].
Definition swap_xy (p : point) : point := [nth 1 p 0; nth 0 p 0; nth 2 p 0].
Lemma s4_three a z : List.Forall (fun p => length p = 3%nat) (s4 a z). Proof. repeat constructor. Qed.
Lemma s40_three a z : List.Forall (fun p => length p = 3%nat) (s4_0 a z). Proof. repeat constructor. Qed.
Lemma one_three (x y z : R) : List.Forall (fun p => length p = 3%nat) [[x; y; z]]. Proof. repeat constructor. Qed.
Lemma s4_x a z : Permutation (map mirror_x (s4 a z)) (s4 a z).
Proof. unfold s4, mirror_x. cbn. rewrite !Ropp_involutive. eapply perm_trans; [apply perm_swap|]. apply perm_skip, perm_skip, perm_swap. Qed.
Lemma s4_xy a z : Permutation (map swap_xy (s4 a z)) (s4 a z).
Proof. unfold s4, swap_xy. cbn. apply perm_skip, perm_swap. Qed.
Lemma s40_x a z : Permutation (map mirror_x (s4_0 a z)) (s4_0 a z).
Proof. unfold s4_0, mirror_x. cbn. rewrite !Ropp_involutive, !Ropp_0. apply perm_swap. Qed.
Lemma s40_xy a z : Permutation (map swap_xy (s4_0 a z)) (s4_0 a z).
Proof. unfold s4_0, swap_xy. cbn. apply (Permutation_app_comm [[0; a; z]; [0; - a; z]] [[a; 0; z]; [- a; 0; z]]). Qed.
Lemma axis_x z : Permutation (map mirror_x [[0; 0; z]]) [[0; 0; z]].
Proof. unfold mirror_x. cbn. rewrite Ropp_0. apply Permutation_refl. Qed.
Lemma axis_xy z : Permutation (map swap_xy [[0; 0; z]]) [[0; 0; z]]. Proof. apply Permutation_refl. Qed.
Ltac all_data := repeat (apply List.Forall_cons; [cbn [snd]; first [apply s4_three|apply s40_three|apply one_three|apply s4_x|apply s4_xy|apply s40_x|apply s40_xy|apply axis_x|apply axis_xy]|]); apply List.Forall_nil.
(** The symmetries of the base of the pyramid, the square with the corners (+-1, +-1), are generated by x -> -x and the exchange of x and y. *)
Definition pyramid_scheme (s : scheme) : Prop := s_dim s = 3%nat /\ three (s_rule s) /\ fixes mirror_x (s_rule s) /\ fixes swap_xy (s_rule s).
Lemma mk3_pyramid data degree : List.Forall (fun wO => List.Forall (fun p => length p = 3%nat) (snd wO)) data ->
  List.Forall (fun wO => Permutation (map mirror_x (snd wO)) (snd wO)) data -> List.Forall (fun wO => Permutation (map swap_xy (snd wO)) (snd wO)) data -> pyramid_scheme (mk3 data degree).
Proof. intros A B C. split; [reflexivity|]. split; [apply mk3_three; auto|]. split; apply mk3_fixes; auto. Qed.
Theorem C87_pyramid :
  (forall r s, In r [p3_felippa_1; p3_felippa_2; p3_felippa_3; p3_felippa_4; p3_felippa_5; p3_felippa_6; p3_felippa_7; p3_felippa_8] -> r = Some s -> pyramid_scheme s) /\
  (forall s tol, p3_felippa_9 = Some (s, tol) -> pyramid_scheme s).
Proof.
  split.
  - intros r s Hr E. cbn in Hr. repeat (destruct Hr as [<-|Hr]; [unfold p3_felippa_1, p3_felippa_2, p3_felippa_3, p3_felippa_4, p3_felippa_5, p3_felippa_6, p3_felippa_7, p3_felippa_8 in E; inv_opt; match goal with H : mk3 _ _ = s |- _ => rewrite <- H end; apply mk3_pyramid; all_data|]). destruct Hr.
  - intros s tol E. unfold p3_felippa_9 in E. cbn zeta in E. inv_opt. match goal with H : mk3 _ _ = s |- _ => rewrite <- H end. apply mk3_pyramid; all_data.
Qed.
Print Assumptions C87_pyramid.
Lemma s21z_z a z : Permutation (map mirror_z (s21_z a z)) (s21_z a z).
Proof. unfold s21_z, mirror_z. cbn. rewrite !Ropp_involutive. apply (Permutation_app_comm [[a; 1 - 2 * a; - z]; [1 - 2 * a; a; - z]; [a; a; - z]] [[a; 1 - 2 * a; z]; [1 - 2 * a; a; z]; [a; a; z]]). Qed.
Lemma s3_mirror : Permutation (map mirror_z s3) s3. Proof. unfold s3, mirror_z. cbn. rewrite Ropp_0. apply Permutation_refl. Qed.
Lemma s3z_z z : Permutation (map mirror_z (felippa_s3_z z)) (felippa_s3_z z). Proof. unfold felippa_s3_z, mirror_z. cbn. rewrite !Ropp_involutive. apply perm_swap. Qed.
Lemma s21_mirror a : Permutation (map mirror_z (felippa_s21 a)) (felippa_s21 a). Proof. unfold felippa_s21, mirror_z. cbn. rewrite !Ropp_0. apply Permutation_refl. Qed.
Lemma s111z_z a b z : Permutation (map mirror_z (felippa_s111_z a b z)) (felippa_s111_z a b z).
Proof.
  unfold felippa_s111_z, mirror_z. cbn. rewrite !Ropp_involutive. set (c := 1 - a - b).
  apply (Permutation_app_comm [[b; c; - z]; [a; b; - z]; [c; a; - z]; [c; b; - z]; [a; c; - z]; [b; a; - z]] [[b; c; z]; [a; b; z]; [c; a; z]; [c; b; z]; [a; c; z]; [b; a; z]]).
Qed.
Ltac all_wedge := repeat (apply List.Forall_cons; [cbn [snd]; first [apply s21z_z|apply s3_mirror|apply s3z_z|apply s21_mirror|apply s111z_z|(repeat constructor)]|]); apply List.Forall_nil.
Definition wedge_scheme (s : scheme) : Prop := s_dim s = 3%nat /\ three (s_rule s) /\ fixes mirror_z (s_rule s).
Lemma mk3_wedge data degree : List.Forall (fun wO => List.Forall (fun p => length p = 3%nat) (snd wO)) data ->
  List.Forall (fun wO => Permutation (map mirror_z (snd wO)) (snd wO)) data -> wedge_scheme (mk3 data degree).
Proof. intros A B. split; [reflexivity|]. split; [apply mk3_three; auto|]. apply mk3_fixes; auto. Qed.
Theorem C87_wedge :
  (forall r s, In r [w3_felippa_1; w3_felippa_2; w3_felippa_3] -> r = Some s -> wedge_scheme s) /\
  (forall r s tol, In r [w3_felippa_4; w3_felippa_5; w3_felippa_6] -> r = Some (s, tol) -> wedge_scheme s) /\
  (forall r s tol, In r [w3_kubatko_yeager_maggi_1; w3_kubatko_yeager_maggi_2a; w3_kubatko_yeager_maggi_2b; w3_kubatko_yeager_maggi_3a; w3_kubatko_yeager_maggi_3b; w3_kubatko_yeager_maggi_3c; w3_kubatko_yeager_maggi_3d; w3_kubatko_yeager_maggi_4a; w3_kubatko_yeager_maggi_4b; w3_kubatko_yeager_maggi_5a; w3_kubatko_yeager_maggi_5b; w3_kubatko_yeager_maggi_5c; w3_kubatko_yeager_maggi_6a; w3_kubatko_yeager_maggi_6b; w3_kubatko_yeager_maggi_6c; w3_kubatko_yeager_maggi_7a; w3_kubatko_yeager_maggi_7b; w3_kubatko_yeager_maggi_7c; w3_kubatko_yeager_maggi_8a; w3_kubatko_yeager_maggi_8b; w3_kubatko_yeager_maggi_9] -> r = Some (s, tol) -> s_dim s = 3%nat /\ three (s_rule s)).
Proof.
  split; [|split].
  - intros r s Hr E. cbn in Hr. repeat (destruct Hr as [<-|Hr]; [unfold w3_felippa_1, w3_felippa_2, w3_felippa_3 in E; inv_opt; match goal with H : mk3 _ _ = s |- _ => rewrite <- H end; apply mk3_wedge; all_wedge|]). destruct Hr.
  - intros r s tol Hr E. cbn in Hr. repeat (destruct Hr as [<-|Hr]; [unfold w3_felippa_4, w3_felippa_5, w3_felippa_6, with_tol, w3_data in E; cbn zeta in E; inv_opt; match goal with H : mk3 _ _ = s |- _ => rewrite <- H | H : ?v = s, H' : mk3 _ _ = ?v |- _ => rewrite <- H, <- H' end; apply mk3_wedge; all_wedge|]). destruct Hr.
  - intros r s tol Hr E. cbn [In] in Hr. repeat (destruct Hr as [<-|Hr]; [match type of E with ?x = _ => unfold x, with_tol in E end; cbn zeta in E; repeat (apply bind_inv in E; let v := fresh "v" in let H := fresh "H" in destruct E as (v & H & E)); injection E as <- _; match goal with H : kym _ _ = Some _ |- _ => exact (kym_three _ _ _ H) end|]). destruct Hr.
Qed.
Print Assumptions C87_wedge.
