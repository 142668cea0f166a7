(** Integrals over meshes are the sums of the integrals over the cells (C91). *)
From Coq Require Import Reals List Arith ZArith Lia Lra Permutation.
From Coquelicot Require Import Coquelicot.
From Verif Require Import Spec Spec1 RsumLemmas IntegralSpec IntegralProofs IntegralProofs2 IntegralPoly PyBase CubeModel CubeProofs OrbitModel
  GeomModel GeomProofs SimplexVol SimplexInt TnModel2 PolyFun ConvSpec ConvNdSpec WeierNd IterInt ConvNdExt ConvNdProofs ConvNdGeom PropCube PropConvNd MeshSpec.
Import ListNotations.
Set Bullet Behavior "Strict Subproofs".
Open Scope R_scope.
Local Notation length := List.length.

(* ------------------------------------------------------------------ boxes *)
Definition limits_ok (lim : list (R * R)) : Prop := List.Forall (fun e => fst e <= snd e) lim.
Lemma box_int_cut_mpeval pre a b post c p : List.Forall (fun ck => length (snd ck) = length (pre ++ (a, b) :: post)) p ->
  box_int (pre ++ (a, b) :: post) (mpeval p) = box_int (pre ++ (a, c) :: post) (mpeval p) + box_int (pre ++ (c, b) :: post) (mpeval p).
Proof.
  intros F. rewrite !box_int_mpeval by (eapply Forall_impl; [|exact F]; intros ck; cbn beta; rewrite !app_length; cbn [length]; intros E; exact E).
  rewrite <- Rsum_map_plus. apply Rsum_map_ext. intros [w k] Hk. rewrite Forall_forall in F. specialize (F _ Hk). cbn [fst snd] in *. rewrite <- Rmult_plus_distr_l. f_equal. clear - F.
  revert k F. induction pre as [|e pre IH]; intros [|j k] F; try discriminate; cbn [app List.combine map Rprod].
  - unfold axis_int. cbn [fst snd]. field. apply not_0_INR. lia.
  - cbn in F. rewrite (IH k) by lia. ring.
Qed.
Lemma box_near lim f p d e : limits_ok lim -> continuous_in (in_box lim) f -> mp_ok (length lim) d p -> (forall x, in_box lim x -> Rabs (f x - mpeval p x) <= e) ->
  Rabs (box_int lim f - box_int lim (mpeval p)) <= box_vol lim * e.
Proof.
  intros F C Hp H. rewrite (box_change lim f), (box_change lim (mpeval p)); auto; [|apply (ucont_polyfun _ d), polyfun_box; auto|apply continuous_ucont, box_cont; auto].
  rewrite <- box_vol_half, <- Rmult_minus_distr_l, Rabs_mult, Rabs_right.
  - rewrite Rmult_assoc. apply Rmult_le_compat_l; [apply half_widths_nonneg; exact F|]. destruct (cube_mean_on (length lim)) as [N _].
    specialize (N (fun x => f (box_map lim x)) d (fun x => mpeval p (box_map lim x)) e (box_cont lim f F C) (polyfun_box lim d p Hp) (fun x Hx => H _ (box_map_in lim x F Hx))).
    unfold cube_mean in N. assert (P : 0 < 2 ^ length lim) by (apply pow_lt; lra). unfold Rdiv in N. rewrite <- Rmult_minus_distr_r, Rabs_mult, (Rabs_right (/ _)) in N by (left; apply Rinv_0_lt_compat; exact P).
    apply (Rmult_le_compat_l (2 ^ length lim)) in N; [|lra]. rewrite (Rmult_comm _ (/ _)), <- Rmult_assoc, Rinv_r, Rmult_1_l in N by lra. exact N.
  - apply Rle_ge, half_widths_nonneg; exact F.
Qed.
Lemma in_box_widen pre e e' post x : fst e' <= fst e -> snd e <= snd e' -> in_box (pre ++ e :: post) x -> in_box (pre ++ e' :: post) x.
Proof.
  intros H1 H2. revert x. induction pre as [|g pre IH]; intros x H; inversion H; subst; constructor; auto; [lra|]. apply IH. assumption.
Qed.
Lemma limits_cut pre e e' post : fst e' <= snd e' -> limits_ok (pre ++ e :: post) -> limits_ok (pre ++ e' :: post).
Proof. intros H F. apply Forall_app in F. destruct F as [F1 F2]. inversion F2; subst. apply Forall_app. split; [exact F1|constructor; assumption]. Qed.
Lemma continuous_sub (D E : point -> Prop) f : (forall x, D x -> E x) -> continuous_in E f -> continuous_in D f.
Proof. intros S C x Hx eps He. destruct (C x (S x Hx) eps He) as (d & Hd & K). exists d. split; auto. Qed.
Lemma box_vol_cut pre a b post c : box_vol (pre ++ (a, b) :: post) = box_vol (pre ++ (a, c) :: post) + box_vol (pre ++ (c, b) :: post).
Proof. unfold box_vol. induction pre as [|e pre IH]; cbn [app map Rprod fst snd]; [ring|]. rewrite IH. ring. Qed.
Lemma small_eq x y K : (forall eps, 0 < eps -> Rabs (x - y) <= K * eps) -> 0 <= K -> x = y.
Proof.
  intros H HK. apply Rminus_diag_uniq. apply Rabs_eq_0. destruct (Rle_lt_dec (Rabs (x - y)) 0) as [L|L]; [pose proof (Rabs_pos (x - y)); lra|].
  specialize (H (Rabs (x - y) / (2 * (K + 1))) ltac:(apply Rdiv_lt_0_compat; lra)). exfalso.
  assert (E : K * (Rabs (x - y) / (2 * (K + 1))) = Rabs (x - y) * (K / (2 * (K + 1)))) by (field; lra). rewrite E in H.
  assert (G : K / (2 * (K + 1)) < 1) by (apply Rmult_lt_reg_r with (2 * (K + 1)); [lra|]; unfold Rdiv; rewrite Rmult_assoc, Rinv_l by lra; lra). nra.
Qed.
(** Weierstrass, on a box *)
Lemma box_approx lim f eps : limits_ok lim -> List.Forall (fun e => fst e < snd e) lim -> continuous_in (in_box lim) f -> 0 < eps ->
  exists d p, mp_ok (length lim) d p /\ forall x, in_box lim x -> Rabs (f x - mpeval p x) <= eps.
Proof.
  intros F S C He. destruct (proj2 (cube_mean_on (length lim)) (fun x => f (box_map lim x)) eps (box_cont lim f F C) He) as (d & p & Pp & H).
  set (un := fun x : point => map (fun ex : R * R * R => (snd ex - (fst (fst ex) + snd (fst ex)) / 2) / ((snd (fst ex) - fst (fst ex)) / 2)) (List.combine lim x)).
  assert (U : forall x, in_box lim x -> in_cube (length lim) (un x) /\ box_map lim (un x) = x).
  { unfold un. clear - S. induction S as [|[a b] lim Hab S IH]; intros x Hx; inversion Hx as [|? t ? y Ht Hy]; subst; cbn [fst snd] in *.
    - split; [split; [reflexivity|constructor]|reflexivity].
    - destruct (IH y Hy) as [[L Q] E]. unfold box_map in E |- *. cbn [List.combine map fst snd length]. split.
      + split; [cbn [length] in *; congruence|]. constructor; [|exact Q]. split; (apply Rmult_le_reg_r with ((b - a) / 2); [lra|]); replace ((t - (a + b) / 2) / ((b - a) / 2) * ((b - a) / 2)) with (t - (a + b) / 2) by (field; lra); lra.
      + f_equal; [field; lra|exact E]. }
  assert (Pu : polyfun (length lim) d (fun x => p (un x))).
  { apply (polyfun_ext _ _ (fun x => p (map (fun l => l x) (map (fun i x => (nth i x 0 - (fst (nth i lim (0, 0)) + snd (nth i lim (0, 0))) / 2) / ((snd (nth i lim (0, 0)) - fst (nth i lim (0, 0))) / 2)) (seq 0 (length lim)))))).
    - intros x Hx. f_equal. unfold un. rewrite map_map. clear - Hx. revert x Hx. induction lim as [|e lim IH]; intros [|t x] Hx; try discriminate; [reflexivity|]. cbn [length seq map List.combine]. f_equal. rewrite <- seq_shift, map_map. apply IH. cbn in Hx. lia.
    - apply (polyfun_comp _ (length lim)); [rewrite map_length, seq_length; reflexivity| |exact Pp]. apply List.Forall_forall. intros g Hg. apply in_map_iff in Hg. destruct Hg as (i & <- & Hi). apply in_seq in Hi.
      set (m := (fst (nth i lim (0, 0)) + snd (nth i lim (0, 0))) / 2). set (w := (snd (nth i lim (0, 0)) - fst (nth i lim (0, 0))) / 2).
      apply (polyfun_ext _ _ (fun x => / w * (nth i x 0 + - m))); [intros; unfold Rdiv; ring|]. apply polyfun_scal, polyfun_add; [apply polyfun_coord; lia|apply polyfun_const]. }
  destruct Pu as (pp & Hpp & E). exists d, pp. split; [exact Hpp|]. intros x Hx. destruct (U x Hx) as [Q B]. rewrite <- E by (clear - Hx; induction Hx; cbn; congruence). rewrite <- B at 1. left. apply H. exact Q.
Qed.
Lemma box_size lim m : boxes_of lim m -> limits_ok lim ->
  Rsum (map box_vol m) = box_vol lim /\ List.Forall (fun c => length c = length lim /\ limits_ok c /\ (forall x, in_box c x -> in_box lim x)) m.
Proof.
  intros B. induction B as [lim|pre a b post c m1 m2 Hc B1 IH1 B2 IH2]; intros L.
  - split; [cbn; ring|]. constructor; [auto|constructor].
  - destruct IH1 as [S1 F1]; [apply (limits_cut pre (a, b)); auto; cbn; lra|]. destruct IH2 as [S2 F2]; [apply (limits_cut pre (a, b)); auto; cbn; lra|]. split.
    + rewrite map_app, Rsum_app, S1, S2, (box_vol_cut pre a b post c). reflexivity.
    + apply Forall_app. split; (eapply Forall_impl; [|eassumption]); intros k (Lk & Ok & In); rewrite Lk, !app_length; (split; [reflexivity|split; [exact Ok|]]); intros x Hx; [apply (in_box_widen pre (a, c))|apply (in_box_widen pre (c, b))]; cbn [fst snd]; auto; lra.
Qed.
Lemma box_sum lim m f : boxes_of lim m -> List.Forall (fun e => fst e < snd e) lim -> continuous_in (in_box lim) f -> Rsum (map (fun c => box_int c f) m) = box_int lim f.
Proof.
  intros B S C. assert (L : limits_ok lim) by (eapply Forall_impl; [|exact S]; cbn; intros; lra). destruct (box_size lim m B L) as [V F].
  assert (P : forall d p, mp_ok (length lim) d p -> Rsum (map (fun c => box_int c (mpeval p)) m) = box_int lim (mpeval p)).
  { clear - B. intros d p Hp. apply mp_ok_len in Hp. induction B as [lim|pre a b post c m1 m2 Hc B1 IH1 B2 IH2]; [cbn; ring|]. rewrite map_app, Rsum_app, IH1, IH2; [symmetry; apply box_int_cut_mpeval; exact Hp| |]; (replace (length (pre ++ _ :: post)) with (length (pre ++ (a, b) :: post)) by (rewrite !app_length; reflexivity)); exact Hp. }
  apply (small_eq _ _ (2 * box_vol lim)); [|pose proof (box_vol_ge0 lim L); lra]. intros eps He. destruct (box_approx lim f eps L S C He) as (d & p & Hp & H).
  replace (Rsum (map (fun c => box_int c f) m) - box_int lim f) with ((Rsum (map (fun c => box_int c f) m) - Rsum (map (fun c => box_int c (mpeval p)) m)) - (box_int lim f - box_int lim (mpeval p))) by (rewrite (P d p Hp); ring).
  eapply Rle_trans; [apply Rabs_triang|]. rewrite Rabs_Ropp. pose proof (box_near lim f p d eps L C Hp H) as N.
  assert (N' : Rabs (Rsum (map (fun c => box_int c f) m) - Rsum (map (fun c => box_int c (mpeval p)) m)) <= box_vol lim * eps); [|lra].
  rewrite <- V. clear - F C Hp H. induction F as [|c m (Lc & Oc & Ic) F IH]; cbn [map Rsum]; [rewrite Rminus_0_r, Rabs_R0; lra|].
  match goal with |- Rabs (?a + ?s - (?b + ?t)) <= _ => replace (a + s - (b + t)) with ((a - b) + (s - t)) by ring end. eapply Rle_trans; [apply Rabs_triang|]. rewrite Rmult_plus_distr_r. apply Rplus_le_compat; [|exact IH].
  apply (box_near c f p d eps Oc); [apply (continuous_sub _ (in_box lim)); auto|rewrite Lc; exact Hp|auto].
Qed.
