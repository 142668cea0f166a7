(** C84: error bounds and convergence in several dimensions, for continuous integrands that are not polynomials.
    ConvNdSpec.v: [continuous_in D f] (continuous on the set D), [in_cube], [in_ball], [on_sphere], [in_bary] (the reference domains),
    [in_box lim], [in_ball_at c r], [on_sphere_at c r], [in_simplex n vertices] (the domains of integration), [weights_abs q] (sum of
    the |w_i|), [growing_rules D nc I q] (rules of degree tending to infinity with points in D and bounded weights_abs),
    [positive_in D q] (weights >= 0, points in D).  ConvSpec.v: [converges_to] (the calls return numbers, which tend to the limit).
    Spec.v: [exact n d I q], [mp_ok n d p] (p is a polynomial in n variables of degree at most d, [mpeval p] its value).
    [cn_integrate], [tn_integrate], [sn_integrate], [un_integrate] model scheme.integrate(f, domain). *)
From Coq Require Import Reals List Arith ZArith Lia Lra.
From Coquelicot Require Import Coquelicot.
From Verif Require Import Spec Spec1 RsumLemmas IntegralSpec IntegralProofs IntegralPoly SphereSpec SphereInt RadialInt PyBase SymmModel SchemeTools FixSpec C1Model GwModel GwSpec S2Model T2Model CubeModel CubeProofs
  GeomModel GeomProofs SimplexVol SimplexInt RoundModel RoundSpec RoundProofs LegSpec TnModel2 PolyFun ConvSpec ConvNdSpec WeierNd IterInt ConvNdExt ConvNdProofs ConvNdGeom ConvNdFam ConvModel PropCube PropRound PropGw.
Import ListNotations.
Set Bullet Behavior "Strict Subproofs".
Open Scope R_scope.
Local Notation length := List.length.

(** *** the calls and the integrals as multiples of means *)
Definition box_vol (lim : list (R * R)) : R := Rprod (map (fun e => snd e - fst e) lim).
Lemma box_vol_half lim : Rprod (half_widths lim) * 2 ^ length lim = box_vol lim.
Proof. unfold box_vol, half_widths. induction lim as [|[a b] lim IH]; cbn [map Rprod length pow fst snd]; [ring|]. rewrite <- IH. field. Qed.
Lemma box_vol_ge0 lim : List.Forall (fun e => fst e <= snd e) lim -> 0 <= box_vol lim.
Proof. unfold box_vol. induction 1 as [|[a b] lim H F IH]; cbn [map Rprod fst snd] in *; [lra|]. apply Rmult_le_pos; lra. Qed.
Lemma box_cont lim f : List.Forall (fun e => fst e <= snd e) lim -> continuous_in (in_box lim) f -> continuous_in (in_cube (length lim)) (fun x => f (box_map lim x)).
Proof. intros F C. apply (continuous_comp (in_cube (length lim)) (in_box lim) (box_map lim)); auto; [intros x; apply box_map_in; auto|apply box_map_cont]. Qed.
Lemma box_values lim q f : lim <> [] -> List.Forall (fun e => fst e <= snd e) lim -> points_in_dim (length lim) q -> continuous_in (in_box lim) f ->
  cn_integrate (length lim) 0 q f (ncube_points lim) = Some (box_vol lim * apply q (fun x => f (box_map lim x))) /\
  box_int lim f = box_vol lim * cube_mean (length lim) (fun x => f (box_map lim x)).
Proof.
  intros Hn F Q C. split; [apply C41_any_integrand; auto|]. rewrite box_change by (auto; apply continuous_ucont, box_cont; auto). rewrite <- box_vol_half. unfold cube_mean. field. apply pow_nonzero. lra.
Qed.
Lemma ball_cont c r f : continuous_in (in_ball_at c r) f -> continuous_in (in_ball (length c)) (fun x => f (shifted c r x)).
Proof. intros C. apply (continuous_comp (in_ball (length c)) (in_ball_at c r) (shifted c r)); auto; [apply shifted_ball|apply shifted_cont]. Qed.
Lemma sphere_cont c r f : continuous_in (on_sphere_at c r) f -> continuous_in (on_sphere (length c)) (fun x => f (shifted c r x)).
Proof. intros C. apply (continuous_comp (on_sphere (length c)) (on_sphere_at c r) (shifted c r)); auto; [apply shifted_sphere|apply shifted_cont]. Qed.
Lemma ball_values c r q f : c <> [] -> 0 <= r -> continuous_in (in_ball_at c r) f ->
  sn_integrate (length c) q f c r = ball_int (length c) r (fun _ => 1) * apply q (fun x => f (shifted c r x)) /\
  ball_int_at c r f = ball_int (length c) r (fun _ => 1) * ball_mean (length c) (fun x => f (shifted c r x)) /\ 0 <= ball_int (length c) r (fun _ => 1).
Proof.
  intros Hc Hr C. rewrite (proj1 (C43_any_integrand (length c) q f c r Hr)), (ball_volume (length c) r) by auto. assert (B : 0 < ball_int (length c) 1 (fun _ => 1)) by (rewrite ball_int_1; apply bal0_pos).
  split; [ring|]. split; [|apply Rmult_le_pos; [apply pow_le; auto|lra]]. rewrite ball_change by auto. unfold ball_mean. field. lra.
Qed.
Lemma sphere_values c r q f : c <> [] -> 0 <= r ->
  un_integrate (length c) q f c r = sphere_int_at c r (fun _ => 1) * apply q (fun x => f (shifted c r x)) /\
  sphere_int_at c r f = sphere_int_at c r (fun _ => 1) * sphere_mean (length c) (fun x => f (shifted c r x)) /\ 0 <= sphere_int_at c r (fun _ => 1).
Proof.
  intros Hc Hr. rewrite (proj2 (C43_any_integrand (length c) q f c r Hr)). unfold sphere_int_at. assert (B : 0 < sphere_int (length c) (fun _ => 1)). { destruct c as [|c1 c]; [tauto|]. cbn [length]. rewrite sphere_int_1. apply sph0_pos. }
  split; [ring|]. split; [|apply Rmult_le_pos; [apply pow_le; auto|lra]]. unfold sphere_mean. field. lra.
Qed.
Definition simplex_vol (n : nat) (V : list point) : R := Rabs (det n (edges V)) / INR (fact n).
Lemma simplex_cont n V f : length V = (n + 1)%nat -> List.Forall (fun v : point => length v = n) V -> continuous_in (in_simplex n V) f -> continuous_in (in_bary n) (fun x => f (bary_map V x)).
Proof. intros HV F C. apply (continuous_comp (in_bary n) (in_simplex n V) (bary_map V)); auto; [intros x; apply bary_map_in; auto|apply (bary_map_cont (S n)); intros; apply bary_cube; auto]. Qed.
Lemma simplex_values n V q f : length V = (n + 1)%nat -> List.Forall (fun v : point => length v = n) V ->
  tn_integrate n q f V = Some (simplex_vol n V * apply q (fun x => f (bary_map V x))) /\
  simplex_integral n V f = simplex_vol n V * simplex_mean n (fun x => f (bary_map V x)) /\ 0 <= simplex_vol n V.
Proof.
  intros HV F. split; [|split; [apply simplex_change; auto|apply Rmult_le_pos; [apply Rabs_pos|left; apply Rinv_0_lt_compat, INR_fact_lt_0]]].
  unfold tn_integrate. rewrite HV, Nat.eqb_refl. cbn [guard]. rewrite (get_vol_det n) by auto. cbn [bind]. do 2 f_equal. unfold apply. f_equal. apply map_ext. intros. ring.
Qed.
Lemma scaled_error v a b e W : 0 <= v -> Rabs (a - b) <= W * e -> Rabs (v * a - v * b) <= v * W * e.
Proof. intros Hv H. rewrite <- Rmult_minus_distr_l, Rabs_mult, (Rabs_right v) by lra. rewrite Rmult_assoc. apply Rmult_le_compat_l; auto. Qed.

(** *** One call: if a polynomial of degree at most d is within e of the integrand, a scheme of degree d is within
    (volume) * (1 + sum |w_i|) * e of the integral. *)
Theorem C84_box_error : forall lim q f d p e, lim <> [] -> List.Forall (fun e => fst e <= snd e) lim ->
  exact (length lim) d (fun k => cube_mean (length lim) (mono k)) q -> List.Forall (fun wp => in_cube (length lim) (snd wp)) q ->
  continuous_in (in_box lim) f -> mp_ok (length lim) d p -> (forall x, in_box lim x -> Rabs (f x - mpeval p x) <= e) ->
  exists v, cn_integrate (length lim) 0 q f (ncube_points lim) = Some v /\
    Rabs (v - box_int lim f) <= Rprod (map (fun e => snd e - fst e) lim) * (1 + weights_abs q) * e.
Proof.
  intros lim q f d p e Hn F X Q C Hp H. destruct (box_values lim q f Hn F (proj1 X) C) as (Ev & Ei). eexists. split; [exact Ev|]. rewrite Ei. apply scaled_error; [apply box_vol_ge0; auto|].
  apply (error_on (in_cube (length lim)) (length lim) (cube_mean (length lim)) q _ d (fun x => mpeval p (box_map lim x))); auto; [apply cube_mean_on|intros; apply (cube_exact_polyfun _ d); auto|apply box_cont; auto|apply polyfun_box; auto|].
  intros x Hx. apply H, box_map_in; auto.
Qed.
Print Assumptions C84_box_error.
Theorem C84_simplex_error : forall n vertices q f d p e, length vertices = (n + 1)%nat -> List.Forall (fun v : point => length v = n) vertices ->
  exact (n + 1) d (fun k => simplex_mean n (mono k)) q -> List.Forall (fun wp => in_bary n (snd wp)) q ->
  continuous_in (in_simplex n vertices) f -> mp_ok n d p -> (forall x, in_simplex n vertices x -> Rabs (f x - mpeval p x) <= e) ->
  exists v, tn_integrate n q f vertices = Some v /\
    Rabs (v - simplex_integral n vertices f) <= Rabs (det n (edges vertices)) / INR (fact n) * (1 + weights_abs q) * e.
Proof.
  intros n V q f d p e HV F X Q C Hp H. destruct (simplex_values n V q f HV F) as (Ev & Ei & P). eexists. split; [exact Ev|]. rewrite Ei. apply scaled_error; [exact P|].
  apply (error_on (in_bary n) (S n) (simplex_mean n) q _ d (fun x => mpeval p (bary_map V x))); auto; [apply simplex_mean_on|intros; apply (simplex_exact_polyfun n d); auto|apply simplex_cont; auto| |].
  - rewrite <- Nat.add_1_r. apply bary_polyfun; auto. destruct V as [|v V]; [cbn in HV; lia|]. inversion F; subst. cbn [hd]. apply polyfun_mpeval. auto.
  - intros x Hx. apply H, bary_map_in; auto.
Qed.
Print Assumptions C84_simplex_error.
Theorem C84_ball_error : forall c r q f d p e, c <> [] -> 0 <= r ->
  exact (length c) d (fun k => ball_mean (length c) (mono k)) q -> List.Forall (fun wp => in_ball (length c) (snd wp)) q ->
  continuous_in (in_ball_at c r) f -> mp_ok (length c) d p -> (forall x, in_ball_at c r x -> Rabs (f x - mpeval p x) <= e) ->
  Rabs (sn_integrate (length c) q f c r - ball_int_at c r f) <= ball_int (length c) r (fun _ => 1) * (1 + weights_abs q) * e.
Proof.
  intros c r q f d p e Hc Hr X Q C Hp H. destruct (ball_values c r q f Hc Hr C) as (Ev & Ei & P). rewrite Ev, Ei. apply scaled_error; [exact P|].
  apply (error_on (in_ball (length c)) (length c) (ball_mean (length c)) q _ d (fun x => mpeval p (shifted c r x))); auto; [apply ball_mean_on|intros; apply (ball_exact_polyfun _ d); auto|apply ball_cont; auto|apply polyfun_shifted, polyfun_mpeval; auto|].
  intros x Hx. apply H, shifted_ball. auto.
Qed.
Print Assumptions C84_ball_error.
Theorem C84_sphere_error : forall c r q f d p e, c <> [] -> 0 <= r ->
  exact (length c) d (fun k => sphere_mean (length c) (mono k)) q -> List.Forall (fun wp => on_sphere (length c) (snd wp)) q ->
  continuous_in (on_sphere_at c r) f -> mp_ok (length c) d p -> (forall x, on_sphere_at c r x -> Rabs (f x - mpeval p x) <= e) ->
  Rabs (un_integrate (length c) q f c r - sphere_int_at c r f) <= sphere_int_at c r (fun _ => 1) * (1 + weights_abs q) * e.
Proof.
  intros c r q f d p e Hc Hr X Q C Hp H. destruct (sphere_values c r q f Hc Hr) as (Ev & Ei & P). rewrite Ev, Ei. apply scaled_error; [exact P|]. assert (C' := sphere_cont c r f C). assert (Pp := polyfun_shifted d (mpeval p) c r (polyfun_mpeval _ _ _ Hp)).
  assert (A : forall x, on_sphere (length c) x -> Rabs (f (shifted c r x) - mpeval p (shifted c r x)) <= e) by (intros x Hx; apply H, shifted_sphere; auto).
  destruct (length c) as [|n] eqn:L; [destruct c; [tauto|discriminate]|].
  apply (error_on (on_sphere (S n)) (S n) (sphere_mean (S n)) q _ d (fun x => mpeval p (shifted c r x))); auto; [apply sphere_mean_on|intros; apply (sphere_exact_polyfun _ d); auto].
Qed.
Print Assumptions C84_sphere_error.

(** *** Growing degree: the results tend to the integral of every continuous function. *)
Theorem C84_box_convergence : forall lim q f, lim <> [] -> List.Forall (fun e => fst e <= snd e) lim ->
  growing_rules (in_cube (length lim)) (length lim) (fun k => cube_mean (length lim) (mono k)) q -> continuous_in (in_box lim) f ->
  converges_to (fun k => bind (q k) (fun r => cn_integrate (length lim) 0 r f (ncube_points lim))) (box_int lim f).
Proof.
  intros lim q f Hn F (W & G) C. destruct (box_values lim [] f Hn F ltac:(constructor) C) as (_ & Ei). rewrite Ei.
  apply (converges_eq (fun k => option_map (Rmult (box_vol lim)) (option_map (fun r => apply r (fun x => f (box_map lim x))) (q k)))).
  - destruct (G 0%nat) as (N & HN). exists N. intros k Hk. destruct (HN k Hk) as (r & E & X & _). rewrite E. cbn [option_map bind]. destruct (box_values lim r f Hn F (proj1 X) C) as (Ev & _). auto.
  - apply converges_scal. apply (converges_on (in_cube (length lim)) (length lim) (cube_mean (length lim)) q W); [apply cube_mean_on|apply box_cont; auto|].
    intros m. destruct (G m) as (N & HN). exists N. intros k Hk. destruct (HN k Hk) as (r & E & X & P & B). exists r. split; auto. split; auto. intros p Hp. apply (cube_exact_polyfun _ m); auto.
Qed.
Print Assumptions C84_box_convergence.
Theorem C84_simplex_convergence : forall n vertices q f, length vertices = (n + 1)%nat -> List.Forall (fun v : point => length v = n) vertices ->
  growing_rules (in_bary n) (n + 1) (fun k => simplex_mean n (mono k)) q -> continuous_in (in_simplex n vertices) f ->
  converges_to (fun k => bind (q k) (fun r => tn_integrate n r f vertices)) (simplex_integral n vertices f).
Proof.
  intros n V q f HV F (W & G) C. destruct (simplex_values n V [] f HV F) as (_ & Ei & _). rewrite Ei.
  apply (converges_eq (fun k => option_map (Rmult (simplex_vol n V)) (option_map (fun r => apply r (fun x => f (bary_map V x))) (q k)))).
  - exists 0%nat. intros k _. destruct (q k) as [r|]; cbn [option_map bind]; auto. destruct (simplex_values n V r f HV F) as (Ev & _). auto.
  - apply converges_scal. apply (converges_on (in_bary n) (S n) (simplex_mean n) q W); [apply simplex_mean_on|apply simplex_cont; auto|].
    intros m. destruct (G m) as (N & HN). exists N. intros k Hk. destruct (HN k Hk) as (r & E & X & P & B). exists r. split; auto. split; auto. intros p Hp. apply (simplex_exact_polyfun n m); auto.
Qed.
Print Assumptions C84_simplex_convergence.
Theorem C84_ball_convergence : forall c r q f, c <> [] -> 0 <= r ->
  growing_rules (in_ball (length c)) (length c) (fun k => ball_mean (length c) (mono k)) q -> continuous_in (in_ball_at c r) f ->
  converges_to (fun k => option_map (fun s => sn_integrate (length c) s f c r) (q k)) (ball_int_at c r f).
Proof.
  intros c r q f Hc Hr (W & G) C. destruct (ball_values c r [] f Hc Hr C) as (_ & Ei & _). rewrite Ei.
  apply (converges_eq (fun k => option_map (Rmult (ball_int (length c) r (fun _ => 1))) (option_map (fun s => apply s (fun x => f (shifted c r x))) (q k)))).
  - exists 0%nat. intros k _. destruct (q k) as [s|]; cbn [option_map]; auto. destruct (ball_values c r s f Hc Hr C) as (Ev & _). f_equal. auto.
  - apply converges_scal. apply (converges_on (in_ball (length c)) (length c) (ball_mean (length c)) q W); [apply ball_mean_on|apply ball_cont; auto|].
    intros m. destruct (G m) as (N & HN). exists N. intros k Hk. destruct (HN k Hk) as (s & E & X & P & B). exists s. split; auto. split; auto. intros p Hp. apply (ball_exact_polyfun _ m); auto.
Qed.
Print Assumptions C84_ball_convergence.
Theorem C84_sphere_convergence : forall c r q f, c <> [] -> 0 <= r ->
  growing_rules (on_sphere (length c)) (length c) (fun k => sphere_mean (length c) (mono k)) q -> continuous_in (on_sphere_at c r) f ->
  converges_to (fun k => option_map (fun s => un_integrate (length c) s f c r) (q k)) (sphere_int_at c r f).
Proof.
  intros c r q f Hc Hr (W & G) C. destruct (sphere_values c r [] f Hc Hr) as (_ & Ei & _). rewrite Ei.
  apply (converges_eq (fun k => option_map (Rmult (sphere_int_at c r (fun _ => 1))) (option_map (fun s => apply s (fun x => f (shifted c r x))) (q k)))).
  - exists 0%nat. intros k _. destruct (q k) as [s|]; cbn [option_map]; auto. destruct (sphere_values c r s f Hc Hr) as (Ev & _). f_equal. auto.
  - apply converges_scal. assert (C' := sphere_cont c r f C). destruct (length c) as [|n] eqn:L; [destruct c; [tauto|discriminate]|].
    apply (converges_on (on_sphere (S n)) (S n) (sphere_mean (S n)) q W); [apply sphere_mean_on|auto|].
    intros m. destruct (G m) as (N & HN). exists N. intros k Hk. destruct (HN k Hk) as (s & E & X & P & B). exists s. split; auto. split; auto. intros p Hp. apply (sphere_exact_polyfun _ m); auto.
Qed.
Print Assumptions C84_sphere_convergence.

(** *** Families *)
(** c2.product and c3.product of gauss_legendre (both modes), Clenshaw-Curtis and the Fejer rules, over every rectangle and box *)
Theorem C84_products : forall eigh leggauss f lim, eigen_solver eigh -> leggauss_ok leggauss -> List.Forall (fun e => fst e <= snd e) lim -> continuous_in (in_box lim) f ->
  List.Forall (fun fam : nat -> option c1_scheme =>
    (length lim = 2%nat -> converges_to (fun n => bind (fam n) (fun s => bind (c2_product (c1_rule s)) (fun r => cn_integrate 2 0 r f (ncube_points lim)))) (box_int lim f)) /\
    (length lim = 3%nat -> converges_to (fun n => bind (fam n) (fun s => bind (c3_product (c1_rule s)) (fun r => cn_integrate 3 0 r f (ncube_points lim)))) (box_int lim f)))
  [gauss_legendre eigh; gauss_legendre_numpy leggauss; clenshaw_curtis; fejer_1; fejer_2].
Proof.
  intros eigh lg f lim HE HL F C.
  assert (G : forall fam, growing1 fam ->
    (length lim = 2%nat -> converges_to (fun n => bind (fam n) (fun s => bind (c2_product (c1_rule s)) (fun r => cn_integrate 2 0 r f (ncube_points lim)))) (box_int lim f)) /\
    (length lim = 3%nat -> converges_to (fun n => bind (fam n) (fun s => bind (c3_product (c1_rule s)) (fun r => cn_integrate 3 0 r f (ncube_points lim)))) (box_int lim f))).
  { intros fam G. split; intros L; assert (Hn : lim <> []) by (destruct lim; [discriminate|congruence]).
    - assert (K := C84_box_convergence lim (fun n => bind (fam n) (fun s => c2_product (c1_rule s))) f Hn F). rewrite L in K. specialize (K (c2_growing fam G) C). eapply converges_eq; [|exact K]. exists 0%nat. intros k _. cbv beta. destruct (fam k) as [s|]; reflexivity.
    - assert (K := C84_box_convergence lim (fun n => bind (fam n) (fun s => c3_product (c1_rule s))) f Hn F). rewrite L in K. specialize (K (c3_growing fam G) C). eapply converges_eq; [|exact K]. exists 0%nat. intros k _. cbv beta. destruct (fam k) as [s|]; reflexivity. }
  assert (K := growing_cc). inversion K as [|? ? K1 V1]; inversion V1 as [|? ? K2 V2]; inversion V2 as [|? ? K3 V3]; subst.
  repeat (apply List.Forall_cons; [apply G; auto using growing_legendre, growing_legendre_numpy|]). constructor.
Qed.
Print Assumptions C84_products.
(** s2.lether and s2.peirce_1957 over every disk *)
Theorem C84_disk : forall leggauss x y r f, leggauss_ok leggauss -> 0 <= r -> continuous_in (in_ball_at [x; y] r) f ->
  converges_to (fun n => option_map (fun s => s2_integrate (s_rule s) f [x; y] r) (s2_lether leggauss n)) (ball_int_at [x; y] r f) /\
  converges_to (fun n => option_map (fun s => s2_integrate (s_rule s) f [x; y] r) (s2_peirce_1957 leggauss n)) (ball_int_at [x; y] r f).
Proof.
  intros lg x y r f HL Hr C. split.
  - eapply converges_eq; [|apply (C84_ball_convergence [x; y] r _ f ltac:(discriminate) Hr (lether_growing lg HL) C)]. exists 0%nat. intros k _. cbv beta. destruct (s2_lether lg k) as [s|]; cbn [option_map]; auto. rewrite s2_is_sn by auto. reflexivity.
  - eapply converges_eq; [|apply (C84_ball_convergence [x; y] r _ f ltac:(discriminate) Hr (peirce_growing lg HL) C)]. exists 0%nat. intros k _. cbv beta. destruct (s2_peirce_1957 lg k) as [s|]; cbn [option_map]; auto. rewrite s2_is_sn by auto. reflexivity.
Qed.
Print Assumptions C84_disk.
(** t2.lether over every triangle *)
Theorem C84_triangle : forall eigh a b c f, eigen_solver eigh -> length a = 2%nat -> length b = 2%nat -> length c = 2%nat -> continuous_in (in_simplex 2 [a; b; c]) f ->
  converges_to (fun n => bind (t2_lether eigh n) (fun s => tn_integrate 2 (s_rule s) f [a; b; c])) (simplex_integral 2 [a; b; c] f).
Proof.
  intros eigh a b c f HE La Lb Lc C. eapply converges_eq; [|apply (C84_simplex_convergence 2 [a; b; c] _ f eq_refl ltac:(repeat constructor; auto) (t2_lether_growing eigh HE) C)]. exists 0%nat. intros k _. cbv beta. destruct (t2_lether eigh k) as [s|]; reflexivity.
Qed.
Print Assumptions C84_triangle.
(** u2.krylov (and u2.get_good_scheme) over every circle *)
Theorem C84_circle : forall x y r f, 0 <= r -> continuous_in (on_sphere_at [x; y] r) f ->
  converges_to (fun n => option_map (fun s => u2_integrate (u2_rule s) f [x; y] r) (krylov n)) (sphere_int_at [x; y] r f).
Proof.
  intros x y r f Hr C. eapply converges_eq; [|apply (C84_sphere_convergence [x; y] r _ f ltac:(discriminate) Hr krylov_growing C)]. exists 0%nat. intros k _. cbv beta. destruct (krylov k) as [s|]; cbn [option_map]; auto. rewrite u2_is_un. reflexivity.
Qed.
Print Assumptions C84_circle.
(** All these families have weights that are not negative and points in the domain: a convex combination of values of f. *)
Theorem C84_positive : forall eigh leggauss n s, eigen_solver eigh -> leggauss_ok leggauss -> (1 <= n)%nat ->
  (s2_lether leggauss n = Some s -> positive_in (in_ball 2) (s_rule s)) /\ (s2_peirce_1957 leggauss n = Some s -> positive_in (in_ball 2) (s_rule s)) /\
  (t2_lether eigh n = Some s -> positive_in (in_bary 2) (s_rule s)).
Proof. intros eigh lg n s HE HL Hn. split; [apply s2_lether_positive; auto|]. split; [apply s2_peirce_positive; auto|apply t2_lether_positive; auto]. Qed.
Print Assumptions C84_positive.
(** *** Concrete cases: f(x, y) = |x - y| is continuous and not a polynomial. *)
Definition absdiff (x : point) : R := Rabs (nth 0 x 0 - nth 1 x 0).
Lemma absdiff_continuous (D : point -> Prop) : (forall x, D x -> length x = 2%nat) -> continuous_in D absdiff.
Proof.
  intros HD x Hx eps He. exists (eps / 2). split; [lra|]. intros y Hy Hc. assert (Lx := HD x Hx). assert (Ly := HD y Hy). destruct x as [|x1 [|x2 [|]]]; try discriminate. destruct y as [|y1 [|y2 [|]]]; try discriminate.
  unfold close in Hc. inversion Hc as [|? ? ? ? H1 Hc' E1 E2]; subst. inversion Hc' as [|? ? ? ? H2 _ E1 E2]; subst. unfold absdiff. cbn [nth].
  eapply Rle_lt_trans; [apply Rabs_triang_inv2|]. replace (y1 - y2 - (x1 - x2)) with ((y1 - x1) + - (y2 - x2)) by ring. eapply Rle_lt_trans; [apply Rabs_triang|]. rewrite Rabs_Ropp. lra.
Qed.
Example C84_ex_families : exists eigh leggauss, eigen_solver eigh /\ leggauss_ok leggauss /\
  converges_to (fun n => bind (gauss_legendre eigh n) (fun s => bind (c2_product (c1_rule s)) (fun r => cn_integrate 2 0 r absdiff (ncube_points [(0, 1); (-1, 2)])))) (box_int [(0, 1); (-1, 2)] absdiff) /\
  converges_to (fun n => option_map (fun s => s2_integrate (s_rule s) absdiff [1; 2] 3) (s2_lether leggauss n)) (ball_int_at [1; 2] 3 absdiff) /\
  converges_to (fun n => bind (t2_lether eigh n) (fun s => tn_integrate 2 (s_rule s) absdiff [[0; 0]; [4; 1]; [2; 3]])) (simplex_integral 2 [[0; 0]; [4; 1]; [2; 3]] absdiff) /\
  converges_to (fun n => option_map (fun s => u2_integrate (u2_rule s) absdiff [1; 2] 3) (krylov n)) (sphere_int_at [1; 2] 3 absdiff).
Proof.
  destruct C33_solver_exists as (eigh & HE). destruct PropS2S3.C57_leggauss_exists as (lg & HL). exists eigh, lg. split; auto. split; auto.
  split; [|split; [|split]].
  - assert (C : continuous_in (in_box [(0, 1); (-1, 2)]) absdiff) by (apply absdiff_continuous; intros x Hx; unfold in_box in Hx; inversion Hx as [|? ? ? ? _ H E1 E2]; subst; inversion H as [|? ? ? ? _ H' E1 E2]; subst; inversion H'; subst; reflexivity).
    assert (K := C84_products eigh lg absdiff [(0, 1); (-1, 2)] HE HL ltac:(apply List.Forall_cons; [cbn; lra|apply List.Forall_cons; [cbn; lra|constructor]]) C). inversion K as [|? ? (K2 & _) _]; subst. apply K2. reflexivity.
  - apply C84_disk; auto; [lra|]. apply absdiff_continuous. intros x [L _]. auto.
  - apply C84_triangle; auto. apply absdiff_continuous. intros x (l & _ & ->). reflexivity.
  - apply C84_circle; [lra|]. apply absdiff_continuous. intros x [L _]. auto.
Qed.
(** The error bound with the polynomial 1/2, which is within 1/2 of |x - y| on the unit square. *)
Example C84_ex_error : exists q, exact 2 3 (fun k => cube_mean 2 (mono k)) q /\ List.Forall (fun wp => in_cube 2 (snd wp)) q /\ weights_abs q = 1 /\
  exists v, cn_integrate 2 0 q absdiff (ncube_points [(0, 1); (0, 1)]) = Some v /\ Rabs (v - box_int [(0, 1); (0, 1)] absdiff) <= 1.
Proof.
  destruct C33_solver_exists as (eigh & HE). destruct (c2_growing _ (growing_legendre eigh HE)) as (W & G). destruct (growing_legendre eigh HE 3%nat) as (N & HN). destruct (HN N (le_n _)) as (s & E & X & P & Wp).
  destruct (C13_declared_degree 3 (c1_rule s) X (exact1_nonempty _ _ X)) as ((q & Eq & Xq) & _). assert (Pq := c2_positive _ _ Eq P Wp). exists q. split; auto. assert (Dq : List.Forall (fun wp => in_cube 2 (snd wp)) q) by (eapply List.Forall_impl; [|exact Pq]; cbn; tauto). split; auto.
  assert (W1 : weights_abs q = 1). { rewrite (positive_bound (in_cube 2) 2 3 (fun k => cube_mean 2 (mono k)) q) by auto. unfold cube_mean. rewrite (cube_int_ext 2 _ (fun _ => 1)) by (intros; apply mono_zero). rewrite cube_int_1. field. }
  split; auto. destruct (C84_box_error [(0, 1); (0, 1)] q absdiff 3 [(1/2, [0; 0]%nat)] (1/2)) as (v & Ev & B); auto; [discriminate|apply List.Forall_cons; [cbn; lra|apply List.Forall_cons; [cbn; lra|constructor]]| | | |].
  - apply absdiff_continuous. intros x Hx. unfold in_box in Hx. inversion Hx as [|? ? ? ? _ H E1 E2]; subst; inversion H as [|? ? ? ? _ H' E1 E2]; subst; inversion H'; subst; reflexivity.
  - apply List.Forall_cons; [|constructor]. split; [reflexivity|]. cbn. lia.
  - intros x Hx. inversion Hx as [|? a ? ? Ha H E1 E2]; subst; inversion H as [|? b ? ? Hb H' E1 E2]; subst; inversion H'; subst. cbn [fst snd] in Ha, Hb. unfold absdiff, mpeval. cbn [map Rsum fst snd mono nth pow].
    assert (0 <= Rabs (a - b) <= 1) by (split; [apply Rabs_pos|apply Rabs_le; lra]). apply Rabs_le. lra.
  - exists v. split; auto. rewrite W1 in B. cbn [map Rprod fst snd] in B. lra.
Qed.
