(** Boxes, balls, spheres and simplices in space: substitution for continuous functions. *)
From Coq Require Import Reals List Arith Lia Lra.
From Coquelicot Require Import Coquelicot.
From Verif Require Import Spec RsumLemmas IntegralSpec IntegralProofs IntegralPoly SphereSpec SphereInt RadialInt RoundSpec ConvSpec ConvNdSpec Weier WeierNd TnModel2 PolyFun IterInt ConvNdExt
  NearProofs RoundModel RoundProofs ConvNdProofs PyBase GeomModel GeomProofs SimplexVol SimplexInt CubeModel CubeProofs.
Import ListNotations.
Set Bullet Behavior "Strict Subproofs".
Open Scope R_scope.

(** substitution x = u y + v, for any function *)
Lemma RInt_lin (f : R -> R) u v a b : u <> 0 -> RInt f (u * a + v) (u * b + v) = RInt (fun y => u * f (u * y + v)) a b.
Proof.
  intros Hu. apply eq_close. apply (close_iota (is_RInt f (u * a + v) (u * b + v)) (is_RInt (fun y => u * f (u * y + v)) a b)). intros l. split; intros H.
  - apply (is_RInt_comp_lin (V := R_NormedModule) f u v a b l H).
  - assert (A : is_RInt (fun y => u * f (u * y + v)) (/ u * (u * a + v) + - v / u) (/ u * (u * b + v) + - v / u) l) by (replace (/ u * (u * a + v) + - v / u) with a by (field; auto); replace (/ u * (u * b + v) + - v / u) with b by (field; auto); exact H).
    apply (is_RInt_comp_lin (V := R_NormedModule)) in A. eapply is_RInt_ext; [|exact A]. intros x _. unfold scal. cbn. unfold mult. cbn. replace (u * (/ u * x + - v / u) + v) with x by (field; auto). field. auto.
Qed.
(** *** boxes *)
Lemma cube_inner_cont n g : ucont (S n) g -> continuous_on (-1) 1 (fun x => cube_int n (fun xs => g (x :: xs))).
Proof.
  intros U. assert (K := inner_cont (fun _ => -1) (fun _ => 1) (fun r _ => r)). 
  assert (R1 : forall r, 0 <= r <= 1 -> -1 <= -1 /\ -1 <= 1 /\ 1 <= 1) by (intros; lra). assert (R2 : forall r x : R, 0 <= r <= 1 -> -1 <= x <= 1 -> 0 <= r <= 1) by (intros; lra).
  destruct (iter_all (fun _ => -1) (fun _ => 1) (fun r _ => r) R1 R2 (fun m d r p Hr => cube_polys m d r p Hr) n) as (M & L & O).
  eapply continuous_on_ext; [|apply (K R1 R2 (fun m d r p Hr => cube_polys m d r p Hr) n 1 g M L O ltac:(lra) U)]. intros x _. cbv beta. symmetry. apply cube_iter.
Qed.
Lemma box_change lim : forall f, List.Forall (fun e => fst e <= snd e) lim -> ucont (length lim) (fun x => f (box_map lim x)) ->
  box_int lim f = Rprod (half_widths lim) * cube_int (length lim) (fun x => f (box_map lim x)).
Proof.
  induction lim as [|[a b] lim IH]; intros f F U; [cbn; ring|]. inversion F as [|? ? Hab F']; subst. cbn [fst snd] in Hab. cbn [box_int length cube_int half_widths map Rprod fst snd].
  change (map (fun e : R * R => (snd e - fst e) / 2) lim) with (half_widths lim).
  assert (E : forall t x, box_map ((a, b) :: lim) (t :: x) = ((a + b) / 2 + (b - a) / 2 * t) :: box_map lim x) by reflexivity.
  assert (U2 : forall t, -1 <= t <= 1 -> ucont (length lim) (fun x => f (((a + b) / 2 + (b - a) / 2 * t) :: box_map lim x))) by (intros t Ht; apply (ucont_slice _ (fun x => f (box_map ((a, b) :: lim) x)) t Ht U)).
  destruct (Req_dec a b) as [<-|N]; [rewrite RInt_point; unfold zero; cbn; rewrite Rminus_eq_0; unfold Rdiv; ring|].
  set (u := (b - a) / 2) in *. assert (Hu : u <> 0) by (unfold u; lra). set (v := (a + b) / 2) in *.
  replace a with (u * -1 + v) at 1 by (unfold u, v; field). replace b with (u * 1 + v) at 1 by (unfold u, v; field). rewrite RInt_lin by auto.
  rewrite (RInt_ext _ (fun t => scal (u * Rprod (half_widths lim)) (cube_int (length lim) (fun xs => f (box_map ((a, b) :: lim) (t :: xs)))))).
  - rewrite (RInt_scal (V := R_CompleteNormedModule)); [reflexivity|]. apply continuous_on_ex_RInt; [lra|]. apply (cube_inner_cont (length lim) (fun x => f (box_map ((a, b) :: lim) x))). exact U.
  - intros t Ht. rewrite Rmin_left, Rmax_right in Ht by lra. rewrite (IH (fun xs => f ((u * t + v) :: xs)) F').
    + unfold scal. cbn -[cube_int box_map]. unfold mult. cbn -[cube_int box_map]. rewrite <- Rmult_assoc. f_equal. apply cube_int_ext. intros x _. rewrite E. do 2 f_equal. ring.
    + apply (ucont_ext _ (fun x => f ((v + u * t) :: box_map lim x))); [intros; do 2 f_equal; ring|]. apply U2. lra.
Qed.
Lemma box_map_in lim : forall x, List.Forall (fun e => fst e <= snd e) lim -> in_cube (length lim) x -> in_box lim (box_map lim x).
Proof.
  induction lim as [|[a b] lim IH]; intros x F Hx; [constructor|]. inversion F; subst. cbn [fst snd] in *. destruct (in_cube_S _ _ Hx) as (t & y & -> & Ht & Hy). unfold box_map. cbn [List.combine map fst snd]. constructor; [cbn [fst snd]; nra|]. apply IH; auto.
Qed.
Lemma box_map_cont lim : map_cont (in_cube (length lim)) (box_map lim).
Proof.
  set (M := Rsum (map (fun e => Rabs ((snd e - fst e) / 2)) lim) + 1).
  assert (HM : List.Forall (fun e => Rabs ((snd e - fst e) / 2) < M) lim /\ 0 < M).
  { unfold M. clear M. assert (G : 0 <= Rsum (map (fun e => Rabs ((snd e - fst e) / 2)) lim)). { induction lim; cbn [map Rsum]; [lra|]. assert (P := Rabs_pos ((snd a - fst a) / 2)). lra. }
    split; [|lra]. clear G. induction lim as [|e lim IH]; constructor; cbn [map Rsum].
    - assert (G : 0 <= Rsum (map (fun e => Rabs ((snd e - fst e) / 2)) lim)). { clear. induction lim; cbn [map Rsum]; [lra|]. assert (P := Rabs_pos ((snd a - fst a) / 2)). lra. } lra.
    - eapply List.Forall_impl; [|exact IH]. cbn. intros x Hx. assert (P := Rabs_pos ((snd e - fst e) / 2)). lra. }
  destruct HM as (F & PM). intros x Hx eps He. exists (eps / M). split; [apply Rdiv_lt_0_compat; auto|]. intros y _ Hc. clear Hx. unfold box_map. clearbody M. revert lim F. induction Hc as [|s t y x H Hc IH]; intros [|e lim] F; cbn; try constructor.
  - cbn [fst snd]. inversion F; subst. match goal with |- Rabs ?z < _ => replace z with ((snd e - fst e) / 2 * (s - t)) by ring end. rewrite Rabs_mult. assert (P := Rabs_pos (s - t)). assert (Q := Rabs_pos ((snd e - fst e) / 2)).
    apply Rle_lt_trans with (M * Rabs (s - t)); [apply Rmult_le_compat_r; lra|]. replace eps with (M * (eps / M)) by (field; lra). apply Rmult_lt_compat_l; auto.
  - apply IH. inversion F; auto.
Qed.
Lemma polyfun_box lim d p : mp_ok (length lim) d p -> polyfun (length lim) d (fun x => mpeval p (box_map lim x)).
Proof.
  intros Hp. destruct (box_coords (length lim) lim eq_refl) as (L & HL & HL1 & HLe). apply (polyfun_ext _ _ (fun x => mpeval p (map (fun l => l x) L))); [intros x Hx; rewrite HLe; auto|]. apply (polyfun_comp _ (length lim)); auto. apply polyfun_mpeval. auto.
Qed.
(** *** balls *)
Lemma shifted_cons c1 c r t y : shifted (c1 :: c) r (t :: y) = (c1 + r * t) :: shifted c r y.
Proof. reflexivity. Qed.
Lemma ball_at_translate c : forall r f, ball_int_at c r f = ball_int (length c) r (fun y => f (shifted c 1 y)).
Proof.
  induction c as [|c1 c IH]; intros r f; cbn [ball_int_at ball_int length]; [reflexivity|].
  replace (c1 - r) with (1 * - r + c1) by ring. replace (c1 + r) with (1 * r + c1) by ring. rewrite RInt_lin by lra. apply RInt_ext. intros t _. rewrite Rmult_1_l, IH. replace (1 * t + c1 - c1) with t by ring. apply ball_int_ext. intros y _. rewrite shifted_cons. do 2 f_equal. ring.
Qed.
Definition bs r x := sqrt (r ^ 2 - x ^ 2).
Lemma ball_range r : 0 <= r <= 1 -> -1 <= - r /\ - r <= r /\ r <= 1. Proof. intros; lra. Qed.
Lemma ball_next r x : 0 <= r <= 1 -> - r <= x <= r -> 0 <= bs r x <= 1.
Proof. intros Hr Hx. unfold bs. split; [apply sqrt_pos|]. rewrite <- sqrt_1. apply sqrt_le_1_alt. nra. Qed.
Lemma ball_inner_cont n g : ucont (S n) g -> continuous_on (-1) 1 (fun x => ball_int n (sqrt (1 ^ 2 - x ^ 2)) (fun xs => g (x :: xs))).
Proof.
  intros U. destruct (iter_all (fun r => - r) (fun r => r) bs ball_range ball_next (fun m d r p Hr => ball_polys m d r p Hr) n) as (M & L & O).
  assert (K := inner_cont (fun r => - r) (fun r => r) bs ball_range ball_next (fun m d r p Hr => ball_polys m d r p Hr) n 1 g M L O ltac:(lra) U). cbv beta in K.
  eapply continuous_on_ext; [|exact K]. intros x _. cbv beta. unfold bs at 1. symmetry. apply (ball_iter n (sqrt (1 ^ 2 - x ^ 2))).
Qed.
Lemma ucont_scaled n c g : -1 <= c <= 1 -> ucont n g -> ucont n (fun y => g (map (Rmult c) y)).
Proof.
  intros H U eps He. destruct (U eps He) as (d & Hd & K). exists d. split; auto. intros x y Hx Hy Hc. apply K; try (apply in_cube_scale; auto). clear - H Hc Hd. induction Hc as [|a b x y H0 Hc IH]; cbn; constructor; auto.
  replace (c * a - c * b) with (c * (a - b)) by ring. rewrite Rabs_mult. assert (Rabs c <= 1) by (apply Rabs_le; lra). assert (0 <= Rabs (a - b)) by apply Rabs_pos. assert (0 <= Rabs c) by apply Rabs_pos. nra.
Qed.
Lemma ball_scale_cont n : forall rho h, 0 < rho -> ucont n (fun y => h (map (Rmult rho) y)) -> ball_int n rho h = rho ^ n * ball_int n 1 (fun y => h (map (Rmult rho) y)).
Proof.
  induction n as [|n IH]; intros rho h Hr U; cbn [ball_int pow]; [cbn; ring|].
  set (g := fun y => h (map (Rmult rho) y)) in *.
  match goal with |- RInt ?F _ _ = _ => replace (RInt F (- rho) rho) with (RInt F (rho * -1 + 0) (rho * 1 + 0)) by (f_equal; ring) end. rewrite RInt_lin by lra.
  rewrite (RInt_ext _ (fun t => scal (rho * rho ^ n) (ball_int n (sqrt (1 * (1 * 1) - t ^ 2)) (fun xs => g (t :: xs))))).
  - rewrite (RInt_scal (V := R_CompleteNormedModule)); [reflexivity|]. apply continuous_on_ex_RInt; [lra|]. apply (ball_inner_cont n g U).
  - intros t Ht. rewrite Rmin_left, Rmax_right in Ht by lra. replace (1 * (1 * 1) - t ^ 2) with (1 - t ^ 2) by ring. rewrite Rplus_0_r.
    assert (P : 0 < 1 - t ^ 2) by nra. set (s := sqrt (1 - t ^ 2)). assert (Ps : 0 < s) by (apply sqrt_lt_R0; auto). assert (Hs : s <= 1) by (unfold s; rewrite <- sqrt_1 at 2; apply sqrt_le_1_alt; nra).
    replace (sqrt (rho * (rho * 1) - rho * t * (rho * t * 1))) with (rho * s).
    2: { replace (rho * (rho * 1) - rho * t * (rho * t * 1)) with (rho ^ 2 * (1 - t ^ 2)) by ring. rewrite sqrt_mult by nra. rewrite sqrt_pow2 by lra. reflexivity. }
    assert (V : ucont n (fun xs => g (t :: map (Rmult s) xs))) by (apply (ucont_scaled n s (fun xs => g (t :: xs))); [lra|]; apply ucont_slice; [lra|exact U]).
    assert (E : forall y, h (rho * t :: map (Rmult (rho * s)) y) = g (t :: map (Rmult s) y)) by (intros y; unfold g; cbn [map]; rewrite map_map; do 2 f_equal; apply map_ext; intros; ring).
    rewrite (IH (rho * s) (fun xs : point => h (rho * t :: xs))); [|nra|apply (ucont_ext _ (fun xs => g (t :: map (Rmult s) xs))); auto].
    rewrite (IH s (fun xs : point => g (t :: xs)) Ps V). rewrite (ball_int_ext n 1 _ (fun y : point => g (t :: map (Rmult s) y))) by (intros; apply E). unfold scal. cbn -[ball_int pow]. unfold mult. cbn -[ball_int pow]. rewrite Rpow_mult_distr. ring.
Qed.
Lemma shifted_shift c r : forall y, shifted c r y = shifted c 1 (map (Rmult r) y).
Proof. unfold shifted. induction c as [|c1 c IH]; intros [|t y]; cbn [List.combine map fst snd]; auto. rewrite IH. f_equal. ring. Qed.
Lemma dist2_shifted c r : forall y, length y = length c -> dist2 c (shifted c r y) = r ^ 2 * norm2 y.
Proof.
  unfold dist2, shifted, norm2. induction c as [|c1 c IH]; intros [|t y] L; try discriminate; cbn [List.combine map Rsum fst snd]; [ring|]. rewrite IH by (injection L; auto). ring.
Qed.
Lemma shifted_len c r y : length y = length c -> length (shifted c r y) = length c.
Proof. intros L. unfold shifted. rewrite map_length, combine_length. lia. Qed.
Lemma shifted_ball c r y : in_ball (length c) y -> in_ball_at c r (shifted c r y).
Proof.
  intros [L H]. split; [apply shifted_len; auto|]. rewrite dist2_shifted by auto. fold (norm2 y) in H. assert (0 <= r ^ 2) by apply pow2_ge_0. nra.
Qed.
Lemma shifted_sphere c r y : on_sphere (length c) y -> on_sphere_at c r (shifted c r y).
Proof. intros [L H]. split; [apply shifted_len; auto|]. rewrite dist2_shifted by auto. fold (norm2 y) in H. rewrite H. ring. Qed.
Lemma shifted_cont c r (D : point -> Prop) : map_cont D (shifted c r).
Proof.
  intros x _ eps He. exists (eps / (Rabs r + 1)). assert (P := Rabs_pos r). split; [apply Rdiv_lt_0_compat; lra|]. intros y _ Hc. unfold shifted. revert c. induction Hc as [|s t y x H Hc IH]; intros [|c1 c]; cbn; try constructor; [|apply IH].
  replace (c1 + r * s - (c1 + r * t)) with (r * (s - t)) by ring. rewrite Rabs_mult. assert (Q := Rabs_pos (s - t)).
  apply Rle_lt_trans with ((Rabs r + 1) * Rabs (s - t)); [nra|]. replace eps with ((Rabs r + 1) * (eps / (Rabs r + 1))) by (field; lra). apply Rmult_lt_compat_l; lra.
Qed.
Lemma ball_at_ext c : forall r f g, 0 <= r -> (forall x, in_ball_at c r x -> f x = g x) -> ball_int_at c r f = ball_int_at c r g.
Proof.
  induction c as [|c1 c IH]; intros r f g Hr H; cbn [ball_int_at]; [apply H; split; [reflexivity|unfold dist2; cbn; nra]|]. apply RInt_ext. intros t Ht. rewrite Rmin_left, Rmax_right in Ht by lra. apply IH; [apply sqrt_pos|].
  intros x [L D]. apply H. split; [cbn; congruence|]. unfold dist2 in *. cbn [List.combine map Rsum fst snd]. rewrite pow2_sqrt in D by nra. lra.
Qed.
Definition unshift (c : point) (r : R) (x : point) : point := map (fun ab => (snd ab - fst ab) / r) (List.combine c x).
Lemma unshift_shifted c r : r <> 0 -> forall y, length y = length c -> unshift c r (shifted c r y) = y.
Proof. intros Hr. unfold unshift, shifted. induction c as [|c1 c IH]; intros [|t y] L; try discriminate; cbn [List.combine map fst snd]; auto. rewrite IH by (injection L; auto). f_equal. field. auto. Qed.
Lemma shifted_unshift c r : r <> 0 -> forall x, length x = length c -> shifted c r (unshift c r x) = x.
Proof. intros Hr. unfold unshift, shifted. induction c as [|c1 c IH]; intros [|t y] L; try discriminate; cbn [List.combine map fst snd]; auto. rewrite IH by (injection L; auto). f_equal. field. auto. Qed.
Lemma unshift_len c r x : length x = length c -> length (unshift c r x) = length c.
Proof. intros L. unfold unshift. rewrite map_length, combine_length. lia. Qed.
Lemma unshift_ball c r x : 0 < r -> in_ball_at c r x -> in_ball (length c) (unshift c r x).
Proof.
  intros Hr [L H]. split; [apply unshift_len; auto|]. change (norm2 (unshift c r x) <= 1). assert (E := dist2_shifted c r (unshift c r x) (unshift_len c r x L)). rewrite shifted_unshift in E by (auto; lra). rewrite E in H. assert (0 < r ^ 2) by nra. nra.
Qed.
Lemma ball_change c r f : 0 <= r -> c <> [] -> continuous_in (in_ball_at c r) f -> ball_int_at c r f = r ^ length c * ball_int (length c) 1 (fun y => f (shifted c r y)).
Proof.
  intros Hr Hc C. destruct (Rle_lt_or_eq_dec 0 r Hr) as [P| <- ].
  2: { destruct c as [|c1 c]; [tauto|]. cbn [ball_int_at length]. rewrite pow_ne_zero by lia. rewrite Rminus_0_r, Rplus_0_r, RInt_point. unfold zero. cbn. ring. }
  set (n := length c) in *. assert (G : continuous_in (in_ball n) (fun y => f (shifted c r y))) by (apply (continuous_comp (in_ball n) (in_ball_at c r) (shifted c r)); auto; [apply shifted_ball|apply shifted_cont]).
  assert (U := ball_extend n _ G). set (f' := fun x => f (shifted c r (to_ball (unshift c r x)))).
  rewrite (ball_at_ext c r f f' Hr). 2: { intros x Hx. unfold f'. rewrite (to_ball_id n) by (apply unshift_ball; auto). rewrite shifted_unshift; [auto|lra|apply Hx]. }
  rewrite ball_at_translate. fold n. assert (E : forall y, length y = n -> f' (shifted c 1 (map (Rmult r) y)) = f (shifted c r (to_ball y))) by (intros y L; rewrite <- shifted_shift; unfold f'; rewrite unshift_shifted by (auto; lra); auto).
  rewrite (ball_scale_cont n r); auto.
  - f_equal. apply ball_ext. intros y Hy. rewrite E by apply Hy. rewrite (to_ball_id n) by auto. auto.
  - eapply ucont_ext; [|exact U]. intros y [L _]. cbv beta. rewrite E by auto. auto.
Qed.
(** *** simplices *)
Lemma bary_map_in n (V : list point) l : length V = (n + 1)%nat -> List.Forall (fun v : point => length v = n) V -> in_bary n l -> in_simplex n V (bary_map V l).
Proof. intros HV F H. exists l. split; auto. unfold bary_map. destruct V as [|v V]; [cbn in HV; lia|]. inversion F; subst. reflexivity. Qed.
Lemma bary_map_cont n (V : list point) (D : point -> Prop) : (forall l, D l -> in_cube n l) -> map_cont D (bary_map V).
Proof.
  intros HD x Hx eps He. unfold bary_map. set (ks := seq 0 (length (hd [] V))).
  assert (G : forall k, exists d, 0 < d /\ forall y, D y -> close d y x -> Rabs (Rsum (map (fun e => fst e * nth k (snd e) 0) (List.combine y V)) - Rsum (map (fun e => fst e * nth k (snd e) 0) (List.combine x V))) < eps).
  { intros k. assert (U : exists d, 0 < d /\ forall y, close d y x -> Rabs (Rsum (map (fun e => fst e * nth k (snd e) 0) (List.combine y V)) - Rsum (map (fun e => fst e * nth k (snd e) 0) (List.combine x V))) < eps).
    { clear HD Hx. revert V eps He ks. induction x as [|t x IH]; intros V eps He ks.
      - exists 1. split; [lra|]. intros y Hc. inversion Hc; subst. cbn. rewrite Rminus_eq_0, Rabs_R0. auto.
      - destruct V as [|v V]; [exists 1; split; [lra|]; intros y Hc; inversion Hc; subst; cbn; rewrite Rminus_eq_0, Rabs_R0; auto|].
        destruct (IH V (eps / 2) ltac:(lra)) as (d & Hd & K). assert (P := Rabs_pos (nth k v 0)). exists (Rmin d (eps / 2 / (Rabs (nth k v 0) + 1))). split; [apply Rmin_pos; auto; apply Rdiv_lt_0_compat; lra|].
        intros y Hc. inversion Hc as [|s ? y' ? H0 H1]; subst. cbn [List.combine map Rsum fst snd]. specialize (K y' (close_le _ _ _ _ (Rmin_l _ _) H1)).
        match goal with |- Rabs (?a + ?b - (?c + ?d)) < _ => replace (a + b - (c + d)) with ((a - c) + (b - d)) by ring end. eapply Rle_lt_trans; [apply Rabs_triang|].
        replace (s * nth k v 0 - t * nth k v 0) with ((s - t) * nth k v 0) by ring. rewrite Rabs_mult. assert (Q : Rabs (s - t) < eps / 2 / (Rabs (nth k v 0) + 1)) by (eapply Rlt_le_trans; [exact H0|apply Rmin_r]).
        assert (T : Rabs (s - t) * (Rabs (nth k v 0) + 1) < eps / 2) by (replace (eps / 2) with (eps / 2 / (Rabs (nth k v 0) + 1) * (Rabs (nth k v 0) + 1)) by (field; lra); apply Rmult_lt_compat_r; lra). assert (0 <= Rabs (s - t)) by apply Rabs_pos. nra. }
    destruct U as (d & Hd & K). exists d. split; auto. }
  clearbody ks. induction ks as [|k ks IH]; [exists 1; split; [lra|]; intros; constructor|]. destruct IH as (d1 & H1 & K1). destruct (G k) as (d2 & H2 & K2). exists (Rmin d1 d2). split; [apply Rmin_pos; auto|]. intros y Hy Hc. cbn [map]. constructor.
  - apply K2; auto. apply (close_le _ _ _ _ (Rmin_r _ _) Hc).
  - apply K1; auto. apply (close_le _ _ _ _ (Rmin_l _ _) Hc).
Qed.
Lemma bary_cube n l : in_bary n l -> in_cube (S n) l.
Proof.
  intros (L & F & S). split; auto. clear L. assert (S' : Rsum l <= 1) by lra. clear S. induction F as [|t l Ht F IH]; constructor; cbn [Rsum] in S'; assert (P := Rsum_ge0 _ F); [lra|]. apply IH. lra.
Qed.
Lemma simplex_change n (V : list point) f : length V = (n + 1)%nat -> List.Forall (fun v : point => length v = n) V ->
  simplex_integral n V f = Rabs (det n (edges V)) / INR (fact n) * simplex_mean n (fun l => f (bary_map V l)).
Proof.
  intros HV F. unfold simplex_integral, simplex_mean. unfold Rdiv. rewrite <- Rmult_assoc. rewrite (Rmult_assoc _ (/ _) (INR _)), Rinv_l, Rmult_1_r by apply INR_fact_neq_0. f_equal. apply simplex_int_ext. intros x Hx.
  destruct V as [|p0 V]; [cbn in HV; lia|]. cbn [hd]. rewrite (bary_lincomb n) by (auto; cbn in HV; lia). auto.
Qed.
