(** Moments of the unit sphere and of the ball. *)
From Coq Require Import Reals List Arith Bool Lia Lra Permutation.
From Coquelicot Require Import Coquelicot.
From Verif Require Import Spec RsumLemmas IntegralSpec IntegralProofs IntegralPoly SphereSpec.
Set Bullet Behavior "Strict Subproofs".
Import ListNotations.
Open Scope R_scope.

(* ------------------------------------------------------------------ W a c = int_0^pi cos^a sin^c *)
Definition W (a c : nat) : R := RInt (fun t => cos t ^ a * sin t ^ c) 0 PI.
Lemma W_cont a c t : continuous (fun t : R => cos t ^ a * sin t ^ c) t.
Proof. apply (ex_derive_continuous (fun t : R => cos t ^ a * sin t ^ c)). auto_derive. auto. Qed.
Lemma is_RInt_W a c : is_RInt (fun t => cos t ^ a * sin t ^ c) 0 PI (W a c).
Proof. apply (RInt_correct (V := R_CompleteNormedModule)). apply (ex_RInt_continuous (V := R_CompleteNormedModule)). intros y _. apply W_cont. Qed.
Lemma RInt_uniq (f : R -> R) a b (l l' : R) : is_RInt f a b l -> is_RInt f a b l' -> l = l'.
Proof.
  intros H H'. rewrite <- (is_RInt_unique (V := R_CompleteNormedModule) f a b l H).
  exact (is_RInt_unique (V := R_CompleteNormedModule) f a b l' H').
Qed.
Lemma W_step_cos a c : INR (a + c + 2) * W (a + 2) c = INR (a + 1) * W a c.
Proof.
  assert (H : is_RInt (fun t => INR (a + c + 2) * (cos t ^ (a + 2) * sin t ^ c) - INR (a + 1) * (cos t ^ a * sin t ^ c)) 0 PI
    (cos PI ^ (a + 1) * sin PI ^ (c + 1) - cos 0 ^ (a + 1) * sin 0 ^ (c + 1))).
  { apply (is_RInt_derive (V := R_CompleteNormedModule) (fun t => cos t ^ (a + 1) * sin t ^ (c + 1))).
    - intros t _. auto_derive; auto. rewrite !Nat.add_1_r. cbn [pred].
      replace (a + 2)%nat with (S (S a)) by lia. replace (a + c + 2)%nat with (S (a + S c)) by lia. rewrite !S_INR, plus_INR, S_INR. cbn [pow].
      pose proof (sin2_cos2 t) as E. unfold Rsqr in E. 
      replace (sin t * sin t ^ c) with (sin t * sin t ^ c) by ring.
      assert (E2 : sin t * sin t = 1 - cos t * cos t) by lra.
      transitivity ((INR c + 1) * cos t ^ a * cos t * cos t * sin t ^ c - (INR a + 1) * cos t ^ a * sin t ^ c * (sin t * sin t)); [ring|]. rewrite E2. ring.
    - intros t _. apply (ex_derive_continuous (fun t : R => INR (a + c + 2) * (cos t ^ (a + 2) * sin t ^ c) - INR (a + 1) * (cos t ^ a * sin t ^ c))). auto_derive. auto. }
  rewrite sin_PI, sin_0, !Nat.add_1_r in H. rewrite (pow_i (S c)) in H by lia.
  assert (G : is_RInt (fun t => INR (a + c + 2) * (cos t ^ (a + 2) * sin t ^ c) - INR (S a) * (cos t ^ a * sin t ^ c)) 0 PI
    (INR (a + c + 2) * W (a + 2) c - INR (S a) * W a c)).
  { apply (is_RInt_minus (V := R_NormedModule)); apply is_RInt_scalR; apply is_RInt_W. }
  rewrite Nat.add_1_r. assert (E := RInt_uniq _ _ _ _ _ G H). lra.
Qed.
Lemma W_step_sin a c : INR (a + c + 2) * W a (c + 2) = INR (c + 1) * W a c.
Proof.
  assert (E : W a (c + 2) = W a c - W (a + 2) c).
  { assert (G : is_RInt (fun t => cos t ^ a * sin t ^ c - cos t ^ (a + 2) * sin t ^ c) 0 PI (W a c - W (a + 2) c)).
    { apply (is_RInt_minus (V := R_NormedModule)); apply is_RInt_W. }
    refine (RInt_uniq _ _ _ _ _ (is_RInt_W a (c + 2)) _). eapply (is_RInt_ext (V := R_NormedModule)); [|exact G].
    intros t _. match goal with |- ?u = ?v => change (@eq R u v) end.
    pose proof (sin2_cos2 t) as E. unfold Rsqr in E. rewrite !pow_add. cbn [pow].
    transitivity (cos t ^ a * sin t ^ c * (1 - cos t * cos t)); [ring|]. replace (1 - cos t * cos t) with (sin t * sin t) by lra. ring. }
  rewrite E, Rmult_minus_distr_l, W_step_cos, <- Rmult_minus_distr_r. f_equal. rewrite !plus_INR. cbn. ring.
Qed.
Lemma W_1 c : W 1 c = 0.
Proof.
  assert (H : is_RInt (fun t => INR (c + 1) * (cos t ^ 1 * sin t ^ c)) 0 PI (sin PI ^ (c + 1) - sin 0 ^ (c + 1))).
  { apply (is_RInt_derive (V := R_CompleteNormedModule) (fun t => sin t ^ (c + 1))).
    - intros t _. auto_derive; auto. rewrite !Nat.add_1_r. cbn [pred]. rewrite S_INR. ring.
    - intros t _. apply (ex_derive_continuous (fun t : R => INR (c + 1) * (cos t ^ 1 * sin t ^ c))). auto_derive. auto. }
  rewrite sin_PI, sin_0, !Nat.add_1_r, !pow_i in H by lia.
  assert (E := RInt_uniq _ _ _ _ _ (is_RInt_scalR _ _ _ _ _ (is_RInt_W 1 c)) H). rewrite Rminus_0_r in E.
  apply Rmult_integral in E. destruct E as [E|E]; auto. exfalso. rewrite S_INR in E. pose proof (pos_INR c). lra.
Qed.
Lemma W_odd a : forall c, Nat.odd a = true -> W a c = 0.
Proof.
  induction a as [a IH] using (well_founded_induction lt_wf). intros c H. destruct a as [|[|a]]; [discriminate|apply W_1|].
  rewrite Nat.odd_succ_succ in H. specialize (IH a ltac:(lia) c H). assert (E := W_step_cos a c). rewrite IH, Rmult_0_r in E.
  apply Rmult_integral in E. destruct E as [E|E]; [|replace (S (S a)) with (a + 2)%nat by lia; auto].
  exfalso. apply (not_0_INR (a + c + 2)); [lia|auto].
Qed.
Lemma W_00 : W 0 0 = PI.
Proof.
  refine (RInt_uniq _ _ _ _ _ (is_RInt_W 0 0) _). apply (is_RInt_ext (V := R_NormedModule) (fun _ => 1)); [intros; match goal with |- ?u = ?v => change (@eq R u v) end; cbn; ring|].
  assert (E := is_RInt_const (V := R_NormedModule) 0 PI 1). replace (scal (PI - 0) (1 : R_NormedModule)) with PI in E; auto.
  unfold scal; cbn; unfold mult; cbn. ring.
Qed.
Lemma W_01 : W 0 1 = 2.
Proof.
  refine (RInt_uniq _ _ _ _ _ (is_RInt_W 0 1) _).
  replace 2 with ((- cos PI) - (- cos 0)) by (rewrite cos_PI, cos_0; ring).
  apply (is_RInt_derive (V := R_CompleteNormedModule) (fun t => - cos t)).
  - intros t _. auto_derive; auto. ring.
  - intros t _. apply W_cont.
Qed.
Lemma W_0_pos c : 0 < W 0 c.
Proof.
  induction c as [c IH] using (well_founded_induction lt_wf). destruct c as [|[|c]]; [rewrite W_00; apply PI_RGT_0|rewrite W_01; lra|].
  specialize (IH c ltac:(lia)). assert (E := W_step_sin 0 c). replace (S (S c)) with (c + 2)%nat by lia.
  assert (0 < INR (0 + c + 2)) by (apply lt_0_INR; lia). assert (0 < INR (c + 1)) by (apply lt_0_INR; lia).
  assert (0 < INR (0 + c + 2) * W 0 (c + 2)) by (rewrite E; apply Rmult_lt_0_compat; auto).
  apply (Rmult_lt_reg_l (INR (0 + c + 2))); auto. lra.
Qed.

(* ------------------------------------------------------------------ closed forms *)
(** (a-1)!! for even a *)
Fixpoint df (a : nat) : R := match a with O => 1 | S O => 1 | S (S b) => INR (b + 1) * df b end.
(** x (x+2) (x+4) ... (m factors) *)
Fixpoint rise (x : R) (m : nat) : R := match m with O => 1 | S m' => x * rise (x + 2) m' end.
Lemma rise_pos x m : 0 < x -> 0 < rise x m.
Proof. revert x. induction m as [|m IH]; intros x H; cbn; [lra|]. apply Rmult_lt_0_compat; auto. apply IH. lra. Qed.
Lemma rise_S x m : rise x (S m) = rise x m * (x + 2 * INR m).
Proof.
  revert x. induction m as [|m IH]; intros x; [cbn; ring|]. change (rise x (S (S m))) with (x * rise (x + 2) (S m)). rewrite IH.
  change (rise x (S m)) with (x * rise (x + 2) m). rewrite S_INR. ring.
Qed.
Lemma rise_add x m i : rise x (m + i) = rise x m * rise (x + 2 * INR m) i.
Proof.
  revert x. induction m as [|m IH]; intros x; cbn [Nat.add rise].
  - rewrite Rmult_0_r, Rplus_0_r. ring.
  - rewrite IH, S_INR. replace (x + 2 + 2 * INR m) with (x + 2 * (INR m + 1)) by ring. ring.
Qed.
Lemma W_even i : forall c, W (2 * i) c * rise (INR c + 2) i = df (2 * i) * W 0 c.
Proof.
  induction i as [|i IH]; intros c; [cbn; ring|]. rewrite rise_S. replace (2 * S i)%nat with (2 * i + 2)%nat by lia.
  assert (E := W_step_cos (2 * i) c). replace (df (2 * i + 2)) with (INR (2 * i + 1) * df (2 * i)) by (replace (2 * i + 2)%nat with (S (S (2 * i))) by lia; reflexivity).
  replace (INR (2 * i + c + 2)) with (INR c + 2 + 2 * INR i) in E by (rewrite !plus_INR, mult_INR; cbn; ring).
  transitivity ((INR c + 2 + 2 * INR i) * W (2 * i + 2) c * rise (INR c + 2) i); [ring|]. rewrite E.
  rewrite Rmult_assoc, IH. ring.
Qed.
Lemma W_sin m : forall c, W 0 (c + 2 * m) * rise (INR c + 2) m = rise (INR c + 1) m * W 0 c.
Proof.
  induction m as [|m IH]; intros c; [cbn; rewrite Nat.add_0_r; ring|]. rewrite !rise_S.
  replace (c + 2 * S m)%nat with ((c + 2 * m) + 2)%nat by lia. assert (E := W_step_sin 0 (c + 2 * m)).
  replace (INR (0 + (c + 2 * m) + 2)) with (INR c + 2 + 2 * INR m) in E by (rewrite !plus_INR, mult_INR; cbn; ring).
  replace (INR (c + 2 * m + 1)) with (INR c + 1 + 2 * INR m) in E by (rewrite !plus_INR, mult_INR; cbn; ring).
  transitivity ((INR c + 2 + 2 * INR m) * W 0 (c + 2 * m + 2) * rise (INR c + 2) m); [ring|]. rewrite E.
  rewrite Rmult_assoc, IH. ring.
Qed.

(* ------------------------------------------------------------------ sphere *)
Fixpoint sph (k : list nat) : R :=
  match k with
  | [] => 0
  | a :: k' => match k' with [] => 1 + (-1) ^ a | _ :: _ => W a (length k' - 1 + tdeg k') * sph k' end
  end.
Lemma mono_scale s k : forall y, length y = length k -> mono k (map (Rmult s) y) = s ^ tdeg k * mono k y.
Proof.
  induction k as [|a k IH]; intros [|x y] H; try discriminate; [cbn; ring|]. cbn [map mono]. rewrite IH by (cbn in H; lia).
  change (tdeg (a :: k)) with (a + tdeg k)%nat. rewrite pow_add, Rpow_mult_distr. ring.
Qed.
Lemma sphere_int_ext n : forall f g, (forall x, length x = n -> f x = g x) -> sphere_int n f = sphere_int n g.
Proof.
  induction n as [|[|n] IH]; intros f g H; auto.
  - cbn. rewrite !H; auto.
  - change (RInt (fun t => sin t ^ n * sphere_int (S n) (fun y => f (cos t :: map (Rmult (sin t)) y))) 0 PI = RInt (fun t => sin t ^ n * sphere_int (S n) (fun y => g (cos t :: map (Rmult (sin t)) y))) 0 PI).
    apply RInt_ext. intros t _. f_equal. apply IH. intros y Hy. apply H. cbn. rewrite map_length. auto.
Qed.
Lemma sphere_int_SS n f : sphere_int (S (S n)) f = RInt (fun t => sin t ^ n * sphere_int (S n) (fun y => f (cos t :: map (Rmult (sin t)) y))) 0 PI.
Proof. reflexivity. Qed.
Theorem sphere_int_mpeval n : forall p, List.Forall (fun ck => length (snd ck) = S n) p ->
  sphere_int (S n) (mpeval p) = Rsum (map (fun ck => fst ck * sph (snd ck)) p).
Proof.
  induction n as [|n IH]; intros p Hp; rewrite Forall_forall in Hp.
  - cbn [sphere_int]. unfold mpeval. rewrite <- Rsum_map_plus. apply Rsum_map_ext. intros [c k] Hk. apply Hp in Hk.
    destruct k as [|a [|]]; try discriminate. cbn [snd fst mono sph]. rewrite pow1. ring.
  - rewrite sphere_int_SS.
    rewrite (RInt_ext _ (fun t => Rsum (map (fun ck => (fst ck * sph (tl (snd ck))) * (cos t ^ hd 0%nat (snd ck) * sin t ^ (n + tdeg (tl (snd ck))))) p))).
    + rewrite (RInt_Rsum _ (fun ck => (fst ck * sph (tl (snd ck))) * W (hd 0%nat (snd ck)) (n + tdeg (tl (snd ck))))).
      * apply Rsum_map_ext. intros [c k] Hk. apply Hp in Hk. destruct k as [|a [|b k]]; try discriminate. cbn [fst snd tl hd].
        change (sph (a :: b :: k)) with (W a (length (b :: k) - 1 + tdeg (b :: k)) * sph (b :: k)). cbn [snd length] in Hk |- *. 
        replace (S (length k) - 1)%nat with n by lia. ring.
      * intros ck _. apply is_RInt_scalR. apply is_RInt_W.
    + intros t _. rewrite (sphere_int_ext _ _ (mpeval (map (fun ck => (fst ck * cos t ^ hd 0%nat (snd ck) * sin t ^ tdeg (tl (snd ck)), tl (snd ck))) p))).
      * rewrite IH.
        -- rewrite map_map, <- Rsum_map_scal. apply Rsum_map_ext. intros [c k] _. cbn [fst snd]. rewrite pow_add. ring.
        -- apply Forall_forall. intros ck Hc. apply in_map_iff in Hc. destruct Hc as [[c k] [<- Hc]]. cbn [snd].
           apply Hp in Hc. destruct k; [discriminate|]. cbn in *. lia.
      * intros x Hx. unfold mpeval. rewrite map_map. apply Rsum_map_ext. intros [c k] Hk.
        apply Hp in Hk. destruct k as [|a k]; [discriminate|]. cbn [fst snd hd tl mono]. cbn [snd length] in Hk. rewrite mono_scale by lia. ring.
Qed.

(* ------------------------------------------------------------------ closed form of the sphere moments *)
Definition all_even (k : list nat) : Prop := forall a, In a k -> Nat.odd a = false.
Lemma even_half a : Nat.odd a = false -> exists i, a = (2 * i)%nat.
Proof. intros H. assert (E : Nat.even a = true) by (rewrite <- Nat.negb_odd, H; auto). apply Nat.even_spec in E. destruct E as [i E]. exists i. auto. Qed.
Lemma all_even_tdeg k : all_even k -> exists j, tdeg k = (2 * j)%nat.
Proof.
  induction k as [|a k IH]; intros H; [exists 0%nat; auto|]. destruct IH as [j Hj]; [intros b Hb; apply H; right; auto|].
  destruct (even_half a (H a (or_introl eq_refl))) as [i Hi]. exists (i + j)%nat. change (tdeg (a :: k)) with (a + tdeg k)%nat. lia.
Qed.
Lemma not_all_even k : existsb Nat.odd k = false -> all_even k.
Proof. intros H a Ha. destruct (Nat.odd a) eqn:E; auto. rewrite <- H. symmetry. apply existsb_exists. exists a. auto. Qed.
Lemma half_double j : (2 * j / 2)%nat = j.
Proof. rewrite Nat.mul_comm. apply Nat.div_mul. lia. Qed.
Lemma tdeg_repeat0 n : tdeg (repeat 0%nat n) = 0%nat.
Proof. induction n; auto. Qed.
Definition sph0 (n : nat) : R := sph (repeat 0%nat n).
Lemma sph_SS a b k : sph (a :: b :: k) = W a (length k + tdeg (b :: k)) * sph (b :: k).
Proof. change (sph (a :: b :: k)) with (W a (length (b :: k) - 1 + tdeg (b :: k)) * sph (b :: k)). do 2 f_equal. cbn [length]. lia. Qed.
Lemma sph0_SS n : sph0 (S (S n)) = W 0 n * sph0 (S n).
Proof. unfold sph0. cbn [repeat]. rewrite sph_SS. f_equal. f_equal. rewrite repeat_length. change (0%nat :: repeat 0%nat n) with (repeat 0%nat (S n)). rewrite tdeg_repeat0. lia. Qed.
Lemma sph0_pos n : 0 < sph0 (S n).
Proof. induction n as [|n IH]; [unfold sph0; cbn; lra|]. rewrite sph0_SS. apply Rmult_lt_0_compat; auto. apply W_0_pos. Qed.
Lemma sph_odd k : existsb Nat.odd k = true -> sph k = 0.
Proof.
  induction k as [|a [|b k] IH]; intros H; [discriminate| |].
  - cbn [existsb] in H. rewrite orb_false_r in H. cbn [sph]. rewrite <- Nat.negb_even in H. apply negb_true_iff in H.
    apply Nat.odd_spec in H || idtac. assert (Nat.odd a = true) by (rewrite <- Nat.negb_even, H; auto).
    apply Nat.odd_spec in H0. destruct H0 as [i ->]. rewrite Nat.add_1_r. rewrite pow_1_odd. ring.
  - rewrite sph_SS. change (existsb Nat.odd (a :: b :: k)) with (Nat.odd a || existsb Nat.odd (b :: k)) in H.
    apply orb_true_iff in H. destruct H as [H|H]; [rewrite W_odd by auto; ring|rewrite IH by auto; ring].
Qed.
Lemma df_rise i : df (2 * i) = rise 1 i.
Proof.
  induction i as [|i IH]; auto. rewrite rise_S, <- IH. replace (2 * S i)%nat with (S (S (2 * i))) by lia.
  cbn [df]. rewrite Nat.add_1_r, S_INR, mult_INR. cbn [INR]. ring.
Qed.
Lemma sph_even k : k <> [] -> all_even k -> sph k * rise (INR (length k)) (tdeg k / 2) = Rprod (map df k) * sph0 (length k).
Proof.
  induction k as [|a [|b k] IH]; intros Hne H; [congruence| |].
  - destruct (even_half a (H a (or_introl eq_refl))) as [i ->]. change (tdeg [(2 * i)%nat]) with (2 * i + 0)%nat. rewrite Nat.add_0_r, half_double.
    cbn [map Rprod]. rewrite df_rise. unfold sph0. cbn [length repeat sph]. rewrite pow_1_even. cbn [INR pow]. ring.
  - assert (H' : all_even (b :: k)) by (intros x Hx; apply H; right; auto). specialize (IH ltac:(discriminate) H').
    destruct (even_half a (H a (or_introl eq_refl))) as [i ->]. destruct (all_even_tdeg _ H') as [j Hj].
    change (tdeg ((2 * i)%nat :: b :: k)) with (2 * i + tdeg (b :: k))%nat. rewrite sph_SS. rewrite Hj in IH |- *.
    replace (2 * i + 2 * j)%nat with (2 * (j + i))%nat by lia. rewrite half_double in IH |- *. rewrite rise_add.
    set (m := length k) in *. change (length ((2 * i)%nat :: b :: k)) with (S (S m)). change (length (b :: k)) with (S m) in IH.
    rewrite sph0_SS. assert (E1 := W_even i (m + 2 * j)). assert (E2 := W_sin j m).
    replace (INR (m + 2 * j) + 2) with (INR (S (S m)) + 2 * INR j) in E1 by (rewrite !S_INR, plus_INR, mult_INR; cbn; ring).
    replace (INR m + 2) with (INR (S (S m))) in E2 by (rewrite !S_INR; ring). replace (INR m + 1) with (INR (S m)) in E2 by (rewrite !S_INR; ring).
    change (map df ((2 * i)%nat :: b :: k)) with (df (2 * i) :: map df (b :: k)). cbn [Rprod]. fold (Rprod (map df (b :: k))).
    set (P := Rprod (map df (b :: k))) in *. set (s := sph (b :: k)) in *.
    transitivity (W (2 * i) (m + 2 * j) * rise (INR (S (S m)) + 2 * INR j) i * rise (INR (S (S m))) j * s); [ring|]. rewrite E1.
    transitivity (df (2 * i) * (W 0 (m + 2 * j) * rise (INR (S (S m))) j) * s); [ring|]. rewrite E2.
    transitivity (df (2 * i) * (s * rise (INR (S m)) j) * W 0 m); [ring|]. rewrite IH. ring.
Qed.

(* ------------------------------------------------------------------ ball *)
Fixpoint bal (k : list nat) : R := match k with [] => 1 | a :: k' => W a (length k' + tdeg k' + 1) * bal k' end.
Definition bal0 (n : nat) : R := bal (repeat 0%nat n).
Lemma bal0_S n : bal0 (S n) = W 0 (n + 1) * bal0 n.
Proof. unfold bal0. cbn [repeat bal]. rewrite repeat_length, tdeg_repeat0, Nat.add_0_r. auto. Qed.
Lemma bal0_pos n : 0 < bal0 n.
Proof. induction n as [|n IH]; [unfold bal0; cbn; lra|]. rewrite bal0_S. apply Rmult_lt_0_compat; auto. apply W_0_pos. Qed.
Lemma bal_odd k : existsb Nat.odd k = true -> bal k = 0.
Proof.
  induction k as [|a k IH]; intros H; [discriminate|]. cbn [bal]. cbn [existsb] in H.
  apply orb_true_iff in H. destruct H as [H|H]; [rewrite W_odd by auto; ring|rewrite IH by auto; ring].
Qed.
Lemma bal_even k : all_even k -> bal k * rise (INR (length k) + 2) (tdeg k / 2) = Rprod (map df k) * bal0 (length k).
Proof.
  induction k as [|a k IH]; intros H; [unfold bal0; cbn; ring|].
  assert (H' : all_even k) by (intros x Hx; apply H; right; auto). specialize (IH H').
  destruct (even_half a (H a (or_introl eq_refl))) as [i ->]. destruct (all_even_tdeg _ H') as [j Hj].
  change (tdeg ((2 * i)%nat :: k)) with (2 * i + tdeg k)%nat. cbn [bal]. rewrite Hj in IH |- *.
  replace (2 * i + 2 * j)%nat with (2 * (j + i))%nat by lia. rewrite half_double in IH |- *. rewrite rise_add.
  set (m := length k) in *. change (length ((2 * i)%nat :: k)) with (S m). rewrite bal0_S.
  assert (E1 := W_even i (m + 2 * j + 1)). assert (E2 := W_sin j (m + 1)).
  replace (m + 1 + 2 * j)%nat with (m + 2 * j + 1)%nat in E2 by lia.
  replace (INR (m + 2 * j + 1) + 2) with (INR (S m) + 2 + 2 * INR j) in E1 by (rewrite !S_INR, !plus_INR, mult_INR; cbn; ring).
  replace (INR (m + 1) + 2) with (INR (S m) + 2) in E2 by (rewrite !S_INR, plus_INR; cbn; ring). replace (INR (m + 1) + 1) with (INR m + 2) in E2 by (rewrite plus_INR; cbn; ring).
  cbn [map Rprod]. fold (Rprod (map df k)). set (P := Rprod (map df k)) in *. set (s := bal k) in *.
  transitivity (W (2 * i) (m + 2 * j + 1) * rise (INR (S m) + 2 + 2 * INR j) i * rise (INR (S m) + 2) j * s); [ring|]. rewrite E1.
  transitivity (df (2 * i) * (W 0 (m + 2 * j + 1) * rise (INR (S m) + 2) j) * s); [ring|]. rewrite E2.
  transitivity (df (2 * i) * (s * rise (INR m + 2) j) * W 0 (m + 1)); [ring|]. rewrite IH. ring.
Qed.
Lemma cap_cont r a e x : continuous (fun x : R => x ^ a * sqrt (r ^ 2 - x ^ 2) ^ e) x.
Proof.
  apply (continuous_mult (fun x : R => x ^ a) (fun x : R => sqrt (r ^ 2 - x ^ 2) ^ e)).
  - apply (ex_derive_continuous (fun x : R => x ^ a)). auto_derive. auto.
  - apply (continuous_comp (fun x : R => sqrt (r ^ 2 - x ^ 2)) (fun y : R => y ^ e)).
    + apply (continuous_comp (fun x : R => r ^ 2 - x ^ 2) sqrt).
      * apply (ex_derive_continuous (fun x : R => r ^ 2 - x ^ 2)). auto_derive. auto.
      * apply continuous_sqrt.
    + apply (ex_derive_continuous (fun y : R => y ^ e)). auto_derive. auto.
Qed.
Lemma is_RInt_cap r a e : 0 <= r -> is_RInt (fun x => x ^ a * sqrt (r ^ 2 - x ^ 2) ^ e) (- r) r (r ^ (a + e + 1) * W a (e + 1)).
Proof.
  intros Hr. set (f := fun x : R => x ^ a * sqrt (r ^ 2 - x ^ 2) ^ e).
  assert (H : is_RInt (fun t => scal (- r * sin t) (f (r * cos t))) PI 0 (RInt f (r * cos PI) (r * cos 0))).
  { apply (is_RInt_comp (V := R_CompleteNormedModule) f (fun t => r * cos t) (fun t => - r * sin t)).
    - intros t _. apply cap_cont.
    - intros t _. split; [auto_derive; auto; ring|]. apply (ex_derive_continuous (fun t : R => - r * sin t)). auto_derive. auto. }
  rewrite cos_PI, cos_0 in H. apply (is_RInt_swap (V := R_NormedModule)) in H.
  assert (G : is_RInt (fun t => - (r ^ (a + e + 1) * (cos t ^ a * sin t ^ (e + 1)))) 0 PI (- (r ^ (a + e + 1) * W a (e + 1)))).
  { apply (is_RInt_opp (V := R_NormedModule)). apply is_RInt_scalR. apply is_RInt_W. }
  assert (E : opp (RInt f (r * -1) (r * 1)) = - (r ^ (a + e + 1) * W a (e + 1))).
  { refine (RInt_uniq _ _ _ _ _ H _). eapply (is_RInt_ext (V := R_NormedModule)); [|exact G].
    intros t Ht. rewrite Rmin_left, Rmax_right in Ht by (pose proof PI_RGT_0; lra).
    match goal with |- ?u = ?v => change (@eq R u v) end. unfold scal; cbn [scal]. change (- (r ^ (a + e + 1) * (cos t ^ a * sin t ^ (e + 1))) = - r * sin t * f (r * cos t)). unfold f.
    assert (Hs : 0 <= sin t) by (apply sin_ge_0; lra).
    replace (r ^ 2 - (r * cos t) ^ 2) with ((r * sin t) ^ 2) by (pose proof (sin2_cos2 t) as Q; unfold Rsqr in Q; replace ((r * sin t) ^ 2) with (r * r * (sin t * sin t)) by ring; replace (sin t * sin t) with (1 - cos t * cos t) by lra; ring).
    rewrite sqrt_pow2 by (apply Rmult_le_pos; auto). rewrite !Rpow_mult_distr, !pow_add. ring. }
  change (- RInt f (r * -1) (r * 1) = - (r ^ (a + e + 1) * W a (e + 1))) in E. replace (r * -1) with (- r) in E by ring. rewrite Rmult_1_r in E.
  replace (r ^ (a + e + 1) * W a (e + 1)) with (RInt f (- r) r) by lra.
  apply (RInt_correct (V := R_CompleteNormedModule)). apply (ex_RInt_continuous (V := R_CompleteNormedModule)). intros y _. apply cap_cont.
Qed.
Lemma ball_int_ext n : forall r f g, (forall x, length x = n -> f x = g x) -> ball_int n r f = ball_int n r g.
Proof.
  induction n as [|n IH]; intros r f g H; [cbn; apply H; auto|]. cbn [ball_int]. apply RInt_ext. intros t _. apply IH.
  intros y Hy. apply H. cbn. lia.
Qed.
Theorem ball_int_mpeval n : forall r p, 0 <= r -> List.Forall (fun ck => length (snd ck) = n) p ->
  ball_int n r (mpeval p) = Rsum (map (fun ck => fst ck * (r ^ (n + tdeg (snd ck)) * bal (snd ck))) p).
Proof.
  induction n as [|n IH]; intros r p Hr Hp; rewrite Forall_forall in Hp.
  - cbn [ball_int]. unfold mpeval. apply Rsum_map_ext. intros [c k] Hk. apply Hp in Hk.
    destruct k; try discriminate. cbn. ring.
  - cbn [ball_int].
    rewrite (RInt_ext _ (fun x => Rsum (map (fun ck => (fst ck * bal (tl (snd ck))) * (x ^ hd 0%nat (snd ck) * sqrt (r ^ 2 - x ^ 2) ^ (n + tdeg (tl (snd ck))))) p))).
    + rewrite (RInt_Rsum _ (fun ck => (fst ck * bal (tl (snd ck))) * (r ^ (hd 0%nat (snd ck) + (n + tdeg (tl (snd ck))) + 1) * W (hd 0%nat (snd ck)) (n + tdeg (tl (snd ck)) + 1)))).
      * apply Rsum_map_ext. intros [c k] Hk. apply Hp in Hk. destruct k as [|a k]; try discriminate. cbn [fst snd tl hd].
        change (tdeg (a :: k)) with (a + tdeg k)%nat. cbn [snd length bal] in Hk |- *. replace (length k) with n by lia.
        replace (S n + (a + tdeg k))%nat with (a + (n + tdeg k) + 1)%nat by lia. ring.
      * intros ck _. apply is_RInt_scalR. apply is_RInt_cap. auto.
    + intros t _. rewrite (ball_int_ext _ _ _ (mpeval (map (fun ck => (fst ck * t ^ hd 0%nat (snd ck), tl (snd ck))) p))).
      * rewrite IH.
        -- rewrite map_map. apply Rsum_map_ext. intros [c k] _. cbn [fst snd]. ring.
        -- apply sqrt_pos.
        -- apply Forall_forall. intros ck Hc. apply in_map_iff in Hc. destruct Hc as [[c k] [<- Hc]]. cbn [snd].
           apply Hp in Hc. destruct k; [discriminate|]. cbn in *. lia.
      * intros x Hx. unfold mpeval. rewrite map_map. apply Rsum_map_ext. intros [c k] Hk.
        apply Hp in Hk. destruct k as [|a k]; [discriminate|]. cbn [fst snd hd tl mono]. ring.
Qed.
