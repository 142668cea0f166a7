(** Taylor's theorem in several variables, with the remainder in the maximum norm (C92). *)
From Coq Require Import Reals List Arith ZArith Lia Lra.
From Coquelicot Require Import Coquelicot.
From Verif Require Import Spec RsumLemmas IntegralProofs PolyFun ConvNdSpec MeshSpec OrderSpec.
Import ListNotations.
Set Bullet Behavior "Strict Subproofs".
Open Scope R_scope.
Local Notation length := List.length.

(** *** one variable *)
Fixpoint tay (r : nat) (a : nat -> R) (t : R) : R := match r with O => 0 | S r' => tay r' a t + a r' * (t ^ r' / INR (fact r')) end.
Lemma pow_fact_derive r t : is_derive (fun s => s ^ S r / INR (fact (S r))) t (t ^ r / INR (fact r)).
Proof.
  apply (is_derive_ext (fun s => / INR (fact (S r)) * s ^ S r)); [intros; apply Rmult_comm|].
  replace (t ^ r / INR (fact r)) with (/ INR (fact (S r)) * (INR (S r) * 1 * t ^ r)).
  - apply is_derive_scal. apply (is_derive_pow (fun s => s) (S r) t 1). apply (is_derive_id (K := R_AbsRing)).
  - rewrite fact_simpl, mult_INR. pose proof (INR_fact_neq_0 r). assert (INR (S r) <> 0) by (apply not_0_INR; lia). field. split; auto.
Qed.
Lemma tay_derive r a t : is_derive (tay (S r) a) t (tay r (fun k => a (S k)) t).
Proof.
  induction r as [|r IH].
  - cbn [tay]. apply (is_derive_ext (fun _ => a 0%nat)); [intros; cbn; field|]. apply (is_derive_const (V := R_NormedModule)).
  - change (tay (S r) (fun k => a (S k)) t) with (tay r (fun k => a (S k)) t + a (S r) * (t ^ r / INR (fact r))).
    apply (is_derive_ext (fun s => tay (S r) a s + a (S r) * (s ^ S r / INR (fact (S r))))); [reflexivity|].
    apply (is_derive_plus (V := R_NormedModule)); [exact IH|]. apply is_derive_scal. apply pow_fact_derive.
Qed.
Lemma tay_0 r a : tay (S r) a 0 = a 0%nat.
Proof. induction r as [|r IH]; [cbn; field|]. change (tay (S (S r)) a 0) with (tay (S r) a 0 + a (S r) * (0 ^ S r / INR (fact (S r)))). rewrite IH, pow_ne_zero by lia. unfold Rdiv. ring. Qed.
Lemma taylor_bound r : forall (G : nat -> R -> R) B, 0 <= B -> (forall k t, (k < r)%nat -> 0 <= t <= 1 -> is_derive (G k) t (G (S k) t)) -> (forall t, 0 <= t <= 1 -> Rabs (G r t) <= B) ->
  forall t, 0 <= t <= 1 -> Rabs (G 0%nat t - tay r (fun k => G k 0) t) <= B * (t ^ r / INR (fact r)).
Proof.
  induction r as [|r IH]; intros G B HB HG Hr t Ht.
  - cbn. replace (G 0%nat t - 0) with (G 0%nat t) by ring. replace (B * (1 / 1)) with B by field. auto.
  - specialize (IH (fun k => G (S k)) B HB (fun k s Hk => HG (S k) s ltac:(lia)) Hr).
    set (H := fun s => G 0%nat s - tay (S r) (fun k => G k 0) s). set (dH := fun s => G 1%nat s - tay r (fun k => G (S k) 0) s).
    set (phi := fun s => B * (s ^ S r / INR (fact (S r)))). set (dphi := fun s => B * (s ^ r / INR (fact r))).
    assert (DH : forall s, 0 <= s <= 1 -> is_derive H s (dH s)) by (intros s Hs; apply (is_derive_minus (V := R_NormedModule)); [apply HG; [lia|exact Hs]|apply tay_derive]).
    assert (DP : forall s, is_derive phi s (dphi s)) by (intros s; apply is_derive_scal, pow_fact_derive).
    assert (H0 : H 0 = 0) by (unfold H; rewrite tay_0; ring). assert (P0 : phi 0 = 0) by (unfold phi; rewrite pow_ne_zero by lia; unfold Rdiv; ring).
    assert (M : forall sg, (sg = 1 \/ sg = -1) -> 0 <= phi t - sg * H t).
    { intros sg Hs. destruct (MVT_gen (fun s => phi s - sg * H s) 0 t (fun s => dphi s - sg * dH s)) as (c & Hc & E).
      - intros x Hx. rewrite Rmin_left, Rmax_right in Hx by lra. apply (is_derive_minus (V := R_NormedModule)); [apply DP|]. apply is_derive_scal. apply DH. lra.
      - intros x Hx. rewrite Rmin_left, Rmax_right in Hx by lra. apply derivable_continuous_pt. exists (dphi x - sg * dH x). apply is_derive_Reals. apply (is_derive_minus (V := R_NormedModule)); [apply DP|]. apply is_derive_scal. apply DH. lra.
      - rewrite Rmin_left, Rmax_right in Hc by lra. cbv beta in E. rewrite H0, P0 in E. specialize (IH c ltac:(lra)). cbv beta in IH. change (Rabs (dH c) <= dphi c) in IH. apply Rabs_le_between in IH.
        assert (0 <= dphi c - sg * dH c) by (destruct Hs as [-> | ->]; lra). assert (0 <= (dphi c - sg * dH c) * (t - 0)) by (apply Rmult_le_pos; lra). lra. }
    change (Rabs (H t) <= phi t). apply Rabs_le. pose proof (M 1 (or_introl eq_refl)). pose proof (M (-1) (or_intror eq_refl)). lra.
Qed.

(** *** several variables *)
Fixpoint words (n k : nat) : list (list nat) := match k with O => [[]] | S k' => flat_map (fun w => map (fun i => i :: w) (seq 0 n)) (words n k') end.
Lemma words_in n k : forall w, In w (words n k) -> length w = k /\ List.Forall (fun i => (i < n)%nat) w.
Proof.
  induction k as [|k IH]; cbn [words]; intros w H; [destruct H as [<-|[]]; split; [reflexivity|constructor]|]. apply in_flat_map in H. destruct H as (u & Hu & H). apply in_map_iff in H. destruct H as (i & <- & Hi). apply in_seq in Hi. destruct (IH u Hu) as [L F]. split; [cbn; lia|constructor; [lia|exact F]].
Qed.
Lemma words_count n k : INR (length (words n k)) = INR n ^ k.
Proof.
  induction k as [|k IH]; [reflexivity|]. cbn [words pow]. rewrite <- IH. clear IH. induction (words n k) as [|w l IH]; [cbn; ring|]. cbn [flat_map]. rewrite app_length, map_length, seq_length, plus_INR, IH. cbn [length]. rewrite S_INR. ring.
Qed.
Definition vw (c x : point) (w : list nat) : R := Rprod (map (fun i => nth i x 0 - nth i c 0) w).
Definition Gk (n : nat) (F : list nat -> point -> R) (c x : point) (k : nat) (t : R) : R := Rsum (map (fun w => vw c x w * F w (between t c x)) (words n k)).
Lemma derive_sum {A} (l : list A) (f df : A -> R -> R) t : (forall a, In a l -> is_derive (f a) t (df a t)) -> is_derive (fun s => Rsum (map (fun a => f a s) l)) t (Rsum (map (fun a => df a t) l)).
Proof.
  induction l as [|a l IH]; intros H; cbn [map Rsum]; [apply (is_derive_const (V := R_NormedModule))|]. apply (is_derive_plus (V := R_NormedModule)); [apply H; now left|apply IH; intros; apply H; now right].
Qed.
Lemma Rsum_flat {A B} (f : B -> R) (g : A -> list B) l : Rsum (map f (flat_map g l)) = Rsum (map (fun a => Rsum (map f (g a))) l).
Proof. induction l as [|a l IH]; [reflexivity|]. cbn [flat_map map Rsum]. rewrite map_app, Rsum_app, IH. reflexivity. Qed.
Lemma Gk_derive n r D F c x k t : has_partials n r D F -> D c -> D x -> (k < r)%nat -> 0 <= t <= 1 -> is_derive (Gk n F c x k) t (Gk n F c x (S k) t).
Proof.
  intros P Hc Hx Hk Ht. unfold Gk. cbn [words]. rewrite Rsum_flat.
  apply (derive_sum (words n k) (fun w s => vw c x w * F w (between s c x)) (fun w s => Rsum (map (fun w0 => vw c x w0 * F w0 (between s c x)) (map (fun i => i :: w) (seq 0 n))))).
  intros w Hw. destruct (words_in n k w Hw) as [L Fw]. rewrite map_map.
  replace (Rsum (map (fun i => vw c x (i :: w) * F (i :: w) (between t c x)) (seq 0 n))) with (vw c x w * Rsum (map (fun i => (nth i x 0 - nth i c 0) * F (i :: w) (between t c x)) (seq 0 n))).
  - apply is_derive_scal. apply (P w); auto. lia.
  - rewrite <- Rsum_map_scal. apply Rsum_map_ext. intros i _. unfold vw. cbn [map Rprod]. ring.
Qed.
Lemma vw_bound c x h w n : 0 <= h -> List.Forall (fun i => (i < n)%nat) w -> (forall i, (i < n)%nat -> Rabs (nth i x 0 - nth i c 0) <= h) -> Rabs (vw c x w) <= h ^ length w.
Proof.
  intros Hh F H. induction F as [|i w Hi F IH]; unfold vw; cbn [map Rprod length pow]; [rewrite Rabs_R1; lra|]. fold (vw c x w). rewrite Rabs_mult. apply Rmult_le_compat; auto using Rabs_pos.
Qed.
Lemma Rsum_bound {A} (l : list A) f B : (forall a, In a l -> Rabs (f a) <= B) -> Rabs (Rsum (map f l)) <= INR (length l) * B.
Proof.
  induction l as [|a l IH]; intros H; cbn [map Rsum length]; [rewrite Rabs_R0; cbn; lra|]. rewrite S_INR. eapply Rle_trans; [apply Rabs_triang|]. specialize (IH (fun a' Ha => H a' (or_intror Ha))). specialize (H a (or_introl eq_refl)). lra.
Qed.
Lemma Gk_bound n r D F M c x h t : 0 <= h -> partials_bounded n r D F M -> D (between t c x) -> (forall i, (i < n)%nat -> Rabs (nth i x 0 - nth i c 0) <= h) -> Rabs (Gk n F c x r t) <= M * (INR n * h) ^ r.
Proof.
  intros Hh PB HD H. unfold Gk. eapply Rle_trans; [apply (Rsum_bound _ _ (h ^ r * M))|].
  - intros w Hw. destruct (words_in n r w Hw) as [L Fw]. rewrite Rabs_mult. apply Rmult_le_compat; auto using Rabs_pos. rewrite <- L. apply (vw_bound c x h w n); auto.
  - rewrite words_count, Rpow_mult_distr. lra.
Qed.
(** Taylor's polynomial *)
Definition taypoly (n d : nat) (F : list nat -> point -> R) (c x : point) : R := tay (S d) (fun k => Gk n F c x k 0) 1.
Lemma between_0 c : forall x, length c = length x -> between 0 c x = c.
Proof. unfold between. induction c as [|a c IH]; intros [|b x] L; try discriminate; cbn [List.combine map fst snd]; [reflexivity|]. rewrite IH by (cbn in L; lia). f_equal. ring. Qed.
Lemma between_1 c : forall x, length c = length x -> between 1 c x = x.
Proof. unfold between. induction c as [|a c IH]; intros [|b x] L; try discriminate; cbn [List.combine map fst snd]; [reflexivity|]. rewrite IH by (cbn in L; lia). f_equal. ring. Qed.
Lemma vw_poly n c w : List.Forall (fun i => (i < n)%nat) w -> polyfun n (length w) (fun x => vw c x w).
Proof.
  induction 1 as [|i w Hi F IH]; [apply (polyfun_const n 0 1)|]. unfold vw. cbn [map Rprod]. apply (polyfun_mul n 1 (length w)); [|exact IH].
  apply (polyfun_ext n 1 (fun x => nth i x 0 + - nth i c 0)); [intros; ring|]. apply polyfun_add; [apply polyfun_coord; exact Hi|apply polyfun_const].
Qed.
Lemma tay_poly n d F c : length c = n -> polyfun n d (taypoly n d F c).
Proof.
  intros Lc. assert (G : forall r, (r <= S d)%nat -> polyfun n d (fun x => tay r (fun k => Rsum (map (fun w => F w c * vw c x w) (words n k))) 1)).
  { induction r as [|r IH]; intros Hr; cbn [tay]; [apply polyfun_const|]. apply polyfun_add; [apply IH; lia|].
    apply (polyfun_ext n d (fun x => 1 ^ r / INR (fact r) * Rsum (map (fun w => F w c * vw c x w) (words n r)))); [intros; ring|]. apply polyfun_scal.
    apply (polyfun_sum n d (words n r) (fun w x => F w c * vw c x w)). intros w Hw. destruct (words_in n r w Hw) as [L Fw]. apply polyfun_scal. apply (polyfun_le n (length w)); [lia|apply vw_poly; exact Fw]. }
  apply (polyfun_ext n d (fun x => tay (S d) (fun k => Rsum (map (fun w => F w c * vw c x w) (words n k))) 1)); [|apply G; lia].
  intros x Lx. unfold taypoly. assert (E : forall r a b t, (forall k, a k = b k) -> tay r a t = tay r b t) by (clear; induction r as [|r IH]; intros a b t H; cbn [tay]; [reflexivity|]; rewrite (IH a b t H), H; reflexivity).
  apply E. intros k. unfold Gk. rewrite between_0 by congruence. apply Rsum_map_ext. intros w _. ring.
Qed.
Theorem taylor_nd n d (D : point -> Prop) F M h (c : point) : 0 <= h -> 0 <= M -> length c = n -> D c -> has_partials n (S d) D F -> partials_bounded n (S d) D F M ->
  exists p, mp_ok n d p /\ forall x, length x = n -> D x -> (forall t, 0 <= t <= 1 -> D (between t c x)) -> (forall i, (i < n)%nat -> Rabs (nth i x 0 - nth i c 0) <= h) ->
    Rabs (F [] x - mpeval p x) <= M * (INR n * h) ^ S d / INR (fact (S d)).
Proof.
  intros Hh HM Lc Hc P PB. destruct (tay_poly n d F c Lc) as (p & Hp & E). exists p. split; [exact Hp|]. intros x Lx Hx Hb Hi. rewrite <- (E x Lx).
  assert (HB : 0 <= M * (INR n * h) ^ S d) by (apply Rmult_le_pos; [exact HM|apply pow_le, Rmult_le_pos; [apply pos_INR|exact Hh]]).
  assert (T := taylor_bound (S d) (Gk n F c x) (M * (INR n * h) ^ S d) HB (fun k t Hk Ht => Gk_derive n (S d) D F c x k t P Hc Hx Hk Ht) (fun t Ht => Gk_bound n (S d) D F M c x h t Hh PB (Hb t Ht) Hi) 1 ltac:(lra)).
  unfold taypoly. replace (Gk n F c x 0 1) with (F [] x) in T; [rewrite pow1 in T; unfold Rdiv in *; rewrite Rmult_1_l in T; exact T|].
  unfold Gk. cbn [words map Rsum]. unfold vw. cbn [map Rprod]. rewrite between_1 by congruence. ring.
Qed.
