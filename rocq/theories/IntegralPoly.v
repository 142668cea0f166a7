(** The means over cube and simplex are linear on polynomials: the mean of sum_j c_j x^(k_j) is the sum of the
    means of its terms.  Hence exactness on monomials is exactness on every polynomial. *)
From Coq Require Import Reals List Arith Lia Lra Permutation Bool.
From Coquelicot Require Import Coquelicot.
From Verif Require Import Spec RsumLemmas IntegralSpec IntegralProofs.
Import ListNotations.
Open Scope R_scope.

Lemma is_RInt_Rsum {A} (f : A -> R -> R) (v : A -> R) a b l :
  (forall x, In x l -> is_RInt (f x) a b (v x)) ->
  is_RInt (fun t => Rsum (map (fun x => f x t) l)) a b (Rsum (map v l)).
Proof.
  induction l as [|x l IH]; intros H; cbn [map Rsum].
  - assert (E := is_RInt_const (V := R_NormedModule) a b 0).
    replace (scal (b - a) (0 : R_NormedModule)) with 0 in E by (unfold scal; simpl; unfold mult; simpl; ring). exact E.
  - apply (is_RInt_plus (V := R_NormedModule) (f x) (fun t => Rsum (map (fun y => f y t) l))).
    + apply H. left. auto.
    + apply IH. intros y Hy. apply H. right. auto.
Qed.
Lemma RInt_Rsum {A} (f : A -> R -> R) (v : A -> R) a b l :
  (forall x, In x l -> is_RInt (f x) a b (v x)) -> RInt (fun t => Rsum (map (fun x => f x t) l)) a b = Rsum (map v l).
Proof. intros H. apply is_RInt_unique. apply is_RInt_Rsum. auto. Qed.
Lemma is_RInt_scalR (f : R -> R) a b (c v : R) : is_RInt f a b v -> is_RInt (fun x => c * f x) a b (c * v).
Proof. intros H. apply (is_RInt_scal (V := R_NormedModule) f a b c v H). Qed.

(* ------------------------------------------------------------------ cube *)
Lemma is_RInt_pow_11 a : is_RInt (fun x => x ^ a) (-1) 1 (pow_int a).
Proof.
  assert (H := is_RInt_pow a (-1) 1). replace (pow_int a) with ((1 ^ S a - (-1) ^ S a) / INR (S a)); auto.
  unfold pow_int. assert (INR (S a) <> 0) by (apply not_0_INR; lia).
  rewrite pow_m1, pow1. destruct (Nat.even a); field; auto.
Qed.
Lemma cube_int_mpeval n : forall p, List.Forall (fun ck => length (snd ck) = n) p ->
  cube_int n (mpeval p) = Rsum (map (fun ck => fst ck * Rprod (map pow_int (snd ck))) p).
Proof.
  induction n as [|n IH]; intros p Hp.
  - cbn [cube_int]. unfold mpeval. apply Rsum_map_ext. intros [c k] Hk.
    rewrite Forall_forall in Hp. apply Hp in Hk. destruct k; [|discriminate]. reflexivity.
  - cbn [cube_int].
    rewrite (RInt_ext _ (fun t => Rsum (map (fun ck => (fst ck * Rprod (map pow_int (tl (snd ck)))) * t ^ hd 0%nat (snd ck)) p))).
    + rewrite (RInt_Rsum _ (fun ck => (fst ck * Rprod (map pow_int (tl (snd ck)))) * pow_int (hd 0%nat (snd ck)))).
      * apply Rsum_map_ext. intros [c k] Hk. rewrite Forall_forall in Hp. apply Hp in Hk. destruct k; [discriminate|]. cbn. toR. ring.
      * intros ck _. apply is_RInt_scalR. apply is_RInt_pow_11.
    + intros t _. rewrite (cube_int_ext _ _ (mpeval (map (fun ck => (fst ck * t ^ hd 0%nat (snd ck), tl (snd ck))) p))).
      * rewrite IH.
        -- rewrite map_map. apply Rsum_map_ext. intros [c k] _. cbn [fst snd]. toR. ring.
        -- apply Forall_forall. intros ck Hc. apply in_map_iff in Hc. destruct Hc as [[c k] [<- Hc]]. cbn [snd].
           rewrite Forall_forall in Hp. apply Hp in Hc. destruct k; [discriminate|]. cbn in *. lia.
      * intros x _. unfold mpeval. rewrite map_map. apply Rsum_map_ext. intros [c k] Hk.
        rewrite Forall_forall in Hp. apply Hp in Hk. destruct k; [discriminate|]. cbn. ring.
Qed.
Theorem cube_mean_mpeval n p : List.Forall (fun ck => length (snd ck) = n) p ->
  cube_mean n (mpeval p) = Rsum (map (fun ck => fst ck * cube_mean n (mono (snd ck))) p).
Proof.
  intros Hp. unfold cube_mean. rewrite cube_int_mpeval by auto. unfold Rdiv. rewrite <- Rsum_map_scal_r.
  apply Rsum_map_ext. intros [c k] Hk. rewrite Forall_forall in Hp. apply Hp in Hk. cbn [fst snd] in *.
  subst n. assert (E1 := cube_int_mono k 1).
  assert (E2 : cube_int (length k) (mono k) = 1 * Rprod (map pow_int k)) by (rewrite <- E1; apply cube_int_ext; intros; ring).
  rewrite E2. ring.
Qed.

(* ------------------------------------------------------------------ simplex *)
Definition sval (n : nat) (h : R) (k : list nat) : R := prodfactR k / INR (fact (n + tdeg k)) * h ^ (n + tdeg k).
Lemma simplex_int_mpeval n : forall h p, List.Forall (fun ck => length (snd ck) = S n) p ->
  simplex_int n h (fun x => mpeval p ((h - Rsum x) :: x)) = Rsum (map (fun ck => fst ck * sval n h (snd ck)) p).
Proof.
  induction n as [|n IH]; intros h p Hp.
  - cbn [simplex_int]. unfold mpeval. apply Rsum_map_ext. intros [c k] Hk.
    rewrite Forall_forall in Hp. apply Hp in Hk. destruct k as [|b [|? ?]]; try discriminate. unfold sval, tdeg, prodfactR. cbn -[fact INR].
    rewrite Nat.add_0_r, Rminus_0_r. field. apply INR_fact_neq_0.
  - cbn [simplex_int].
    set (b := fun k : list nat => hd 0%nat k). set (a := fun k : list nat => hd 0%nat (tl k)).
    set (r := fun k : list nat => b k :: tl (tl k)).
    set (D := fun k => (n + tdeg (r k))%nat).
    rewrite (RInt_ext _ (fun t => Rsum (map (fun ck => (fst ck * (prodfactR (r (snd ck)) / INR (fact (D (snd ck))))) *
              (t ^ a (snd ck) * (h - t) ^ D (snd ck))) p))).
    + rewrite (RInt_Rsum _ (fun ck => (fst ck * (prodfactR (r (snd ck)) / INR (fact (D (snd ck))))) *
        (INR (fact (a (snd ck))) * INR (fact (D (snd ck))) / INR (fact (a (snd ck) + D (snd ck) + 1)) * h ^ (a (snd ck) + D (snd ck) + 1)))).
      * apply Rsum_map_ext. intros [c k] Hk. rewrite Forall_forall in Hp. apply Hp in Hk. cbn [fst snd] in *.
        destruct k as [|x [|y k]]; try discriminate. unfold sval, D, a, r, b, tdeg, prodfactR. cbn [hd tl map list_sum fold_right Rprod].
        fold (list_sum k). replace (y + (n + (x + list_sum k)) + 1)%nat with (S n + (x + (y + list_sum k)))%nat by lia.
        toR. field. split; apply INR_fact_neq_0.
      * intros ck _. apply is_RInt_scalR. apply is_RInt_beta.
    + intros t _. rewrite (simplex_int_ext _ _ _ (fun x => mpeval (map (fun ck => (fst ck * t ^ a (snd ck), r (snd ck))) p) (((h - t) - Rsum x) :: x))).
      * rewrite IH.
        -- rewrite map_map. apply Rsum_map_ext. intros [c k] _. cbn [fst snd]. unfold sval. fold (D k). toR. field. apply INR_fact_neq_0.
        -- apply Forall_forall. intros ck Hc. apply in_map_iff in Hc. destruct Hc as [[c k] [<- Hc]]. cbn [snd].
           rewrite Forall_forall in Hp. apply Hp in Hc. destruct k as [|x [|y k]]; try discriminate. cbn in *. lia.
      * intros x _. unfold mpeval. rewrite map_map. apply Rsum_map_ext. intros [c k] Hk.
        rewrite Forall_forall in Hp. apply Hp in Hk. destruct k as [|u [|y k]]; try discriminate. unfold r, a, b. cbn [fst snd hd tl mono Rsum].
        replace (h - (t + Rsum x)) with (h - t - Rsum x) by ring. ring.
Qed.
Theorem simplex_mean_mpeval n p : List.Forall (fun ck => length (snd ck) = S n) p ->
  simplex_mean n (mpeval p) = Rsum (map (fun ck => fst ck * simplex_mean n (mono (snd ck))) p).
Proof.
  intros Hp. unfold simplex_mean at 1. rewrite simplex_int_mpeval by auto. rewrite <- Rsum_map_scal.
  apply Rsum_map_ext. intros [c k] Hk. rewrite Forall_forall in Hp. apply Hp in Hk. cbn [fst snd] in *.
  rewrite simplex_mean_mono by auto. unfold simplex_moment, sval. rewrite pow1. field. apply INR_fact_neq_0.
Qed.
Lemma simplex_mean_ext n f g : (forall x, length x = S n -> Rsum x = 1 -> f x = g x) -> simplex_mean n f = simplex_mean n g.
Proof.
  intros H. unfold simplex_mean. f_equal. apply simplex_int_ext. intros x Hx. apply H; cbn; [lia|ring].
Qed.

(** Exactness on monomials is exactness on all polynomials. *)
Theorem cube_exact_poly n d q p : exact n d (fun k => cube_mean n (mono k)) q -> mp_ok n d p ->
  apply q (mpeval p) = cube_mean n (mpeval p).
Proof.
  intros H Hp. rewrite (exact_poly _ _ _ _ _ H Hp), cube_mean_mpeval; auto.
  eapply Forall_impl; [|exact Hp]. intros ? []; auto.
Qed.
Theorem simplex_exact_poly n d q p : exact (n + 1) d (fun k => simplex_mean n (mono k)) q -> mp_ok (n + 1) d p ->
  apply q (mpeval p) = simplex_mean n (mpeval p).
Proof.
  intros H Hp. rewrite (exact_poly _ _ _ _ _ H Hp), simplex_mean_mpeval; auto.
  eapply Forall_impl; [|exact Hp]. cbn. intros ? []; lia.
Qed.
