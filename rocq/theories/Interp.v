(** Polynomials in one variable: number of roots, interpolation, and the extra degree of symmetric interpolatory rules. *)
From Coq Require Import Reals List Arith Lia Lra.
From Coquelicot Require Import Coquelicot.
From Verif Require Import Spec Spec1 RsumLemmas IntegralProofs IntegralPoly C1Tools SphereInt.
Import ListNotations.
Set Bullet Behavior "Strict Subproofs".
Open Scope R_scope.

(** Synthetic division by x - a. *)
Fixpoint pdiv (a : R) (c : list R) : list R := match c with [] => [] | _ :: c' => padd c' (map (Rmult a) (pdiv a c')) end.
Lemma pdiv_length a c : (length (pdiv a c) <= length c - 1)%nat.
Proof.
  induction c as [|c0 c IH]; cbn [pdiv length]; auto. apply padd_length; [lia|]. rewrite map_length. lia.
Qed.
Lemma pdiv_spec a c x : peval c x = peval c a + (x - a) * peval (pdiv a c) x.
Proof. induction c as [|c0 c IH]; cbn [pdiv peval]; [ring|]. rewrite peval_padd, peval_scale. rewrite IH. ring. Qed.
Theorem peval_many_roots xs : NoDup xs -> forall c, (length c <= length xs)%nat -> (forall x, In x xs -> peval c x = 0) -> forall x, peval c x = 0.
Proof.
  induction 1 as [|a xs Ha Hx IH]; intros c Hc H x.
  - destruct c; [auto|cbn in Hc; lia].
  - rewrite (pdiv_spec a c x). rewrite (H a) by (left; auto). rewrite (IH (pdiv a c)); [ring| |].
    + pose proof (pdiv_length a c). cbn in Hc. lia.
    + intros y Hy. assert (E := H y (or_intror Hy)). rewrite (pdiv_spec a c y), (H a) in E by (left; auto). rewrite Rplus_0_l in E. apply Rmult_integral in E. destruct E as [E|E]; auto.
      exfalso. apply Ha. replace a with y by lra. auto.
Qed.
Lemma peval_unique xs c c' : NoDup xs -> (length c <= length xs)%nat -> (length c' <= length xs)%nat -> (forall x, In x xs -> peval c x = peval c' x) -> forall x, peval c x = peval c' x.
Proof.
  intros Hx L L' H x. assert (E : peval (padd c (map (Rmult (-1)) c')) x = 0).
  { apply (peval_many_roots xs Hx). - apply padd_length; auto. rewrite map_length. auto. - intros y Hy. rewrite peval_padd, peval_scale, H by auto. ring. }
  rewrite peval_padd, peval_scale in E. lra.
Qed.

(** polynomial functions of degree < m *)
Definition pol (m : nat) (f : R -> R) : Prop := exists c, (length c <= m)%nat /\ forall x, f x = peval c x.
Lemma pol_ext m f g : (forall x, f x = g x) -> pol m f -> pol m g.
Proof. intros H [c [L E]]. exists c. split; auto. intros x. rewrite <- H. auto. Qed.
Lemma pol_le m m' f : (m <= m')%nat -> pol m f -> pol m' f.
Proof. intros H [c [L E]]. exists c. split; auto. lia. Qed.
Lemma pol_const m a : (1 <= m)%nat -> pol m (fun _ => a).
Proof. intros H. exists [a]. split; auto. intros x. cbn. ring. Qed.
Lemma pol_zero m : pol m (fun _ => 0).
Proof. exists []. split; [cbn; lia|auto]. Qed.
Lemma pol_add m f g : pol m f -> pol m g -> pol m (fun x => f x + g x).
Proof. intros [c [L E]] [c' [L' E']]. exists (padd c c'). split; [apply padd_length; auto|]. intros. rewrite peval_padd, E, E'. auto. Qed.
Lemma pol_scal m a f : pol m f -> pol m (fun x => a * f x).
Proof. intros [c [L E]]. exists (map (Rmult a) c). split; [rewrite map_length; auto|]. intros. rewrite peval_scale, E. auto. Qed.
Lemma pol_lin m u v f : pol m f -> pol (S m) (fun x => (u + v * x) * f x).
Proof. intros [c [L E]]. exists (pmul_lin u v c). split; [pose proof (pmul_lin_length u v c); lia|]. intros. rewrite peval_pmul_lin, E. auto. Qed.
Lemma pol_comp m u v f : pol m f -> pol m (fun x => f (u + v * x)).
Proof. intros [c [L E]]. exists (pcompose u v c). split; [pose proof (pcompose_length u v c); lia|]. intros. rewrite peval_pcompose, E. auto. Qed.
Lemma pol_pow m k : (k < m)%nat -> pol m (fun x => x ^ k).
Proof. intros H. exists (xpow k). split; [rewrite xpow_length; lia|]. intros. rewrite peval_xpow. auto. Qed.
Lemma pol_sum {A} m (l : list A) (f : A -> R -> R) : (forall a, In a l -> pol m (f a)) -> pol m (fun x => Rsum (map (fun a => f a x) l)).
Proof. induction l as [|a l IH]; intros H; cbn [map Rsum]; [apply pol_zero|]. apply (pol_add m (f a)); [apply H; left; auto|apply IH; intros; apply H; right; auto]. Qed.
Lemma pol_unique xs f g : NoDup xs -> pol (length xs) f -> pol (length xs) g -> (forall x, In x xs -> f x = g x) -> forall x, f x = g x.
Proof. intros Hx [c [L E]] [c' [L' E']] H x. rewrite E, E'. apply (peval_unique xs); auto. intros y Hy. rewrite <- E, <- E'. auto. Qed.
(** multiplication *)
Lemma pol_mul m : forall k f g, pol m f -> pol k g -> pol (m + k - 1) (fun x => f x * g x).
Proof.
  intros k f g [c [L E]] Hg. revert m f L E. induction c as [|a c IH]; intros m f L E.
  - apply (pol_ext _ (fun _ => 0)); [intros; rewrite E; cbn; ring|apply pol_zero].
  - cbn in L. destruct m as [|m]; [lia|]. replace (S m + k - 1)%nat with (m + k)%nat by lia. destruct k as [|k].
    + destruct Hg as [[|? ?] [Lg Eg]]; [|cbn in Lg; lia]. apply (pol_ext _ (fun _ => 0)); [intros; rewrite Eg; cbn; ring|apply pol_zero].
    + apply (pol_ext _ (fun x => a * g x + (0 + 1 * x) * (peval c x * g x))); [intros; rewrite E; cbn; ring|]. apply pol_add.
      * apply pol_scal. apply (pol_le (S k)); [lia|auto].
      * apply (pol_le (S (m + S k - 1))); [lia|]. apply pol_lin. apply (IH m (peval c)); auto. lia.
Qed.

(** Interpolation *)
Definition vanish (xs : list R) (t : R) : R := fold_right Rmult 1 (map (fun x => t - x) xs).
Lemma vanish_pol xs : pol (S (length xs)) (vanish xs).
Proof.
  induction xs as [|a xs IH]; cbn [length]; [apply (pol_const 1 1); lia|]. apply (pol_ext _ (fun t => (- a + 1 * t) * vanish xs t)); [intros; unfold vanish; cbn; ring|]. apply pol_lin. auto.
Qed.
Lemma vanish_in xs x : In x xs -> vanish xs x = 0.
Proof. unfold vanish. induction xs as [|a xs IH]; intros []; cbn; [subst; ring|rewrite IH by auto; ring]. Qed.
Lemma vanish_nz xs x : ~ In x xs -> vanish xs x <> 0.
Proof.
  unfold vanish. induction xs as [|a xs IH]; intros H; cbn; [lra|]. apply Rmult_integral_contrapositive. split; [intros E; apply H; left; lra|apply IH; intros G; apply H; right; auto].
Qed.
Lemma interp_exists (v : R -> R) xs : NoDup xs -> exists f, pol (length xs) f /\ forall x, In x xs -> f x = v x.
Proof.
  induction 1 as [|a xs Ha Hx [f [Pf Ef]]]; [exists (fun _ => 0); split; [apply pol_zero|intros ? []]|].
  exists (fun t => f t + (v a - f a) / vanish xs a * vanish xs t). split.
  - cbn [length]. apply pol_add; [apply (pol_le (length xs)); [lia|auto]|]. apply pol_scal. apply vanish_pol.
  - intros x [<- | Hin].
    + field. apply vanish_nz. auto.
    + rewrite (vanish_in xs x Hin), (Ef x Hin). ring.
Qed.

(* ------------------------------------------------------------------ integrals of polynomials over [-1, 1] *)
Lemma RInt_peval_opp c : RInt (fun x => peval c (- x)) (-1) 1 = RInt (peval c) (-1) 1.
Proof.
  apply is_RInt_unique. assert (I : is_RInt (peval c) (-1) 1 (RInt (peval c) (-1) 1)) by (apply (@RInt_correct R_CompleteNormedModule); apply peval_ex_RInt).
  apply (@is_RInt_swap R_NormedModule) in I. assert (J : is_RInt (peval c) (-1 * -1 + 0) (-1 * 1 + 0) (opp (RInt (peval c) (-1) 1))).
  { replace (-1 * -1 + 0) with 1 by ring. replace (-1 * 1 + 0) with (-1) by ring. exact I. }
  apply (is_RInt_comp_lin (peval c)) in J. apply (is_RInt_scalR _ _ _ (-1)) in J.
  replace (RInt (peval c) (-1) 1) with (-1 * opp (RInt (peval c) (-1) 1)) by (unfold opp; cbn; ring).
  eapply is_RInt_ext; [|exact J]. intros x _. unfold scal. cbn. unfold mult. cbn. replace (-1 * x + 0) with (- x) by ring. ring.
Qed.
Lemma exact1_pol d q f : exact1 d q -> pol (S d) f -> apply1 q f = RInt f (-1) 1.
Proof.
  intros H [c [L E]]. rewrite (apply1_ext' q f (peval c)) by auto. rewrite H by auto. apply RInt_ext. intros. symmetry. apply E.
Qed.
Lemma exact1_of_pol d q : (forall f, pol (S d) f -> apply1 q f = RInt f (-1) 1) -> exact1 d q.
Proof. intros H c Hc. apply H. exists c. auto. Qed.
(** A rule that is exact on the polynomials of degree < number of nodes, with an odd number of nodes placed symmetrically, is exact for one more degree. *)
Theorem symmetric_bonus q m : Nat.odd m = true -> length q = m -> NoDup (map snd q) -> (forall x, In x (map snd q) -> In (- x) (map snd q)) ->
  exact1 (m - 1) q -> exact1 m q.
Proof.
  intros Hm L Hnd Hsym Hex. assert (Hm0 : (m <> 0)%nat) by (intros ->; discriminate). apply exact1_of_powers. intros k Hk. destruct (Nat.eq_dec k m) as [-> | Hne].
  2:{ apply (exact1_powers (m - 1)); auto. lia. }
  assert (Ln : length (map snd q) = m) by (rewrite map_length; auto).
  destruct (interp_exists (fun x => x ^ m) (map snd q) Hnd) as [f [Pf Ef]]. rewrite Ln in Pf.
  assert (Odd : forall x, f (- x) = - f x).
  { intros x. replace (- f x) with (-1 * f x) by ring. revert x. apply (pol_unique (map snd q)); auto; rewrite ?Ln.
    - apply (pol_ext _ (fun x => f (0 + -1 * x))); [intros; f_equal; ring|]. apply pol_comp. auto.
    - apply pol_scal. auto.
    - intros x Hx. rewrite !Ef by auto. replace (- x) with (-1 * x) by ring. rewrite Rpow_mult_distr. apply Nat.odd_spec in Hm. destruct Hm as [i ->].
      rewrite pow_add, pow_mult. replace ((-1) ^ 2) with 1 by ring. rewrite pow1. ring. }
  transitivity (apply1 q f).
  - apply apply1_ext. intros wx Hin. symmetry. apply Ef. apply in_map. auto.
  - rewrite (exact1_pol (m - 1)) by (auto; replace (S (m - 1)) with m by lia; auto). destruct Pf as [c [Lc Ec]].
    rewrite (RInt_ext f (peval c)) by (intros; apply Ec). assert (E := RInt_peval_opp c).
    assert (E2 : RInt (fun x => peval c (- x)) (-1) 1 = - RInt (peval c) (-1) 1).
    { apply is_RInt_unique. apply (is_RInt_ext (fun x => -1 * peval c x)).
      - intros x _. rewrite <- !Ec. rewrite Odd. change (-1 * f x = - f x). ring.
      - replace (- RInt (peval c) (-1) 1) with (-1 * RInt (peval c) (-1) 1) by (unfold opp; cbn; ring). apply is_RInt_scalR. apply (@RInt_correct R_CompleteNormedModule). apply peval_ex_RInt. }
    unfold pow_int. replace (Nat.even m) with false by (rewrite <- Nat.negb_odd, Hm; auto). rewrite E in E2. cbn in *. lra.
Qed.
