(** C58: c2.miller declares degree 1, but the comment at c2/_miller.py:25 says that it is exact for harmonic integrands of degree at
    most 11.  [coef p i j] is the coefficient of x^i y^j in the polynomial p (a list of terms, which may repeat a monomial); [harmonic p]
    says that each coefficient of its Laplacian is 0. *)
From Coq Require Import Reals List Arith Lia Lra.
From Verif Require Import Spec RsumLemmas IntegralSpec IntegralProofs IntegralPoly PyBase FixSpec C2Model C2Proofs E23Integrate.
Import ListNotations.
Set Bullet Behavior "Strict Subproofs".
Open Scope R_scope.

Definition coef (p : mpoly) (i j : nat) : R := Rsum (map (fun ck => if list_eq_dec Nat.eq_dec (snd ck) [i; j] then fst ck else 0) p).
Definition harmonic (p : mpoly) : Prop :=
  forall i j, INR (i + 2) * INR (i + 1) * coef p (i + 2) j + INR (j + 2) * INR (j + 1) * coef p i (j + 2) = 0.

Lemma Rsum_cons a l : Rsum (a :: l) = a + Rsum l.
Proof. reflexivity. Qed.
Lemma sum_delta (e : nat -> R) n a : (a < n)%nat -> Rsum (map (fun i => if Nat.eq_dec a i then e i else 0) (seq 0 n)) = e a.
Proof.
  intros H. assert (G : forall m s, Rsum (map (fun i => if Nat.eq_dec a i then e i else 0) (seq s m)) = if andb (s <=? a)%nat (a <? s + m)%nat then e a else 0).
  { induction m as [|m IH]; intros s; cbn [seq map].
    - change (Rsum []) with 0. destruct (Nat.leb_spec s a), (Nat.ltb_spec a (s + 0)); cbn; auto; lia.
    - rewrite Rsum_cons, IH. destruct (Nat.eq_dec a s), (Nat.leb_spec s a), (Nat.ltb_spec a (s + S m)), (Nat.leb_spec (S s) a), (Nat.ltb_spec a (S s + m)); cbn; subst; try lia; lra. }
  rewrite G. destruct (Nat.ltb_spec a (0 + n)); cbn; auto; lia.
Qed.
Lemma by_coef (e : list nat -> R) n p : List.Forall (fun ck => length (snd ck) = 2%nat /\ (tdeg (snd ck) < n)%nat) p ->
  Rsum (map (fun ck => fst ck * e (snd ck)) p) = Rsum (map (fun i => Rsum (map (fun j => coef p i j * e [i; j]) (seq 0 n))) (seq 0 n)).
Proof.
  induction p as [|[c k] p IH]; intros H.
  - cbn [map]. change (Rsum []) with 0. symmetry. apply Rsum_map_zero. intros i _. apply Rsum_map_zero. intros j _. unfold coef. cbn [map]. change (Rsum []) with 0. ring.
  - apply List.Forall_cons_iff in H. destruct H as [[L T] H]. cbn [map fst snd] in *. rewrite Rsum_cons, (IH H). destruct k as [|a [|b [|]]]; try discriminate. unfold tdeg in T. cbn in T.
    replace (c * e [a; b]) with (Rsum (map (fun i => if Nat.eq_dec a i then Rsum (map (fun j => if Nat.eq_dec b j then c * e [i; j] else 0) (seq 0 n)) else 0) (seq 0 n))).
    2: { rewrite (sum_delta (fun i => Rsum (map (fun j => if Nat.eq_dec b j then c * e [i; j] else 0) (seq 0 n)))) by lia. apply (sum_delta (fun j => c * e [a; j])). lia. }
    rewrite <- Rsum_map_plus. apply Rsum_map_ext. intros i _. destruct (Nat.eq_dec a i) as [<-|N].
    + rewrite <- Rsum_map_plus. apply Rsum_map_ext. intros j _. unfold coef. cbn [map]. rewrite Rsum_cons. cbn [snd fst].
      destruct (list_eq_dec Nat.eq_dec [a; b] [a; j]) as [E|E], (Nat.eq_dec b j) as [E'|E']; try ring; exfalso; congruence.
    + rewrite Rplus_0_l. apply Rsum_map_ext. intros j _. unfold coef. cbn [map]. rewrite Rsum_cons. cbn [snd fst].
      destruct (list_eq_dec Nat.eq_dec [a; b] [i; j]) as [E|E]; [congruence|ring].
Qed.

Lemma coef_high n p i j : List.Forall (fun ck => length (snd ck) = 2%nat /\ (tdeg (snd ck) <= n)%nat) p -> (n < i + j)%nat -> coef p i j = 0.
Proof.
  intros H L. unfold coef. apply Rsum_map_zero. intros [c k] I. rewrite List.Forall_forall in H. apply H in I. cbn [fst snd] in *. destruct (list_eq_dec Nat.eq_dec k [i; j]) as [->|]; auto. unfold tdeg in I. cbn in I. lia.
Qed.
(** The rule and its error on x^i y^j. *)
Definition miller_rule : rule :=
  [(250 / 225, [0; 0]); (- (8 / 225), [1; 0]); (- (8 / 225), [- (1); 0]); (- (8 / 225), [0; 1]); (- (8 / 225), [0; - (1)]);
   (7 / 900, [1; 1]); (7 / 900, [- (1); 1]); (7 / 900, [1; - (1)]); (7 / 900, [- (1); - (1)])].
Definition zero_pow (i : nat) : R := match i with O => 1 | _ => 0 end.
Definition miller_err (i j : nat) : R :=
  if andb (Nat.even i) (Nat.even j) then 250 / 225 * zero_pow i * zero_pow j - 16 / 225 * (zero_pow i + zero_pow j) + 28 / 900 - / INR (S i) * / INR (S j) else 0.
Lemma zero_pow_ok i : 0 ^ i = zero_pow i.
Proof. destruct i; cbn; [auto|ring]. Qed.
Lemma m1_pow i : (- (1)) ^ i = if Nat.even i then 1 else -1.
Proof. replace (- (1)) with (-1) by lra. destruct i; [reflexivity|]. rewrite pow_m1, Nat.even_succ, <- Nat.negb_even. destruct (Nat.even i); reflexivity. Qed.
Lemma miller_err_ok i j : apply miller_rule (mono [i; j]) - Rprod (map pow_int [i; j]) / 2 ^ 2 = miller_err i j.
Proof.
  unfold apply, miller_rule. cbn [map fst snd mono]. rewrite !Rsum_cons. change (Rsum []) with 0. cbn [Rprod map]. rewrite !zero_pow_ok, !m1_pow, !pow1. unfold pow_int, miller_err.
  assert (INR (S i) <> 0) by (apply not_0_INR; lia). assert (INR (S j) <> 0) by (apply not_0_INR; lia).
  assert (Zi : Nat.even i = false -> zero_pow i = 0) by (destruct i; cbn; [discriminate|auto]). assert (Zj : Nat.even j = false -> zero_pow j = 0) by (destruct j; cbn; [discriminate|auto]).
  destruct (Nat.even i), (Nat.even j); cbn [andb]; try rewrite Zi by auto; try rewrite Zj by auto; field; auto.
Qed.
Theorem C58_miller_harmonic : forall p, mp_ok 2 11 p -> harmonic p ->
  exists s, c2_miller = Some s /\ apply (s_rule s) (mpeval p) = cube_mean 2 (mpeval p).
Proof.
  intros p Hp Hh. destruct c2_miller_ok as (s & E & _). exists s. split; auto.
  unfold c2_miller in E. lazy -[Rplus Rmult Rminus Ropp Rdiv Rinv IZR] in E. injection E as <-. cbn [s_rule]. fold miller_rule.
  rewrite apply_mpeval. unfold cube_mean. rewrite cube_int_mpeval by (eapply List.Forall_impl; [|exact Hp]; cbn; tauto).
  assert (Hp' : List.Forall (fun ck => length (snd ck) = 2%nat /\ (tdeg (snd ck) < 12)%nat) p) by (eapply List.Forall_impl; [|exact Hp]; cbn; intros; split; [tauto|lia]).
  rewrite (by_coef (fun k => apply miller_rule (mono k)) 12 p Hp'), (by_coef (fun k => Rprod (map pow_int k)) 12 p Hp').
  apply Rminus_diag_uniq. unfold Rdiv. rewrite (Rmult_comm (Rsum _)). rewrite <- Rsum_map_scal, <- Rsum_map_minus.
  rewrite (Rsum_map_ext _ (fun i => Rsum (map (fun j => coef p i j * miller_err i j) (seq 0 12)))).
  2: { intros i _. rewrite <- Rsum_map_scal, <- Rsum_map_minus. apply Rsum_map_ext. intros j _. rewrite <- miller_err_ok. unfold Rdiv. ring. }
  cbn [seq map]. rewrite !Rsum_cons. change (Rsum []) with 0. unfold miller_err. cbn [Nat.even andb zero_pow]. rewrite !S_INR. change (INR 0) with 0. rewrite !Rmult_0_r, ?Rplus_0_r, ?Rplus_0_l.
  assert (Z : forall i j, (11 < i + j)%nat -> coef p i j = 0) by (intros; apply (coef_high 11); auto).
  rewrite ?(Z 2 10)%nat, ?(Z 4 8)%nat, ?(Z 4 10)%nat, ?(Z 6 6)%nat, ?(Z 6 8)%nat, ?(Z 6 10)%nat, ?(Z 8 4)%nat, ?(Z 8 6)%nat, ?(Z 8 8)%nat, ?(Z 8 10)%nat, ?(Z 10 2)%nat, ?(Z 10 4)%nat, ?(Z 10 6)%nat, ?(Z 10 8)%nat, ?(Z 10 10)%nat by lia.
  assert (L : forall i j, INR (i + 2) * INR (i + 1) * coef p (i + 2) j + INR (j + 2) * INR (j + 1) * coef p i (j + 2) = 0) by exact Hh.
  pose proof (L 0 0)%nat as L00. pose proof (L 2 0)%nat as L20. pose proof (L 0 2)%nat as L02. pose proof (L 4 0)%nat as L40. pose proof (L 2 2)%nat as L22. pose proof (L 0 4)%nat as L04.
  pose proof (L 6 0)%nat as L60. pose proof (L 4 2)%nat as L42. pose proof (L 2 4)%nat as L24. pose proof (L 0 6)%nat as L06.
  pose proof (L 8 0)%nat as L80. pose proof (L 6 2)%nat as L62. pose proof (L 4 4)%nat as L44. pose proof (L 2 6)%nat as L26. pose proof (L 0 8)%nat as L08.
  clear Z L Hh Hp Hp'. cbn [Nat.add] in *. rewrite !S_INR in *. change (INR 0) with 0 in *. lra.
Qed.
Print Assumptions C58_miller_harmonic.
(** A case that is not covered by the declared degree: x^8 - 28 x^6 y^2 + 70 x^4 y^4 - 28 x^2 y^6 + y^8, the real part of (x + iy)^8. *)
Example C58_ex_miller : let p := [(1, [8; 0]%nat); (-28, [6; 2]%nat); (70, [4; 4]%nat); (-28, [2; 6]%nat); (1, [0; 8]%nat)] in
  mp_ok 2 11 p /\ harmonic p /\ apply miller_rule (mpeval p) = 16 / 45.
Proof.
  cbn zeta. split; [|split].
  - unfold mp_ok, tdeg. repeat (apply List.Forall_cons; [cbn; split; lia|]). constructor.
  - intros i j. unfold coef. cbn [map snd fst]. rewrite !Rsum_cons. change (Rsum []) with 0.
    assert (V : forall (x : R) a b c d, (if list_eq_dec Nat.eq_dec [a; b] [c; d] then x else 0) = if andb (a =? c)%nat (b =? d)%nat then x else 0).
    { intros x a b c d. destruct (list_eq_dec Nat.eq_dec [a; b] [c; d]) as [E|E], (Nat.eqb_spec a c), (Nat.eqb_spec b d); cbn; auto; congruence. }
    rewrite !V. do 9 (destruct i as [|i]; [do 9 (destruct j as [|j]; [cbn; lra|]); cbn; lra|]). 
    replace (8 =? S (S (S (S (S (S (S (S (S i)))))))) + 2)%nat with false by (symmetry; apply Nat.eqb_neq; lia). cbn. lra.
  - unfold apply, miller_rule, mpeval. cbn [map fst snd mono]. rewrite !Rsum_cons. change (Rsum []) with 0. cbn [pow]. lra.
Qed.
