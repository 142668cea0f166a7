(** The error of interpolation in double points, by Rolle's theorem, and the error of Gauss rules. *)
From Coq Require Import Reals List Arith ZArith Lia Lra Permutation.
From Coquelicot Require Import Coquelicot.
From Verif Require Import Spec Spec1 RsumLemmas C1Tools WeightSpec GwInt GwInt2 GwBound LineProofs GaussShapeSpec GaussShapeProofs GaussErrSpec.
Import ListNotations.
Set Bullet Behavior "Strict Subproofs".
Open Scope R_scope.

(* ------------------------------------------------------------------ derivatives of polynomials *)
Fixpoint dc (k : nat) (c : list R) : list R := match c with [] => [] | a :: c' => INR k * a :: dc (S k) c' end.
Definition pder (c : list R) : list R := dc 1 (tl c).
Lemma dc_length c : forall k, length (dc k c) = length c. Proof. induction c as [|a c IH]; intros k; cbn; auto. Qed.
Lemma dc_nth c : forall k i, nth i (dc k c) 0 = INR (k + i) * nth i c 0.
Proof.
  induction c as [|a c IH]; intros k [|i]; cbn [dc nth]; [ring|ring|rewrite Nat.add_0_r; ring|]. rewrite IH. replace (S k + i)%nat with (k + S i)%nat by lia. reflexivity.
Qed.
Lemma dc_S c : forall k x, peval (dc (S k) c) x = peval c x + peval (dc k c) x.
Proof. induction c as [|a c IH]; intros k x; [cbn; ring|]. cbn [dc peval]. rewrite (IH (S k)), S_INR. ring. Qed.
Lemma peval_derive c x : is_derive (peval c) x (peval (pder c) x).
Proof.
  unfold pder. induction c as [|a c IH]; [apply (is_derive_const (V := R_NormedModule) 0)|]. cbn [tl].
  apply (is_derive_ext (fun y => a + y * peval c y)); [reflexivity|].
  assert (E : peval (dc 1 c) x = 0 + (1 * peval c x + x * peval (dc 1 (tl c)) x)).
  { rewrite dc_S. destruct c as [|b c]; [cbn; ring|]. cbn [dc tl peval]. change (INR 0) with 0. ring. }
  rewrite E. apply (is_derive_plus (V := R_NormedModule) (fun _ => a) (fun y => y * peval c y)); [apply (is_derive_const (V := R_NormedModule))|].
  apply (is_derive_mult (fun y => y) (peval c) x 1 (peval (dc 1 (tl c)) x)); [apply (is_derive_id (K := R_AbsRing))|exact IH|intros; apply Rmult_comm].
Qed.
Lemma peval_Derive c x : Derive (peval c) x = peval (pder c) x. Proof. apply is_derive_unique, peval_derive. Qed.
Fixpoint pdern (m : nat) (c : list R) : list R := match m with O => c | S m' => pder (pdern m' c) end.
Lemma peval_Derive_n m c : forall x, Derive_n (peval c) m x = peval (pdern m c) x.
Proof. induction m as [|m IH]; intros x; [reflexivity|]. cbn [Derive_n pdern]. rewrite (Derive_ext _ _ x IH). apply peval_Derive. Qed.
Lemma peval_ex_derive_n m c x : ex_derive_n (peval c) m x.
Proof. destruct m as [|m]; [exact I|]. cbn [ex_derive_n]. apply (ex_derive_ext (peval (pdern m c))); [intros; symmetry; apply peval_Derive_n|]. eexists. apply peval_derive. Qed.
Lemma pder_length c : length (pder c) = pred (length c). Proof. unfold pder. rewrite dc_length. destruct c; reflexivity. Qed.
Lemma pdern_length m c : length (pdern m c) = (length c - m)%nat.
Proof. induction m as [|m IH]; cbn [pdern]; [lia|]. rewrite pder_length, IH. lia. Qed.
Lemma pder_nth c i : nth i (pder c) 0 = INR (S i) * nth (S i) c 0. Proof. unfold pder. rewrite dc_nth. destruct c as [|a c]; [destruct i; reflexivity|reflexivity]. Qed.
Lemma pdern_nth m c : forall i, nth i (pdern m c) 0 * INR (fact i) = INR (fact (m + i)) * nth (m + i) c 0.
Proof.
  induction m as [|m IH]; intros i; [rewrite Nat.add_0_l; cbn [pdern]; ring|]. cbn [pdern]. rewrite pder_nth. specialize (IH (S i)).
  replace (S m + i)%nat with (m + S i)%nat by lia. rewrite <- IH, fact_simpl, mult_INR. ring.
Qed.
Lemma top_derive m c x : (length c <= S m)%nat -> Derive_n (peval c) m x = INR (fact m) * nth m c 0.
Proof.
  intros L. rewrite peval_Derive_n. assert (LL := pdern_length m c). assert (N := pdern_nth m c 0). rewrite Nat.add_0_r in N. rewrite <- N. cbn [fact INR].
  destruct (pdern m c) as [|a [|b t]]; cbn [length] in LL; [cbn; ring|cbn; ring|lia].
Qed.
(* ------------------------------------------------------------------ the square of the nodal polynomial *)
Lemma padd_nth p : forall q i, nth i (padd p q) 0 = nth i p 0 + nth i q 0.
Proof. induction p as [|a p IH]; intros [|b q] [|i]; cbn; try ring. apply IH. Qed.
Lemma scale_nth c p i : nth i (map (Rmult c) p) 0 = c * nth i p 0.
Proof. rewrite <- (Rmult_0_r c) at 1. apply (map_nth (Rmult c)). Qed.
Lemma pmul_lin_nth u v p i : nth (S i) (pmul_lin u v p) 0 = u * nth (S i) p 0 + v * nth i p 0.
Proof. unfold pmul_lin. rewrite padd_nth. cbn [nth]. rewrite !scale_nth. reflexivity. Qed.
Lemma psq_lead l : nth (2 * length l) (psq l) 0 = 1.
Proof.
  induction l as [|y l IH]; [reflexivity|]. cbn [psq fold_right length]. fold (psq l). replace (2 * S (length l))%nat with (S (S (2 * length l))) by lia.
  assert (A := psq_length l). assert (B := pmul_lin_length (- y) 1 (psq l)). rewrite !pmul_lin_nth.
  rewrite (nth_overflow (psq l) 0 (n := S (S (2 * length l)))) by lia. rewrite (nth_overflow (psq l) 0 (n := S (2 * length l))) by lia. rewrite IH. ring.
Qed.
Lemma psq_der l : forall z, In z l -> Derive (peval (psq l)) z = 0.
Proof.
  induction l as [|y l IH]; intros z Hz; [destruct Hz|]. rewrite (Derive_ext _ (fun x => (x - y) ^ 2 * peval (psq l) x)) by (intros; apply psq_cons).
  assert (D := peval_derive (psq l) z). assert (E : is_derive (fun x => (x - y) ^ 2 * peval (psq l) x) z (2 * (z - y) * peval (psq l) z + (z - y) ^ 2 * peval (pder (psq l)) z)).
  { apply (is_derive_mult (fun x => (x - y) ^ 2) (peval (psq l)) z (2 * (z - y))); [auto_derive; auto; ring|exact D|intros; apply Rmult_comm]. }
  assert (EU := is_derive_unique _ _ _ E). cbn beta in EU. refine (eq_trans EU _). destruct Hz as [<- | Hz]; [ring|]. rewrite psq_0 by auto. specialize (IH z Hz). rewrite peval_Derive in IH. rewrite IH. ring.
Qed.
(** Interpolation of values and slopes. *)
Lemma double_interp (a b : R -> R) Y : NoDup Y -> exists p, (length p <= 2 * length Y)%nat /\ forall y, In y Y -> peval p y = a y /\ peval (pder p) y = b y.
Proof.
  induction Y as [|y Y IH]; intros N; [exists []; split; [cbn; lia|intros y []]|]. inversion_clear N as [|? ? N1 N2]. destruct (IH N2) as (p0 & L0 & H0).
  set (s := peval (psq Y) y). assert (Hs : s <> 0) by (assert (Q := psq_pos Y y N1); unfold s; lra). set (s' := peval (pder (psq Y)) y).
  set (t := (a y - peval p0 y) / s). set (v := (b y - peval (pder p0) y - t * s') / s). set (u := t - v * y).
  set (p := padd p0 (pmul_lin u v (psq Y))). exists p.
  assert (V : forall z, peval p z = peval p0 z + (u + v * z) * peval (psq Y) z) by (intros z; unfold p; rewrite peval_padd, peval_pmul_lin; reflexivity).
  assert (W : forall z, peval (pder p) z = peval (pder p0) z + (v * peval (psq Y) z + (u + v * z) * peval (pder (psq Y)) z)).
  { intros z. rewrite <- peval_Derive. apply is_derive_unique. apply (is_derive_ext (fun z => peval p0 z + (u + v * z) * peval (psq Y) z)); [intros; symmetry; apply V|].
    apply (is_derive_plus (V := R_NormedModule) (peval p0)); [apply peval_derive|]. apply (is_derive_mult (fun z => u + v * z) (peval (psq Y)) z v); [auto_derive; auto; ring|apply peval_derive|intros; apply Rmult_comm]. }
  split.
  - assert (A := psq_length Y). assert (B := pmul_lin_length u v (psq Y)). cbn [length]. apply padd_length; lia.
  - intros z [<- | Hz].
    + rewrite V, W. fold s s'. unfold u. replace (t - v * y + v * y) with t by ring. split; [unfold t; field; auto|unfold v; field; auto].
    + rewrite V, W, <- (peval_Derive (psq Y)), psq_der, psq_0 by auto. destruct (H0 z Hz) as [E1 E2]. rewrite E1, E2. split; ring.
Qed.

(* ------------------------------------------------------------------ Rolle *)
Fixpoint asc (x : R) (l : list R) : Prop := match l with [] => True | y :: l' => x < y /\ asc y l' end.
Lemma asc_low u x l : u <= x -> asc x l -> asc u l. Proof. destruct l as [|y l]; cbn; auto. intros H [H1 H2]. split; [lra|auto]. Qed.
Section Rolle.
Context (D : R -> Prop) (Dc : forall x y z, D x -> D y -> x <= z <= y -> D z).
Lemma rolle1 (g : R -> R) a b : D a -> D b -> (forall x, D x -> ex_derive g x) -> a < b -> g a = 0 -> g b = 0 -> exists z, a < z < b /\ D z /\ Derive g z = 0.
Proof.
  intros Da Db Hd Hab Ga Gb.
  assert (pr : forall x, a < x < b -> derivable_pt g x) by (intros x Hx; apply ex_derive_Reals_0, Hd, (Dc a b); auto; lra).
  destruct (Rolle g a b pr) as (c & P & E); auto.
  - intros x Hx. apply derivable_continuous_pt, ex_derive_Reals_0, Hd, (Dc a b); auto.
  - congruence.
  - exists c. split; [exact P|]. split; [apply (Dc a b); auto; lra|]. rewrite <- E. symmetry. apply Derive_Reals.
Qed.
Lemma rolle_list (g : R -> R) : (forall x, D x -> ex_derive g x) -> forall l x, asc x l -> (forall z, In z (x :: l) -> D z /\ g z = 0) ->
  exists l', length l' = length l /\ asc x l' /\ forall z, In z l' -> D z /\ Derive g z = 0.
Proof.
  intros Hd. induction l as [|y l IH]; intros x HA HZ; [exists []; split; [reflexivity|split; [exact I|intros z []]]|]. destruct HA as [Hxy HA].
  destruct (IH y HA ltac:(intros; apply HZ; right; auto)) as (t & Lt & At & Zt).
  destruct (HZ x ltac:(left; auto)) as [Dx Gx]. destruct (HZ y ltac:(right; left; auto)) as [Dy Gy].
  destruct (rolle1 g x y Dx Dy Hd Hxy Gx Gy) as (z & Hz & Dz & Ez). exists (z :: t). split; [cbn; lia|]. split.
  - cbn. split; [lra|]. apply (asc_low z y); auto. lra.
  - intros v [<- | Hv]; auto.
Qed.
Lemma rolle_n (g : R -> R) N : (forall j x, (j <= N)%nat -> D x -> ex_derive_n g j x) -> forall k j l x, length l = k -> (j + k <= N)%nat -> asc x l -> (forall z, In z (x :: l) -> D z /\ Derive_n g j z = 0) ->
  exists z, D z /\ Derive_n g (j + k) z = 0.
Proof.
  intros Hd. induction k as [|k IH]; intros j l x L HN HA HZ.
  - rewrite Nat.add_0_r. exists x. apply HZ. left. auto.
  - destruct (rolle_list (Derive_n g j)) with (l := l) (x := x) as (l' & L' & A' & Z'); auto; [intros z Dz; apply (Hd (S j) z); auto; lia|].
    destruct l' as [|y l']; [cbn in L'; lia|]. replace (j + S k)%nat with (S j + k)%nat by lia. apply (IH (S j) l' y); [cbn in L'; lia|lia|apply A'|exact Z'].
Qed.
(** Zeros with a flag: [true] for double zeros. *)
Definition flags (l : list (R * bool)) : nat := length (filter snd l).
Lemma rolle_double (g : R -> R) : (forall x, D x -> ex_derive g x) -> forall l x b, asc x (map fst l) -> (forall z f, In (z, f) ((x, b) :: l) -> D z /\ g z = 0 /\ (f = true -> Derive g z = 0)) ->
  exists l', length l' = (length l + flags ((x, b) :: l))%nat /\ (forall u, u < x -> asc u l') /\ forall z, In z l' -> D z /\ Derive g z = 0.
Proof.
  intros Hd. induction l as [|[y f] l IH]; intros x b HA HZ.
  - destruct (HZ x b ltac:(left; auto)) as (Dx & Gx & Fx). destruct b; [exists [x]|exists []].
    + split; [reflexivity|]. split; [intros u Hu; cbn; auto|]. intros z [<- | []]. auto.
    + split; [reflexivity|]. split; [intros u Hu; exact I|]. intros z [].
  - destruct HA as [Hxy HA]. destruct (IH y f HA ltac:(intros; apply HZ; right; auto)) as (t & Lt & At & Zt).
    destruct (HZ x b ltac:(left; auto)) as (Dx & Gx & Fx). destruct (HZ y f ltac:(right; left; auto)) as (Dy & Gy & _).
    destruct (rolle1 g x y Dx Dy Hd Hxy Gx Gy) as (z & Hz & Dz & Ez).
    destruct b; [exists (x :: z :: t)|exists (z :: t)]; (split; [|split]).
    + cbn [length]. rewrite Lt. unfold flags. cbn [filter snd length]. destruct f; cbn [length]; lia.
    + intros u Hu. cbn. split; [auto|]. split; [lra|]. apply At. lra.
    + intros v [<- | [<- | Hv]]; auto.
    + cbn [length]. rewrite Lt. unfold flags. cbn [filter snd length]. destruct f; cbn [length]; lia.
    + intros u Hu. cbn. split; [lra|]. apply At. lra.
    + intros v [<- | Hv]; auto.
Qed.
End Rolle.
Lemma asc_insert z b : forall l u, asc u (map fst l) -> u < z -> ~ In z (map fst l) -> exists l' : list (R * bool), Permutation l' ((z, b) :: l) /\ asc u (map fst l').
Proof.
  induction l as [|[y f] l IH]; intros u HA Hu N; [exists [(z, b)]; split; auto; cbn; auto|]. cbn [map fst] in *. destruct HA as [H1 H2].
  destruct (Rlt_dec z y) as [Hz|Hz].
  - exists ((z, b) :: (y, f) :: l). split; auto. cbn. auto.
  - assert (y <> z) by (intros ->; apply N; left; auto). destruct (IH y H2 ltac:(lra) ltac:(intros Q; apply N; right; auto)) as (l' & P & A). exists ((y, f) :: l'). split; [|cbn; auto].
    eapply Permutation_trans; [apply perm_skip, P|apply perm_swap].
Qed.
Lemma asc_sort u : forall l : list (R * bool), NoDup (map fst l) -> (forall z, In z (map fst l) -> u < z) -> exists l', Permutation l' l /\ asc u (map fst l').
Proof.
  induction l as [|[z b] l IH]; intros N H; [exists []; split; cbn; auto|]. cbn [map fst] in *. inversion_clear N as [|? ? N1 N2]. destruct (IH N2 ltac:(intros; apply H; right; auto)) as (t & P & A).
  destruct (asc_insert z b t u A (H z ltac:(left; auto))) as (l' & P' & A').
  - intros Q. apply N1. apply (Permutation_in _ (Permutation_map fst P)). exact Q.
  - exists l'. split; auto. eapply Permutation_trans; [exact P'|apply perm_skip, P].
Qed.
Lemma below (l : list R) : exists u, forall z, In z l -> u < z.
Proof. induction l as [|y l [u H]]; [exists 0; intros z []|]. exists (Rmin u (y - 1)). assert (A := Rmin_l u (y - 1)). assert (B := Rmin_r u (y - 1)). intros z [<- | Hz]; [lra|]. specialize (H z Hz). lra. Qed.
Lemma flags_perm l l' : Permutation l l' -> flags l = flags l'.
Proof. unfold flags. induction 1; cbn [filter]; auto; [destruct (snd x); cbn; auto|destruct (snd x); destruct (snd y); auto|congruence]. Qed.
Lemma flags_true Y : flags (map (fun y => (y, true)) Y) = length Y. Proof. unfold flags. induction Y; cbn; auto. Qed.

(** |f - p| <= M / (2n)! prod (x - y)^2 *)
Lemma double_error (D : R -> Prop) (Dc : forall x y z, D x -> D y -> x <= z <= y -> D z) (Do : forall x, D x -> locally x D) (f : R -> R) p Y M :
  NoDup Y -> (1 <= length Y)%nat -> (forall y, In y Y -> D y) -> (length p <= 2 * length Y)%nat -> (forall y, In y Y -> peval p y = f y /\ peval (pder p) y = Derive f y) ->
  (forall j x, (j <= 2 * length Y)%nat -> D x -> ex_derive_n f j x) -> (forall x, D x -> Rabs (Derive_n f (2 * length Y) x) <= M) ->
  forall x, D x -> Rabs (f x - peval p x) <= M / INR (fact (2 * length Y)) * peval (psq Y) x.
Proof.
  intros HN Hn HY Lp Hp Hd HM x Dx. set (n := length Y) in *. set (F := INR (fact (2 * n))). assert (PF : 0 < F) by apply INR_fact_lt_0.
  destruct (in_dec Req_EM_T x Y) as [Hx|Hx].
  { rewrite psq_0 by auto. destruct (Hp x Hx) as [-> _]. rewrite Rminus_eq_0, Rabs_R0. lra. }
  assert (Ps := psq_pos Y x Hx). set (K := (f x - peval p x) / peval (psq Y) x). set (c := padd p (map (Rmult K) (psq Y))). set (g := fun z => f z - peval c z).
  assert (Vc : forall z, peval c z = peval p z + K * peval (psq Y) z) by (intros z; unfold c; rewrite peval_padd, peval_scale; reflexivity).
  assert (Lc : (length c <= S (2 * n))%nat) by (assert (A := psq_length Y); fold n in A; apply padd_length; [lia|rewrite map_length; lia]).
  assert (Nc : nth (2 * n) c 0 = K) by (unfold c; rewrite padd_nth, scale_nth; unfold n; rewrite psq_lead, nth_overflow by (fold n; lia); ring).
  assert (Loc : forall z, D z -> locally z (fun y => forall k, (k <= 2 * n)%nat -> ex_derive_n f k y)) by (intros z Hz; generalize (Do z Hz); apply filter_imp; intros y Hy k Hk; apply Hd; auto).
  assert (Loc' : forall z, locally z (fun y => forall k, (k <= 2 * n)%nat -> ex_derive_n (peval c) k y)) by (intros z; apply filter_forall; intros; apply peval_ex_derive_n).
  assert (Gd : forall j z, (j <= 2 * n)%nat -> D z -> ex_derive_n g j z).
  { intros j z Hj Hz. apply ex_derive_n_minus; [generalize (Loc z Hz)|generalize (Loc' z)]; apply filter_imp; intros y Hy k Hk; apply Hy; lia. }
  assert (G2 : forall z, D z -> Derive_n g (2 * n) z = Derive_n f (2 * n) z - F * K).
  { intros z Hz. unfold g. rewrite Derive_n_minus by (auto; apply Loc'). rewrite top_derive by auto. rewrite Nc. reflexivity. }
  set (pts := (x, false) :: map (fun y => (y, true)) Y). assert (Mp : map fst pts = x :: Y) by (unfold pts; cbn [map fst]; f_equal; rewrite map_map; cbn; apply map_id).
  assert (NDp : NoDup (map fst pts)) by (rewrite Mp; constructor; auto). destruct (below (map fst pts)) as [u Hu]. destruct (asc_sort u pts NDp Hu) as (l & Pl & Al).
  assert (Zl : forall z b, In (z, b) l -> D z /\ g z = 0 /\ (b = true -> Derive g z = 0)).
  { intros z b Hz. apply (Permutation_in _ Pl) in Hz. destruct Hz as [E|Hz].
    - injection E as <- <-. split; [auto|]. split; [|discriminate]. unfold g. rewrite Vc. unfold K. field. lra.
    - apply in_map_iff in Hz. destruct Hz as (y & E & Hy). injection E as <- <-. destruct (Hp y Hy) as [E1 E2]. split; [auto|]. split.
      + unfold g. rewrite Vc, psq_0, E1 by auto. ring.
      + intros _. unfold g. rewrite Derive_minus; [|apply (Hd 1%nat y); [lia|auto]|eexists; apply peval_derive]. rewrite (Derive_ext (peval c) (fun z => peval p z + K * peval (psq Y) z)) by apply Vc.
        rewrite Derive_plus; [|eexists; apply peval_derive|apply ex_derive_scal; eexists; apply peval_derive]. rewrite Derive_scal, psq_der, peval_Derive, E2 by auto. ring. }
  assert (Ll := Permutation_length Pl). assert (Fl := flags_perm _ _ Pl). unfold pts in Ll, Fl. cbn [length] in Ll. rewrite map_length in Ll. fold n in Ll.
  assert (Fl' : flags l = n) by (rewrite Fl; unfold flags; cbn [filter snd]; apply flags_true).
  destruct l as [|[z0 b0] l]; [cbn in Ll; lia|]. destruct Al as [_ Al].
  destruct (rolle_double D Dc g) with (l := l) (x := z0) (b := b0) as (l1 & L1 & A1 & Z1); auto; [intros z Hz; apply (Gd 1%nat z); [lia|auto]|].
  rewrite Fl' in L1. cbn [length] in Ll. destruct l1 as [|y1 l1]; [cbn in L1; lia|]. specialize (A1 (z0 - 1) ltac:(lra)). destruct A1 as [_ A1].
  destruct (rolle_n D Dc g (2 * n) Gd (2 * n - 1) 1 l1 y1) as (xi & Dxi & Exi); auto; [cbn in L1; lia|lia|].
  replace (1 + (2 * n - 1))%nat with (2 * n)%nat in Exi by lia. rewrite G2 in Exi by auto. assert (B := HM xi Dxi).
  assert (EK : K = Derive_n f (2 * n) xi / F) by (apply Rmult_eq_reg_l with F; [|lra]; unfold Rdiv; field_simplify; lra).
  replace (f x - peval p x) with (K * peval (psq Y) x) by (unfold K; field; lra). rewrite Rabs_mult, (Rabs_pos_eq (peval (psq Y) x)) by lra. apply Rmult_le_compat_r; [lra|].
  rewrite EK. unfold Rdiv. rewrite Rabs_mult, (Rabs_pos_eq (/ F)) by (left; apply Rinv_0_lt_compat; auto). apply Rmult_le_compat_r; [left; apply Rinv_0_lt_compat; auto|exact B].
Qed.

(* ------------------------------------------------------------------ the error of the rule *)
Lemma nodal_psq q x : nodal_square q x = peval (psq (map snd q)) x.
Proof. unfold nodal_square. induction q as [|[w y] q IH]; [cbn; ring|]. cbn [fold_right map snd]. rewrite psq_cons, <- IH. reflexivity. Qed.
Section Error.
Context (Fa Fb : (R -> Prop) -> Prop) (PFa : ProperFilter Fa) (PFb : ProperFilter Fb).
Context (D : R -> Prop) (Da : Fa D) (Db : Fb D) (Dc : forall x y z, D x -> D y -> x <= z <= y -> D z) (Do : forall x, D x -> locally x D).
Lemma gauss_int_error (Hab : filter_prod Fa Fb (fun ab => fst ab <= snd ab)) (w f : R -> R) q n M (N : R) :
  (forall x, D x -> 0 <= w x) -> (forall x, D x -> continuous w x) -> length q = n -> (1 <= n)%nat -> proper_rule D q ->
  (forall c, (length c <= 2 * n)%nat -> is_RInt_gen (fun x => w x * peval c x) Fa Fb (apply1 q (peval c))) -> is_RInt_gen (fun x => w x * peval (psq (map snd q)) x) Fa Fb N ->
  (forall j x, (j <= 2 * n)%nat -> D x -> ex_derive_n f j x) -> (forall x, D x -> Rabs (Derive_n f (2 * n) x) <= M) ->
  exists I : R, is_RInt_gen (fun x => w x * f x) Fa Fb I /\ Rabs (apply1 q f - I) <= M * N / INR (fact (2 * n)).
Proof.
  intros Hw Cw Ln Hn [ND HW] X HN Hd HM. set (Y := map snd q). assert (LY : length Y = n) by (unfold Y; rewrite map_length; auto).
  assert (HY : forall y, In y Y -> D y) by (intros y Hy; apply in_map_iff in Hy; destruct Hy as ([v z] & E & Hz); cbn [snd] in E; subst z; apply (HW v y Hz)).
  destruct (double_interp f (Derive f) Y ND) as (p & Lp & Hp). rewrite <- LY in Hd, HM, Hn.
  assert (HE := double_error D Dc Do f p Y M ND Hn HY Lp Hp Hd HM). rewrite LY in *. set (B := M / INR (fact (2 * n))) in *.
  assert (Cf : forall x, D x -> continuous f x) by (intros x Hx; apply (ex_derive_continuous (V := R_NormedModule)); apply (Hd 1%nat x); [lia|auto]).
  assert (Hg := gen_scal _ _ _ _ _ B _ HN). set (g := fun x => B * (w x * peval (psq Y) x)) in *. set (e := fun x => w x * (f x - peval p x)).
  assert (Cg : forall x, D x -> continuous g x) by (intros x Hx; apply (continuous_scal_r (K := R_AbsRing) (V := R_NormedModule)); apply (continuous_mult (K := R_AbsRing) w (peval (psq Y))); [auto|apply peval_continuous]).
  assert (Ce : forall x, D x -> continuous e x) by (intros x Hx; apply (continuous_mult (K := R_AbsRing) w (fun y => f y - peval p y)); auto; apply (continuous_minus (V := R_NormedModule) f (peval p)); [auto|apply peval_continuous]).
  assert (He : forall x, D x -> Rabs (e x) <= g x).
  { intros x Hx. unfold e, g. rewrite Rabs_mult, (Rabs_pos_eq (w x)) by auto. replace (B * (w x * peval (psq Y) x)) with (w x * (B * peval (psq Y) x)) by ring. apply Rmult_le_compat_l; auto. }
  destruct (gen_dom Fa Fb PFa PFb D Da Db Dc e g (B * N) Ce Cg He Hg) as [J HJ].
  assert (NJ : Rabs J <= B * N).
  { apply (RInt_gen_norm (V := R_CompleteNormedModule) (Fa := Fa) (Fb := Fb) e g J (B * N) Hab); auto.
    apply (Filter_prod _ _ _ D D Da Db). intros a b Ha Hb x Hx. cbn [fst snd] in Hx. apply He. apply (Dc a b); auto. }
  assert (EQ : apply1 q f = apply1 q (peval p)).
  { unfold apply1. apply Rsum_map_ext. intros [v z] Hz. cbn [fst snd]. destruct (Hp z) as [-> _]; [unfold Y; apply in_map_iff; exists (v, z); auto|reflexivity]. }
  exists (1 * J + 1 * apply1 q (peval p)). split.
  - assert (S := gen_lin Fa Fb PFa PFb _ _ 1 1 _ _ HJ (X p Lp)). refine (gen_ext Fa Fb PFa PFb D Da Db Dc _ _ _ _ S). intros x Hx. unfold e. cbn beta. ring.
  - rewrite EQ. replace (apply1 q (peval p) - (1 * J + 1 * apply1 q (peval p))) with (- J) by ring. rewrite Rabs_Ropp. eapply Rle_trans; [exact NJ|]. right. unfold B, Rdiv. ring.
Qed.
End Error.
Lemma jDo x : jD x -> locally x jD.
Proof. intros [H1 H2]. apply (locally_interval _ x (-1) 1); cbn; auto. intros y A B. split; auto. Qed.
Lemma lDo x : lD x -> locally x lD.
Proof. intros H. apply (locally_interval _ x 0 p_infty); cbn; auto. Qed.
Lemma hDo x : hD x -> locally x hD.
Proof. intros H. apply filter_forall. intros; exact I. Qed.
Lemma j_ab : filter_prod (at_right (-1)) (at_left 1) (fun ab => fst ab <= snd ab).
Proof.
  apply (Filter_prod _ _ _ (fun x => x < 0) (fun x => 0 < x)); [| |intros; cbn; lra]; exists (mkposreal 1 Rlt_0_1); intros y Hy _.
  - change (Rabs (y - -1) < 1) in Hy. apply Rabs_def2 in Hy. lra.
  - change (Rabs (y - 1) < 1) in Hy. apply Rabs_def2 in Hy. lra.
Qed.
Lemma nodal_attains q n : length q = n -> (forall j x, ex_derive_n (nodal_square q) j x) /\ (forall x, Derive_n (nodal_square q) (2 * n) x = INR (fact (2 * n))) /\ apply1 q (nodal_square q) = 0.
Proof.
  intros L. assert (LY : length (map snd q) = n) by (rewrite map_length; auto). split; [|split].
  - intros j x. apply (ex_derive_n_ext (peval (psq (map snd q)))); [intros; symmetry; apply nodal_psq|apply peval_ex_derive_n].
  - intros x. rewrite (Derive_n_ext _ (peval (psq (map snd q)))) by (intros; apply nodal_psq). assert (A := psq_length (map snd q)). rewrite LY in A.
    rewrite top_derive by lia. rewrite <- LY, psq_lead. ring.
  - unfold apply1. rewrite (Rsum_map_ext _ (fun _ => 0)). + clear. induction q; cbn; lra.
    + intros [w x] H. cbn [fst snd]. rewrite nodal_psq, psq_0 by (apply in_map_iff; exists (w, x); auto). ring.
Qed.
