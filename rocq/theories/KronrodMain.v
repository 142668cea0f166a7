(** Gauss-Kronrod rules: number of points, degree, positive weights and the Gauss rule inside. *)
From Coq Require Import Reals List Arith ZArith Bool Lia Lra Sorted.
From Verif Require Import Spec Spec1 RsumLemmas AdaptModel PyBase UnModel C1Model Interp C1Proofs GwSpec GwModel GwProofs GwExist GwRc GwRadau QuadProofs KronrodModel KronrodAlg KronrodProofs.
Import ListNotations.
Set Bullet Behavior "Strict Subproofs".
Open Scope R_scope.

(* ------------------------------------------------------------------ rules that agree on polynomials *)
Lemma mu_pol d mu q1 q2 f : exact1_mu d mu q1 -> exact1_mu d mu q2 -> pol (S d) f -> apply1 q1 f = apply1 q2 f.
Proof.
  intros H1 H2 [c [Lc Ec]]. rewrite (apply1_fext q1 f (peval c)), (apply1_fext q2 f (peval c)) by auto. clear f Ec.
  assert (G : forall c k, (k + length c <= S d)%nat -> apply1 q1 (fun x => x ^ k * peval c x) = apply1 q2 (fun x => x ^ k * peval c x)).
  { clear c Lc. induction c as [|u c IH]; intros k L.
    - assert (Z : forall q, apply1 q (fun x => x ^ k * peval [] x) = 0) by (intros q; unfold apply1; apply Rsum_map_zero; intros; cbn [peval]; ring). rewrite !Z. auto.
    - cbn [length] in L. assert (E : forall q, apply1 q (fun x => x ^ k * peval (u :: c) x) = u * apply1 q (fun x => x ^ k) + apply1 q (fun x => x ^ S k * peval c x)).
      { intros q. rewrite (apply1_fext q _ (fun x => u * x ^ k + 1 * (x ^ S k * peval c x) + 0 * 0)) by (intros x; cbn [peval pow]; ring).
        rewrite (apply1_lin q u 1 0 (fun x => x ^ k) (fun x => x ^ S k * peval c x) (fun _ => 0)). ring. }
      rewrite !E, IH by lia. rewrite (H1 k), (H2 k) by lia. auto. }
  specialize (G c 0%nat ltac:(lia)). rewrite (apply1_fext q1 _ (peval c)), (apply1_fext q2 _ (peval c)) in G by (intros; cbn [pow]; ring). auto.
Qed.

(** The nodes of an n-point rule of degree 2 n - 1 are determined. *)
Lemma gauss_unique mu n g gl : (1 <= n)%nat -> length g = n -> length gl = n -> NoDup (map snd g) -> List.Forall (fun wx => fst wx <> 0) g -> exact1_mu (2 * n - 1) mu g -> exact1_mu (2 * n - 1) mu gl ->
  forall z, In z (map snd g) -> In z (map snd gl).
Proof.
  intros Hn Lg Ll ND HW H1 H2 z Hz. apply in_map_iff in Hz. destruct Hz as [[w z'] [E Hin]]. cbn [snd] in E. subst z'.
  assert (Hw : w <> 0) by (rewrite List.Forall_forall in HW; apply (HW (w, z) Hin)).
  apply in_split in Hin. destruct Hin as [g1 [g2 Eg]]. subst g. set (others := map snd (g1 ++ g2)). rewrite map_app in ND. cbn [map snd] in ND. apply NoDup_remove_2 in ND. rewrite <- map_app in ND. fold others in ND.
  rewrite app_length in Lg. cbn [length] in Lg. assert (Lo : length others = (n - 1)%nat) by (unfold others; rewrite map_length, app_length; lia).
  set (f := fun x => rprod (map snd gl) x * rprod others x).
  assert (Pf : pol (S (2 * n - 1)) f).
  { assert (P := pol_mul _ _ _ _ (proj1 (pol_rprod (map snd gl))) (proj1 (pol_rprod others))). rewrite Lo, map_length, Ll in P. eapply pol_le; [|exact P]. lia. }
  assert (E := mu_pol _ _ _ _ f H1 H2 Pf).
  assert (Z : apply1 gl f = 0) by (unfold apply1; apply Rsum_map_zero; intros [w0 x0] Hx; cbn [fst snd]; unfold f; rewrite rprod_root by (apply (in_map snd _ _ Hx)); ring).
  assert (Z1 : forall h, (forall wx, In wx h -> In wx (g1 ++ g2)) -> apply1 h f = 0).
  { intros h Hh. unfold apply1. apply Rsum_map_zero. intros [w0 x0] Hx. cbn [fst snd]. unfold f. rewrite (rprod_root others) by (apply (in_map snd (g1 ++ g2) (w0, x0)); auto). ring. }
  assert (E2 : apply1 (g1 ++ (w, z) :: g2) f = w * f z).
  { assert (EA : apply1 (g1 ++ (w, z) :: g2) f = apply1 g1 f + (w * f z + apply1 g2 f)) by (unfold apply1; rewrite map_app, Rsum_app; reflexivity). rewrite EA.
    rewrite (Z1 g1), (Z1 g2) by (intros; apply in_or_app; auto). ring. }
  rewrite E2, Z in E. unfold f in E. apply Rmult_integral in E. destruct E as [|E]; [tauto|]. apply Rmult_integral in E. destruct E as [E|E]; apply rprod_zero in E; [auto|tauto].
Qed.
(** Strictly positive weights. *)
Lemma scheme_from_rc_positive eigh alpha beta int_1 n x w : eigen_solver eigh -> length alpha = S n -> length beta = S n -> List.Forall (fun b => 0 < b) (tl beta) -> 0 < int_1 ->
  scheme_from_rc eigh alpha beta int_1 = Some (x, w) -> List.Forall (fun v => 0 < v) w.
Proof.
  intros HE La Lb Hb Hi E. destruct (scheme_from_rc_run eigh alpha beta int_1 n HE La Lb Hb) as [x' [V [ER [HD [Hne Hsq]]]]]. rewrite E in ER. injection ER as -> ->.
  apply List.Forall_forall. intros v Hv. apply in_map_iff in Hv. destruct Hv as [u [<- Hu]]. apply Rmult_lt_0_compat; auto. destruct (In_nth _ _ 0 Hu) as [k [Hk Ek]].
  assert (Lk : (k < S n)%nat). { destruct HD as [_ [HV [HF _]]]. rewrite La in *. rewrite List.Forall_forall in HF. rewrite (HF (nth 0 V [])) in Hk; auto. apply nth_In. lia. }
  assert (N := gw_first alpha (map sqrt (tl beta)) x' V n La HD Hne k Lk). unfold entry in N. rewrite Ek in N. nra.
Qed.
Lemma opt_list_sqrt_inv l e : opt_list rsqrt l = Some e -> List.Forall (fun b => 0 <= b) l.
Proof.
  revert e. induction l as [|b l IH]; intros e H; [apply List.Forall_nil|]. cbn [opt_list] in H. unfold rsqrt at 1 in H. destruct (Rle_dec 0 b); [|discriminate H]. cbn [bind] in H.
  destruct (opt_list rsqrt l) as [e'|] eqn:E; [|discriminate H]. apply List.Forall_cons; eauto.
Qed.

Lemma gauss_positive eigh rc mu n g : eigen_solver eigh -> good_rc rc mu -> gauss_from_rc eigh rc n = Some g -> List.Forall (fun wx => fst wx <> 0) (c1_rule g).
Proof.
  intros HE [Gb [Gm [Gi GO]]] EG. unfold gauss_from_rc in EG. destruct n as [|n]; [discriminate EG|]. cbn [Nat.eqb] in EG.
  destruct (scheme_from_rc eigh (map (rc_alpha rc) (seq 0 (S n))) (map (rc_beta rc) (seq 0 (S n))) (rc_int rc)) as [[xg wg]|] eqn:EQ; [|discriminate EG]. cbn [bind] in EG. injection EG as <-.
  assert (HT : List.Forall (fun b => 0 < b) (tl (map (rc_beta rc) (seq 0 (S n))))).
  { rewrite tl_seq. apply List.Forall_forall. intros v Hv. apply in_map_iff in Hv. destruct Hv as [k [<- Hk]]. apply in_seq in Hk. apply Gb. lia. }
  assert (HPG := scheme_from_rc_positive eigh _ _ _ n xg wg HE ltac:(rewrite map_length, seq_length; auto) ltac:(rewrite map_length, seq_length; auto) HT Gi EQ).
  unfold c1_of, c1_scheme_of. cbn [c1_rule fst snd]. apply List.Forall_forall. intros [w0 x0] Hin. cbn [fst]. apply in_combine_l in Hin. rewrite List.Forall_forall in HPG. apply Rgt_not_eq. apply HPG. auto.
Qed.

(* ------------------------------------------------------------------ the result of gauss_kronrod *)
Definition kronrod_beta (rc : recurrence) (k : nat) : R := match k with O => rc_int rc | _ => rc_beta rc k end.
Lemma kronrod_data eigh rc mu n s : good_rc rc mu -> gauss_kronrod eigh rc n = Some s ->
  exists a b pw, r_kronrod 0 Rplus Rminus Rmult rdiv n (rc_alpha rc) (kronrod_beta rc) = Some (a, b) /\ (1 <= n)%nat /\
    scheme_from_rc eigh (map a (seq 0 (2 * n + 1))) (map b (seq 0 (2 * n + 1))) (rc_int rc) = Some pw /\ s = c1_of (2 * Z.of_nat ((3 * n + 1) / 2 + 1) + 1) pw /\
    (forall i, (i <= 3 * n / 2)%nat -> a i = rc_alpha rc i) /\ (forall i, (0 < i <= (3 * n + 1) / 2)%nat -> b i = rc_beta rc i) /\
    (forall i, (0 < i <= 2 * n)%nat -> 0 < b i) /\ (forall x, monic a b n x = monic (shift a (n + 1)) (shift b (n + 1)) n x) /\
    (forall h, n = (2 * h + 1)%nat -> (forall i, rc_alpha rc i = 0) -> a (3 * n / 2 + 1)%nat = 0).
Proof.
  intros [Gb [Gm [Gi GO]]] E. unfold gauss_kronrod in E. fold (kronrod_beta rc) in E. destruct (r_kronrod 0 Rplus Rminus Rmult rdiv n (rc_alpha rc) (kronrod_beta rc)) as [[a b]|] eqn:ER; [|discriminate E]. cbn [bind fst snd] in E.
  destruct (scheme_from_rc eigh (map a (seq 0 (2 * n + 1))) (map b (seq 0 (2 * n + 1))) (rc_int rc)) as [pw|] eqn:ES; [|discriminate E]. cbn [bind] in E. injection E as <-.
  destruct (r_kronrod_table _ _ _ _ _ ER) as [Hn [Ha [Hb [tau [T0 [TD [TR [TN TZ]]]]]]]]. exists a, b, pw. split; auto. split; auto. split; auto. split; auto. split; auto.
  assert (Hb' : forall i, (0 < i <= (3 * n + 1) / 2)%nat -> b i = rc_beta rc i) by (intros i Hi; rewrite Hb by lia; unfold kronrod_beta; destruct i; [lia|auto]). split; auto. split.
  - intros i Hi. assert (P : 0 <= b i).
    { unfold scheme_from_rc in ES. destruct (opt_list rsqrt (tl (map b (seq 0 (2 * n + 1))))) as [e|] eqn:EO; [|discriminate ES]. apply opt_list_sqrt_inv in EO. rewrite List.Forall_forall in EO. apply EO.
      replace (2 * n + 1)%nat with (S (2 * n)) by lia. rewrite tl_seq. apply in_map. apply in_seq. lia. }
    assert (b i <> 0); [|lra]. pose proof (half_gt (3 * n + 1)) as Q. destruct (le_lt_dec i n) as [L|L]; [apply Rgt_not_eq; rewrite Hb' by lia; apply Gb; lia|].
    destruct (Nat.eq_dec i (n + 1)) as [->|N].
    + rewrite <- T0. apply (diag_nonzero n b tau Hn TD TZ). lia.
    + assert (D := diag_factor n b tau Hn TD TZ (i - n - 2) ltac:(lia)). unfold shift in D. replace (n + 1 + S (i - n - 2))%nat with i in D by lia. auto.
  - split; [intros x; apply (same_poly n a b tau); auto|]. intros h Hh Z. apply (next_alpha n a b tau h); auto; [apply TN; lia|]. intros i Hi. rewrite Ha by auto. auto.
Qed.
Theorem kronrod_exact eigh rc mu n s : eigen_solver eigh -> good_rc rc mu -> gauss_kronrod eigh rc n = Some s ->
  length (c1_rule s) = (2 * n + 1)%nat /\ c1_degree s = (2 * Z.of_nat ((3 * n + 1) / 2) + 3)%Z /\ exact1_mu (3 * n + 1) mu (c1_rule s) /\ List.Forall (fun wx => 0 < fst wx) (c1_rule s) /\ Sorted Rle (map snd (c1_rule s)) /\
  (forall gl, length gl = n -> Sorted Rle (map snd gl) -> exact1_mu (2 * n - 1) mu gl -> nested (c1_rule s) gl).
Proof.
  intros HE HG E. destruct (kronrod_data _ _ _ _ _ HG E) as [a [b [[x w] [ER [Hn [ES [-> [Ha [Hb [Hp [Hq _]]]]]]]]]]]. assert (HG' := HG). destruct HG as [Gb [Gm [Gi GO]]].
  pose proof (half_le (3 * n)) as Q1. pose proof (half_gt (3 * n)) as Q2. pose proof (half_le (3 * n + 1)) as Q3. pose proof (half_gt (3 * n + 1)) as Q4.
  set (al := map a (seq 0 (2 * n + 1))) in *. set (be := map b (seq 0 (2 * n + 1))) in *.
  assert (La : length al = S (2 * n)) by (unfold al; rewrite map_length, seq_length; lia). assert (Lb : length be = S (2 * n)) by (unfold be; rewrite map_length, seq_length; lia).
  assert (Nal : forall i, (i <= 2 * n)%nat -> nth i al 0 = a i) by (intros i L; unfold al; apply nth_seq; lia). assert (Nbe : forall i, (i <= 2 * n)%nat -> nth i be 0 = b i) by (intros i L; unfold be; apply nth_seq; lia).
  assert (Hpos : List.Forall (fun b => 0 < b) (tl be)).
  { unfold be. replace (2 * n + 1)%nat with (S (2 * n)) by lia. rewrite tl_seq. apply List.Forall_forall. intros v Hv. apply in_map_iff in Hv. destruct Hv as [k [<- Hk]]. apply in_seq in Hk. apply Hp. lia. }
  destruct (scheme_from_rc_exact eigh al be (rc_int rc) (2 * n) (rc_alpha rc) (rc_beta rc) mu (2 * n + 2) (3 * n + 1) (3 * n / 2 + 1) ((3 * n + 1) / 2 + 1) HE La Lb Hpos (GO _) Gm) as [x' [w' [ER' [Lx [Lw [HS [HX [HW HC]]]]]]]].
  - intros i L. rewrite Nal by lia. apply Ha. lia.
  - intros i L. rewrite Nbe by lia. apply Hb. lia.
  - lia.
  - intros k Hk. lia.
  - intros k Hk. lia.
  - rewrite ES in ER'. injection ER' as <- <-. assert (HP := scheme_from_rc_positive _ _ _ _ _ _ _ HE La Lb Hpos Gi ES). unfold c1_of, c1_scheme_of. cbn [c1_rule c1_degree fst snd].
    rewrite combine_rule_points by lia. split; [rewrite combine_length; lia|]. split; [lia|]. split; auto. split; [|split; auto].
    + apply List.Forall_forall. intros [w0 x0] Hin. cbn [fst]. apply in_combine_l in Hin. rewrite List.Forall_forall in HP. auto.
    + intros gl Lg Sg Xg. unfold nested. rewrite combine_rule_points by lia. destruct (kronrod_interlace a b n Hn Hp Hq) as [xs [zs [I1 [I2 [I3 [I4 [I5 [I6 I7]]]]]]]].
      assert (Ex : x = zs).
      { apply sorted_zeros_eq; auto; [|lia]. intros r Hr. apply HC. etransitivity; [|exact (I6 r Hr)]. replace (2 * n + 1)%nat with (S (2 * n)) by lia. apply monic_ext; intros i L; [apply Nal; lia|apply Nbe; lia]. }
      rewrite Ex, I7. destruct (gauss_exact eigh rc mu n HE HG' Hn) as [g [EG [_ [Lgg [XG [_ [SG ZG]]]]]]].
      assert (PG := gauss_positive eigh rc mu n g HE HG' EG).
      assert (Zp : forall r, monic (rc_alpha rc) (rc_beta rc) n r = monic a b n r) by (intros r; apply monic_ext; intros i L; symmetry; [apply Ha; lia|apply Hb; lia]).
      assert (Exs : map snd (c1_rule g) = xs) by (apply sorted_zeros_eq; auto; [intros r Hr; apply ZG; rewrite Zp; apply I3; auto|rewrite map_length; lia]).
      symmetry. apply sorted_zeros_eq; auto; [|rewrite map_length; lia]. rewrite <- Exs. apply (gauss_unique mu n (c1_rule g) gl); auto.
      rewrite Exs. rewrite <- (rev_involutive xs). apply NoDup_rev. apply desc_nodup. clear - I1. induction I1 as [|r l HS IH HF]; cbn; [constructor|]. apply desc_app; auto. apply Forall_rev. auto.
Qed.

(** For symmetric weights and odd n the degree is one higher. *)
Theorem kronrod_exact_odd eigh rc mu n h s : eigen_solver eigh -> good_rc rc mu -> (forall i, rc_alpha rc i = 0) -> n = (2 * h + 1)%nat -> gauss_kronrod eigh rc n = Some s -> exact1_mu (3 * n + 2) mu (c1_rule s).
Proof.
  intros HE HG HZ Hh E. destruct (kronrod_data _ _ _ _ _ HG E) as [a [b [[x w] [ER [Hn [ES [-> [Ha [Hb [Hp [_ Hodd]]]]]]]]]]]. destruct HG as [Gb [Gm [Gi GO]]]. specialize (Hodd h Hh HZ).
  pose proof (half_le (3 * n)) as Q1. pose proof (half_gt (3 * n)) as Q2. pose proof (half_le (3 * n + 1)) as Q3. pose proof (half_gt (3 * n + 1)) as Q4.
  set (al := map a (seq 0 (2 * n + 1))) in *. set (be := map b (seq 0 (2 * n + 1))) in *.
  assert (La : length al = S (2 * n)) by (unfold al; rewrite map_length, seq_length; lia). assert (Lb : length be = S (2 * n)) by (unfold be; rewrite map_length, seq_length; lia).
  assert (Nal : forall i, (i <= 2 * n)%nat -> nth i al 0 = a i) by (intros i L; unfold al; apply nth_seq; lia). assert (Nbe : forall i, (i <= 2 * n)%nat -> nth i be 0 = b i) by (intros i L; unfold be; apply nth_seq; lia).
  assert (Hpos : List.Forall (fun b => 0 < b) (tl be)).
  { unfold be. replace (2 * n + 1)%nat with (S (2 * n)) by lia. rewrite tl_seq. apply List.Forall_forall. intros v Hv. apply in_map_iff in Hv. destruct Hv as [k [<- Hk]]. apply in_seq in Hk. apply Hp. lia. }
  destruct (scheme_from_rc_exact eigh al be (rc_int rc) (2 * n) (rc_alpha rc) (rc_beta rc) mu (2 * n + 2) (3 * n + 2) (3 * n / 2 + 2) ((3 * n + 1) / 2 + 1) HE La Lb Hpos (GO _) Gm) as [x' [w' [ER' [Lx [Lw [HS [HX [HW HC]]]]]]]].
  - intros i L. rewrite Nal by lia. destruct (le_lt_dec i (3 * n / 2)) as [L1|L1]; [apply Ha; lia|]. replace i with (3 * n / 2 + 1)%nat by lia. rewrite Hodd, HZ. auto.
  - intros i L. rewrite Nbe by lia. apply Hb. lia.
  - lia.
  - intros k Hk. lia.
  - intros k Hk. lia.
  - rewrite ES in ER'. injection ER' as <- <-. exact HX.
Qed.
(** How far the degree can reach: the declared one requires that the first off-diagonal coefficient that the algorithm computes
    is the one of the given recurrence. *)
Theorem kronrod_limit eigh rc mu n s a b : eigen_solver eigh -> good_rc rc mu -> (forall i, rc_alpha rc i = 0) -> (2 <= n)%nat -> gauss_kronrod eigh rc n = Some s ->
  r_kronrod 0 Rplus Rminus Rmult rdiv n (rc_alpha rc) (kronrod_beta rc) = Some (a, b) -> exact1_mu (2 * ((3 * n + 1) / 2 + 1)) mu (c1_rule s) -> b ((3 * n + 1) / 2 + 1)%nat = rc_beta rc ((3 * n + 1) / 2 + 1)%nat.
Proof.
  intros HE HG HZ Hn2 E ER0 HX. destruct (kronrod_data _ _ _ _ _ HG E) as [a' [b' [[x w] [ER [Hn [ES [-> [Ha [Hb [Hp [_ Hodd]]]]]]]]]]]. destruct HG as [Gb [Gm [Gi GO]]]. rewrite ER0 in ER. injection ER as <- <-.
  pose proof (half_le (3 * n)) as Q1. pose proof (half_gt (3 * n)) as Q2. pose proof (half_le (3 * n + 1)) as Q3. pose proof (half_gt (3 * n + 1)) as Q4. set (M := ((3 * n + 1) / 2 + 1)%nat) in *.
  assert (Ha' : forall i, (i < M)%nat -> a i = 0).
  { intros i L. destruct (le_lt_dec i (3 * n / 2)) as [L1|L1]; [rewrite Ha by lia; auto|]. replace i with (3 * n / 2 + 1)%nat by (unfold M in *; lia). apply (Hodd (n / 2)%nat); auto. pose proof (half_le n). pose proof (half_gt n). unfold M in *. lia. }
  set (al := map a (seq 0 (2 * n + 1))) in *. set (be := map b (seq 0 (2 * n + 1))) in *.
  assert (La : length al = S (2 * n)) by (unfold al; rewrite map_length, seq_length; lia). assert (Lb : length be = S (2 * n)) by (unfold be; rewrite map_length, seq_length; lia).
  assert (Nal : forall i, (i <= 2 * n)%nat -> nth i al 0 = a i) by (intros i L; unfold al; apply nth_seq; lia). assert (Nbe : forall i, (i <= 2 * n)%nat -> nth i be 0 = b i) by (intros i L; unfold be; apply nth_seq; lia).
  assert (Hpos : List.Forall (fun b => 0 < b) (tl be)).
  { unfold be. replace (2 * n + 1)%nat with (S (2 * n)) by lia. rewrite tl_seq. apply List.Forall_forall. intros v Hv. apply in_map_iff in Hv. destruct Hv as [k [<- Hk]]. apply in_seq in Hk. apply Hp. lia. }
  destruct (scheme_from_rc_run eigh al be (rc_int rc) (2 * n) HE La Lb Hpos) as [x' [V [ER' [HD [Hne Hsq]]]]]. rewrite ES in ER'. injection ER' as -> ->.
  unfold c1_of, c1_scheme_of in HX. cbn [c1_rule fst snd] in HX. fold (gw_rule (rc_int rc) x' V) in HX. set (nu := fun j => apply1 (gw_rule (rc_int rc) x' V) (fun x => x ^ j)).
  assert (HO : orthogonal a b nu (S (2 * n))).
  { intros k m Hkm. rewrite <- (gw_orthogonal al (map sqrt (tl be)) x' V (2 * n) La HD Hne (rc_int rc) k m Hkm). apply lmonic_ext; intros i L; unfold arec, brec.
    - symmetry. apply Nal. lia.
    - rewrite Hsq by lia. replace (S (i - 1)) with i by lia. symmetry. apply Nbe. lia. }
  assert (LM : (M < S (2 * n))%nat) by (unfold M; lia).
  assert (N1 := lmonic_norm a b nu _ HO M LM). assert (N2 := lmonic_norm _ _ mu _ (GO (S M)) M ltac:(lia)).
  assert (EqM : forall j, (j <= 2 * M)%nat -> nu j = mu j) by (intros j L; apply HX; auto).
  assert (EX : lmonic a b nu M M = lmonic (rc_alpha rc) (rc_beta rc) nu M M) by (apply lmonic_ext; intros i L; [rewrite Ha' by lia; auto|apply Hb; unfold M in L; lia]). rewrite EX in N1.
  assert (D := lmonic_diff (rc_alpha rc) (rc_beta rc) mu nu M M ltac:(intros j L; symmetry; apply EqM; lia)). rewrite (EqM (M + M)%nat) in D by lia. rewrite N1, N2, (EqM 0%nat) in D by lia.
  assert (MM : M = S ((3 * n + 1) / 2)) by (unfold M; lia). rewrite MM in *. cbn [bprod] in D.
  assert (BE : forall k, (k <= (3 * n + 1) / 2)%nat -> bprod b k = bprod (rc_beta rc) k) by (induction k as [|k IH]; intros L; cbn [bprod]; auto; rewrite IH by lia; rewrite Hb by lia; auto).
  rewrite BE in D by lia. assert (BP : forall k, 0 < bprod (rc_beta rc) k) by (induction k as [|k IH]; cbn [bprod]; [lra|apply Rmult_lt_0_compat; auto; apply Gb; lia]).
  specialize (BP ((3 * n + 1) / 2)%nat). rewrite Gm in D. assert (F : rc_int rc * bprod (rc_beta rc) ((3 * n + 1) / 2) * (rc_beta rc (S ((3 * n + 1) / 2)) - b (S ((3 * n + 1) / 2))) = 0) by lra.
  apply Rmult_integral in F. destruct F as [F|F]; [|lra]. apply Rmult_integral in F. destruct F; lra.
Qed.
