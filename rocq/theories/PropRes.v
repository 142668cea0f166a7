(** C90: what the residuals of a scheme for the sphere say.  [spherical_harmonics] is explained in ResSpec.v. *)
From Coq Require Import Reals List Arith Lia Lra Permutation.
From Coquelicot Require Import Coquelicot.
From Verif Require Import Spec RsumLemmas IntegralSpec SphereSpec ConvNdSpec WeierNd ConvNdExt ConvNdProofs CombProofs PolyFun IterInt RadialInt RoundProofs PyBase OrbitModel StrModel PropStr ResSpec ResModel FixSpec U3Model U3Proofs U3Sphere.
Import ListNotations.
Set Bullet Behavior "Strict Subproofs".
Local Notation length := List.length.
Open Scope R_scope.

Lemma mapM_Forall2 {A B} (f : A -> option B) l l' : mapM f l = Some l' -> Forall2 (fun a b => f a = Some b) l l'.
Proof.
  revert l'. induction l as [|a l IH]; intros l' E; cbn [mapM] in E; [injection E as <-; constructor|]. destruct (f a) as [b|] eqn:Ea; [|discriminate]. cbn [bind] in E.
  destruct (mapM f l) as [l''|]; [|discriminate]. injection E as <-. constructor; auto.
Qed.
Lemma integrated_apply q g : integrated q g = 4 * PI * apply q g.
Proof. unfold integrated, apply. ring. Qed.
Lemma apply_comb q (cs : list (R * (point -> R))) f : List.Forall (fun wp => on_sphere 3 (snd wp)) q -> (forall x, on_sphere 3 x -> f x = Rsum (map (fun cg => fst cg * snd cg x) cs)) ->
  apply q f = Rsum (map (fun cg : R * (point -> R) => fst cg * apply q (snd cg)) cs).
Proof.
  intros Q H. transitivity (apply q (fun x => Rsum (map (fun cg : R * (point -> R) => fst cg * snd cg x) cs))).
  - unfold apply. apply Rsum_map_ext. intros [w p] Hp. rewrite Forall_forall in Q. specialize (Q _ Hp). cbn [fst snd] in *. rewrite H by exact Q. reflexivity.
  - rewrite (apply_sum q (fun (cg : R * (point -> R)) x => fst cg * snd cg x)). apply Rsum_map_ext. intros cg _. apply apply_scal.
Qed.
Lemma sphere_lin f g u v : ucont 3 f -> ucont 3 g -> sphere_int 3 (fun x => u * f x + v * g x) = u * sphere_int 3 f + v * sphere_int 3 g.
Proof. apply (proj2 (sphere_all 2)). Qed.
Lemma sphere_comb (cs : list (R * (point -> R))) f : List.Forall (fun cg => exists d p, mp_ok 3 d p /\ forall x, on_sphere 3 x -> snd cg x = mpeval p x) cs ->
  (forall x, on_sphere 3 x -> f x = Rsum (map (fun cg => fst cg * snd cg x) cs)) -> sphere_int 3 f = Rsum (map (fun cg : R * (point -> R) => fst cg * sphere_int 3 (snd cg)) cs).
Proof.
  intros F H. rewrite (sphere_ext 3 f _ H). clear f H.
  assert (G : exists g, ucont 3 g /\ (forall x, on_sphere 3 x -> Rsum (map (fun cg : R * (point -> R) => fst cg * snd cg x) cs) = g x) /\ sphere_int 3 g = Rsum (map (fun cg : R * (point -> R) => fst cg * sphere_int 3 (snd cg)) cs)).
  { induction F as [|[c h] cs (d & p & Hp & E) F (g & U & Eg & I)]; cbn [map Rsum fst snd] in *.
    - exists (fun _ => 0). split; [apply ucont_const|]. split; [reflexivity|]. pose proof (sphere_lin (fun _ => 0) (fun _ => 0) 0 0 (ucont_const 3 0) (ucont_const 3 0)) as Z. cbn beta in Z.
      rewrite (sphere_ext 3 (fun _ => 0) (fun _ => 0 * 0 + 0 * 0)) by (intros; ring). rewrite Z. ring.
    - exists (fun x => c * mpeval p x + 1 * g x). assert (Up : ucont 3 (mpeval p)) by (apply (ucont_polyfun 3 d), polyfun_mpeval; exact Hp). split; [apply ucont_lin; auto|]. split.
      + intros x Hx. rewrite (E x Hx), (Eg x Hx). ring.
      + rewrite sphere_lin by auto. rewrite I, (sphere_ext 3 (mpeval p) h) by (intros x Hx; rewrite (E x Hx); reflexivity). ring. }
  destruct G as (g & _ & E & I). rewrite (sphere_ext 3 _ g E). exact I.
Qed.

(* ------------------------------------------------------------------ residuals *)
Lemma residual_le ev int_p0 q k r h : residual ev int_p0 q k = Some r -> In h (ev k) ->
  Rabs (integrated q (fst h) - match k with O => int_p0 | _ => 0 end) <= r /\ Rabs (integrated q (snd h)) <= r.
Proof.
  unfold residual. cbv zeta. intros E Hh. apply np_max_spec in E. destruct E as [_ M]. specialize (M _ (in_map _ _ _ Hh)). cbn beta in M.
  set (a := integrated q (fst h) - _) in *. set (b := integrated q (snd h)) in *. replace (b - 0) with b in M by ring.
  split; (eapply Rle_trans; [|exact M]); rewrite <- sqrt_Rsqr_abs; apply sqrt_le_1_alt; unfold Rsqr; nra.
Qed.
Lemma residual_zero ev int_p0 q k : ev k <> [] ->
  (forall h, In h (ev k) -> integrated q (fst h) = match k with O => int_p0 | _ => 0 end /\ integrated q (snd h) = 0) -> residual ev int_p0 q k = Some 0.
Proof.
  intros N H. unfold residual. cbv zeta. destruct (np_max _) as [r|] eqn:E.
  - apply np_max_spec in E. destruct E as [I _]. apply in_map_iff in I. destruct I as (h & <- & Hh). destruct (H h Hh) as [A B]. rewrite A, B. f_equal.
    match goal with |- sqrt ?x = 0 => replace x with 0 by ring end. apply sqrt_0.
  - destruct (ev k); [congruence|discriminate].
Qed.
Lemma part_of ev k g : In g (parts ev k) <-> exists h, In h (ev k) /\ (g = fst h \/ g = snd h).
Proof.
  unfold parts. rewrite in_flat_map. split; intros [h [Hh G]]; exists h; (split; [exact Hh|]).
  - destruct G as [<-|[<-|[]]]; auto.
  - destruct G as [-> | ->]; cbn; auto.
Qed.
(** [residuals] has one entry for each level, and they bound the error for each monomial, relative to the coefficients of the monomial in terms of the
    harmonics. *)
Theorem C90_bound : forall ev int_p0 q level residuals eps, spherical_harmonics ev int_p0 -> List.Forall (fun wp => on_sphere 3 (snd wp)) q ->
  compute_residuals ev int_p0 q level = Some residuals -> List.Forall (fun r => r <= eps) residuals ->
  length residuals = (level + 1)%nat /\ List.Forall (fun r => 0 <= r) residuals /\
  forall e cs, length e = 3%nat -> (tdeg e <= level)%nat -> List.Forall (fun cg => exists j, (j <= tdeg e)%nat /\ In (snd cg) (parts ev j)) cs ->
    (forall x, on_sphere 3 x -> mono e x = Rsum (map (fun cg => fst cg * snd cg x) cs)) ->
    Rabs (4 * PI * apply q (mono e) - sphere_int 3 (mono e)) <= eps * Rsum (map (fun cg => Rabs (fst cg)) cs).
Proof.
  intros ev i0 q level rs eps (NE & I0 & Ik & P & _) Q E B. apply mapM_Forall2 in E. split; [apply Forall2_len in E; rewrite seq_length in E; auto|].
  assert (NN : forall k r, residual ev i0 q k = Some r -> 0 <= r).
  { intros k r Er. destruct (ev k) as [|h l] eqn:Ek; [specialize (NE k); congruence|]. destruct (residual_le ev i0 q k r h Er) as [A _]; [rewrite Ek; now left|]. eapply Rle_trans; [apply Rabs_pos|exact A]. }
  split. { clear - NN E. induction E; constructor; eauto. }
  intros e cs Le Te F H. rewrite (apply_comb q cs _ Q H). rewrite (sphere_comb cs (mono e)); [|eapply Forall_impl; [|exact F]; intros cg (j & _ & Hj); exists j; apply P; exact Hj|exact H].
  assert (RL : forall j r, (j <= level)%nat -> residual ev i0 q j = Some r -> r <= eps).
  { intros j r Hj Er. assert (In j (seq 0 (level + 1))) as Hs by (apply in_seq; lia). clear - E B Hs Er. induction E as [|a b l l' Eab E IH]; [destruct Hs|]. inversion B; subst. destruct Hs as [<-|Hs]; [rewrite Er in Eab; injection Eab as <-; auto|auto]. }
  assert (RS : forall j, (j <= level)%nat -> exists r, residual ev i0 q j = Some r).
  { intros j Hj. assert (In j (seq 0 (level + 1))) as Hs by (apply in_seq; lia). clear - E Hs. induction E as [|a b l l' Eab E IH]; [destruct Hs|]. destruct Hs as [<-|Hs]; eauto. }
  clear H. induction F as [|[c g] cs (j & Hj & Hg) F IH]; cbn [map Rsum fst snd] in *.
  - replace (4 * PI * 0 - 0) with 0 by ring. rewrite Rabs_R0. lra.
  - replace (4 * PI * (c * apply q g + Rsum (map (fun cg : R * (point -> R) => fst cg * apply q (snd cg)) cs)) - (c * sphere_int 3 g + Rsum (map (fun cg : R * (point -> R) => fst cg * sphere_int 3 (snd cg)) cs)))
      with (c * (integrated q g - sphere_int 3 g) + (4 * PI * Rsum (map (fun cg : R * (point -> R) => fst cg * apply q (snd cg)) cs) - Rsum (map (fun cg : R * (point -> R) => fst cg * sphere_int 3 (snd cg)) cs))) by (rewrite integrated_apply; ring).
    eapply Rle_trans; [apply Rabs_triang|]. rewrite Rabs_mult.
    assert (G : Rabs (integrated q g - sphere_int 3 g) <= eps).
    { destruct (RS j ltac:(lia)) as [r Er]. specialize (RL j r ltac:(lia) Er). apply part_of in Hg. destruct Hg as (h & Hh & Hg). destruct (residual_le ev i0 q j r h Er Hh) as [A C].
      assert (S0 : sphere_int 3 (fst h) = match j with O => i0 | _ => 0 end /\ sphere_int 3 (snd h) = 0).
      { destruct j as [|j]; [apply I0; exact Hh|]. split; apply (Ik (S j)); try lia; apply part_of; eauto. }
      destruct S0 as [S1 S2]. destruct Hg as [-> | ->]; [rewrite S1|rewrite S2, Rminus_0_r]; lra. }
    pose proof (Rabs_pos c). nra.
Qed.
Print Assumptions C90_bound.
(** All residuals up to the level are 0 exactly if the scheme integrates all polynomials up to this degree. *)
Theorem C90_zero : forall ev int_p0 q level, spherical_harmonics ev int_p0 -> List.Forall (fun wp => on_sphere 3 (snd wp)) q ->
  (compute_residuals ev int_p0 q level = Some (repeat 0 (level + 1)) <->
   forall e, length e = 3%nat -> (tdeg e <= level)%nat -> apply q (mono e) = sphere_mean 3 (mono e)).
Proof.
  intros ev i0 q level HS Q. pose proof HS as (NE & I0 & Ik & P & Sp). pose proof PI_RGT_0 as PI0. split.
  - intros E e Le Te. destruct (Sp e Le) as (cs & F & H). destruct (C90_bound ev i0 q level _ 0 HS Q E) as (_ & _ & B); [clear; induction (level + 1)%nat; cbn [repeat]; constructor; auto; lra|].
    specialize (B e cs Le Te F H). rewrite Rmult_0_l in B. unfold sphere_mean. rewrite sphere_3.
    assert (4 * PI * apply q (mono e) - sphere_int 3 (mono e) = 0) as Z by (apply Rabs_eq_0; pose proof (Rabs_pos (4 * PI * apply q (mono e) - sphere_int 3 (mono e))); lra).
    apply Rminus_diag_uniq in Z. rewrite <- Z. field. lra.
  - intros X. unfold compute_residuals.
    assert (G : forall k, (k <= level)%nat -> residual ev i0 q k = Some 0).
    { intros k Hk. apply residual_zero; [apply NE|]. 
      assert (PX : forall g, In g (parts ev k) -> integrated q g = sphere_int 3 g).
      { intros g Hg. destruct (P k g Hg) as (p & Hp & E). rewrite integrated_apply, (apply_comb q [(1, mpeval p)] g Q); [|intros x Hx; cbn; rewrite (E x Hx); ring]. cbn [map Rsum fst snd].
        rewrite (sphere_ext 3 g (mpeval p) E). rewrite (sphere_exact_polyfun 2 k q (mpeval p)).
        - unfold sphere_mean. rewrite sphere_3. field. lra.
        - split; [eapply Forall_impl; [|exact Q]; intros wp [L _]; exact L|]. intros e Le Te. apply X; auto; lia.
        - apply polyfun_mpeval. exact Hp. }
      intros h Hh. rewrite (PX (fst h)), (PX (snd h)) by (apply part_of; eauto). destruct k as [|k]; [apply I0; exact Hh|]. split; apply (Ik (S k)); try lia; apply part_of; eauto. }
    assert (G' : forall k, In k (seq 0 (level + 1)) -> residual ev i0 q k = Some 0) by (intros k Hk; apply in_seq in Hk; apply G; lia). clear G. rewrite <- (seq_length (level + 1) 0) at 2. revert G'. generalize (seq 0 (level + 1)). clear.
    induction l as [|k l IH]; intros H; [reflexivity|]. cbn [mapM length repeat]. rewrite (H k (or_introl eq_refl)). cbn [bind]. rewrite IH by (intros; apply H; now right). reflexivity.
Qed.
Print Assumptions C90_zero.
(** Under the contract there is always an answer. *)
Theorem C90_total : forall ev int_p0 q level, spherical_harmonics ev int_p0 -> exists residuals, compute_residuals ev int_p0 q level = Some residuals.
Proof.
  intros ev i0 q level (NE & _). unfold compute_residuals. induction (seq 0 (level + 1)) as [|k l [rs IH]]; [exists []; reflexivity|]. cbn [mapM].
  assert (exists r, residual ev i0 q k = Some r) as [r Er].
  { unfold residual. cbv zeta. specialize (NE k). destruct (ev k) as [|h m]; [congruence|]. cbn [map np_max]. eexists; reflexivity. }
  rewrite Er, IH. cbn [bind]. eexists; reflexivity.
Qed.
Print Assumptions C90_total.

(* ------------------------------------------------------------------ the contract can be met, and a scheme has residuals 0 *)
Definition exponents (k : nat) : list (list nat) := flat_map (fun a => map (fun b => [a; b; (k - a - b)%nat]) (seq 0 (S k - a))) (seq 0 (S k)).
Lemma exponents_in k e : In e (exponents k) <-> length e = 3%nat /\ tdeg e = k.
Proof.
  unfold exponents. rewrite in_flat_map. split.
  - intros (a & Ha & H). apply in_map_iff in H. destruct H as (b & <- & Hb). apply in_seq in Ha, Hb. unfold tdeg. cbn. split; lia.
  - intros [L T]. destruct e as [|a [|b [|c [|]]]]; try discriminate. unfold tdeg in T. cbn in T. exists a. split; [apply in_seq; lia|]. apply in_map_iff. exists b. split; [repeat f_equal; lia|apply in_seq; lia].
Qed.
Definition centred (e : list nat) : point -> R := fun x => 1 * mono e x + (- sphere_mean 3 (mono e)) * 1.
Definition ev0 : evaluator := fun k => match k with O => [((fun _ => 1), (fun _ => 0))] | _ => map (fun e => (centred e, (fun _ => 0))) (exponents k) end.
Lemma sphere_zero : sphere_int 3 (fun _ => 0) = 0.
Proof.
  pose proof (sphere_lin (fun _ => 0) (fun _ => 0) 0 0 (ucont_const 3 0) (ucont_const 3 0)) as Z. cbn beta in Z.
  rewrite (sphere_ext 3 (fun _ => 0) (fun _ => 0 * 0 + 0 * 0)) by (intros; ring). rewrite Z. ring.
Qed.
Example C90_contract : spherical_harmonics ev0 (4 * PI).
Proof.
  pose proof PI_RGT_0 as P0. split; [|split; [|split; [|split]]].
  - intros [|k]; [discriminate|]. cbn [ev0]. assert (H : In [S k; 0; 0]%nat (exponents (S k))) by (apply exponents_in; unfold tdeg; cbn; split; lia). destruct (exponents (S k)); [destruct H|discriminate].
  - intros h [<-|[]]. cbn [fst snd]. split; [apply sphere_3|apply sphere_zero].
  - intros [|k] g Hk Hg; [lia|]. apply part_of in Hg. destruct Hg as (h & Hh & Hg). cbn [ev0] in Hh. apply in_map_iff in Hh. destruct Hh as (e & <- & He). cbn [fst snd] in Hg. destruct Hg as [-> | ->]; [|apply sphere_zero].
    unfold centred. rewrite (sphere_lin (mono e) (fun _ => 1)) by (apply ucont_mono || apply ucont_const). unfold sphere_mean. rewrite sphere_3. field. lra.
  - intros k g Hg. apply part_of in Hg. destruct Hg as (h & Hh & Hg). destruct k as [|k].
    + destruct Hh as [<-|[]]. cbn [fst snd] in Hg. destruct Hg as [-> | ->].
      * exists [(1, [0; 0; 0]%nat)]. split; [constructor; [unfold tdeg; cbn; split; lia|constructor]|]. intros x [L _]. destruct x as [|x0 [|x1 [|x2 [|]]]]; try discriminate. cbn. ring.
      * exists []. split; [constructor|reflexivity].
    + cbn [ev0] in Hh. apply in_map_iff in Hh. destruct Hh as (e & <- & He). apply exponents_in in He. destruct He as [L T]. cbn [fst snd] in Hg. destruct Hg as [-> | ->].
      * exists [(1, e); (- sphere_mean 3 (mono e), [0; 0; 0]%nat)]. split; [constructor; [cbn [snd]; split; [exact L|lia]|constructor; [unfold tdeg; cbn; split; lia|constructor]]|]. intros x [Lx _]. unfold centred, mpeval. cbn [map Rsum fst snd]. destruct x as [|x0 [|x1 [|x2 [|]]]]; try discriminate.
        replace (mono [0; 0; 0]%nat [x0; x1; x2]) with 1 by (cbn; ring). ring.
      * exists []. split; [constructor|reflexivity].
  - intros e L. destruct (tdeg e) as [|k] eqn:T.
    + exists [(1, fun _ => 1)]. split; [constructor; [exists 0%nat; split; [lia|cbn; auto]|constructor]|]. intros x [Lx _]. destruct e as [|a [|b [|c [|]]]]; try discriminate. unfold tdeg in T. cbn in T. assert (a = 0 /\ b = 0 /\ c = 0)%nat as (-> & -> & ->) by lia.
      destruct x as [|x0 [|x1 [|x2 [|]]]]; try discriminate. cbn. ring.
    + exists [(1, centred e); (sphere_mean 3 (mono e), fun _ => 1)]. split.
      * constructor; [exists (S k); split; [lia|]; apply part_of; exists (centred e, fun _ => 0); split; [|now left]; cbn [ev0 fst snd]; apply in_map_iff; exists e; split; [reflexivity|apply exponents_in; auto]|].
        constructor; [exists 0%nat; split; [lia|cbn; auto]|constructor].
      * intros x _. cbn [map Rsum fst snd]. unfold centred. ring.
Qed.
Example C90_case : exists s, u3_albrecht_collatz_1 = Some s /\ compute_residuals ev0 (4 * PI) (s_rule s) 5 = Some [0; 0; 0; 0; 0; 0].
Proof.
  destruct u3_albrecht_collatz_1_ok as (s & E & D & L & H). exists s. split; [exact E|]. destruct u3_albrecht_collatz_1_sphere as (s' & E' & S). rewrite E in E'. injection E' as <-.
  change [0; 0; 0; 0; 0; 0] with (repeat 0 (5 + 1)). apply C90_zero; [apply C90_contract| |exact H]. rewrite Forall_forall in *. intros wp Hw. split; [apply L; exact Hw|apply S; exact Hw].
Qed.
