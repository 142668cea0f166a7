(** From the ball-arithmetic checks of NearTools.v to [reaches] and [misses]. *)
From Coq Require Import Reals List Arith Lia Lra String ZArith QArith Qreals.
From Coquelicot Require Import Coquelicot.
From Verif Require Import Spec RsumLemmas IntegralSpec IntegralProofs IntegralPoly SphereSpec SphereInt RadialInt PyraSpec PyBase SymmModel Tower TowerMoments FelippaProofs NearTools TowerSym NearSym FixTools DecSpec DecModel.
Import ListNotations.
Local Notation length := List.length.
Set Bullet Behavior "Strict Subproofs".
Open Scope R_scope.

(** M is the linear functional with the rational moments I. *)
Definition moments (M : (point -> R) -> R) (nc : nat) (I : list nat -> Q) : Prop :=
  (forall p d, mp_ok nc d p -> M (mpeval p) = Rsum (map (fun ck => fst ck * Q2R (I (snd ck))) p)) /\
  (forall k, length k = nc -> M (mono k) = Q2R (I k)).
Lemma cube_moments n : moments (cube_mean n) n cubeQ.
Proof.
  split; [|intros; apply cubeQ_ok; auto]. intros p d H. rewrite cube_mean_mpeval by (eapply List.Forall_impl; [|exact H]; cbn; tauto).
  apply Rsum_map_ext. intros ck Hc. rewrite (cubeQ_ok n); auto. unfold mp_ok in H. rewrite List.Forall_forall in H. apply H; auto.
Qed.
Lemma simplex_moments n : moments (simplex_mean n) (S n) (simplexQ n).
Proof.
  split; [|intros; apply simplexQ_ok; auto]. intros p d H. rewrite simplex_mean_mpeval by (eapply List.Forall_impl; [|exact H]; cbn; tauto).
  apply Rsum_map_ext. intros ck Hc. rewrite (simplexQ_ok n); auto. unfold mp_ok in H. rewrite List.Forall_forall in H. apply H; auto.
Qed.
Lemma ball_moments n : moments (ball_mean n) n (ballQ n).
Proof.
  split; [|intros; apply ballQ_ok; auto]. intros p d H. unfold ball_mean. rewrite ball_int_mpeval by first [lra | eapply List.Forall_impl; [|exact H]; cbn; tauto].
  unfold Rdiv. rewrite <- Rsum_map_scal_r. apply Rsum_map_ext. intros [c k] Hc. cbn [fst snd]. unfold mp_ok in H. rewrite List.Forall_forall in H. apply H in Hc. cbn [snd] in Hc.
  rewrite <- (ballQ_ok n k) by tauto. unfold ball_mean. rewrite (ball_int_k n k) by tauto. rewrite pow1. unfold Rdiv. ring.
Qed.
Lemma wedge_moments : moments wedge_int 3 wedgeQ.
Proof.
  split; [intros p d H; apply (wedge_poly d); auto|]. intros k Hk. rewrite (wedge_int_ext _ (mpeval [(1, k)])) by (intros; rewrite mpeval_k; auto).
  rewrite (wedge_poly (tdeg k)); [cbn [map Rsum fst snd]; ring|]. repeat constructor; auto.
Qed.
Lemma apply_mpeval q p : apply q (mpeval p) = Rsum (map (fun ck => fst ck * apply q (mono (snd ck))) p).
Proof.
  induction p as [|[c k] p IH]; cbn [map Rsum fst snd].
  - unfold apply. rewrite (Rsum_map_ext _ (fun _ => 0)) by (intros; unfold mpeval; cbn; ring). induction q; cbn; lra.
  - rewrite <- IH. unfold apply. rewrite <- Rsum_map_scal, <- Rsum_map_plus. apply Rsum_map_ext. intros [w x] _. unfold mpeval. cbn. ring.
Qed.
(** Where the wedge is symmetric: x <-> y and z -> -z. *)
Lemma wedge_sym sg sw : List.Forall (eq 2%nat) sg -> List.Forall (eq 0%nat) sw -> sym_moments sg sw 3 wedgeQ.
Proof.
  intros HS HW. rewrite List.Forall_forall in HS, HW. split.
  - intros i k Hi Lk Ho. apply HS in Hi. subst i. destruct k as [|a [|b [|c [|]]]]; try discriminate. cbn [nth] in Ho. unfold wedgeQ. rewrite <- Nat.negb_odd, Ho. cbn [negb].
    rewrite Q2R_mult. replace (Q2R 0) with 0 by (unfold Q2R; cbn; lra). ring.
  - intros i k Hi Lk. apply HW in Hi. subst i. destruct k as [|a [|b [|c [|]]]]; try discriminate. cbn [swp]. unfold wedgeQ. apply Qeq_eqR.
    replace (b + S a + 1)%nat with (a + S b + 1)%nat by lia. rewrite (Qmult_comm (inject_Z (zfact b))). reflexivity.
Qed.
Lemma reaches_intro c M nc d I l env sg sw q s tol t : moments M nc I -> sym_moments sg sw nc I -> s_degree s = d -> 0 < tol -> Q2R t <= c * tol -> s_rule s = rden env q ->
  ngens_ok l env -> near_sym l sg sw nc d I t q = true -> reaches c M nc d (Some (s, tol)).
Proof.
  intros [HM _] HI HD H0 Ht HR G H. exists s, tol. destruct (near_sym_ok l env sg sw nc d I t q G HI H) as [P E]. rewrite <- HR in P, E.
  repeat split; auto. intros p Hp. rewrite (HM p d Hp).
  rewrite apply_mpeval. unfold mp_ok in Hp. induction Hp as [|[a k] p [Lk Dk] _ IH]; cbn [map Rsum fst snd] in *.
  - rewrite Rminus_eq_0, Rabs_R0. lra.
  - replace (_ - _) with (a * (apply (s_rule s) (mono k) - Q2R (I k)) + (Rsum (map (fun ck => fst ck * apply (s_rule s) (mono (snd ck))) p) - Rsum (map (fun ck => fst ck * Q2R (I (snd ck))) p))) by ring.
    eapply Rle_trans; [apply Rabs_triang|]. rewrite Rmult_plus_distr_l. apply Rplus_le_compat.
    + rewrite Rabs_mult, (Rmult_comm (c * tol)). apply Rmult_le_compat_l; [apply Rabs_pos|]. eapply Rle_trans; [apply E; auto|auto].
    + apply IH.
Qed.
Lemma misses_intro c M nc d I l env q s tol t k : moments M nc I -> s_degree s = d -> c * tol <= Q2R t -> s_rule s = rden env q -> length k = nc -> (tdeg k <= d)%nat ->
  ngens_ok l env -> far_check l k (I k) t q = true -> misses c M nc d (Some (s, tol)).
Proof.
  intros [_ HM] HD Ht HR Lk Dk G H. exists s, tol, k. repeat split; auto. rewrite HM, HR by auto. eapply Rle_lt_trans; [exact Ht|]. apply (far_check_ok l env k (I k)); auto.
Qed.
Lemma reaches_run c M nc d r s : r = Some s -> reaches c M nc d (Some s) -> reaches c M nc d r. Proof. intros ->. auto. Qed.
Lemma misses_run c M nc d r s : r = Some s -> misses c M nc d (Some s) -> misses c M nc d r. Proof. intros ->. auto. Qed.
(** Signs of closed expressions. *)
Definition pos_check (l : list gen) (e : ex) : bool :=
  match benv l with Some bs => match beval bs e with Some (m, r) => (r <=? m)%Z | None => false end | None => false end.
Lemma pos_check_ok l env e : ngens_ok l env -> pos_check l e = true -> 0 <= eden env e.
Proof.
  intros G H. unfold pos_check in H. destruct (benv l) as [bs|] eqn:Eb; [|discriminate]. destruct (beval bs e) as [[m r]|] eqn:Ee; [|discriminate].
  apply Z.leb_le, IZR_le in H. pose proof (beval_ok env bs (benv_ok l env bs G Eb) e _ Ee) as B. unfold bok in B. cbn [fst snd] in B. apply Rabs_le_IZR in B.
  pose proof S64_pos. nra.
Qed.

(** Reification; a decimal literal is IZR a * / IZR b. *)
Ltac nr_reify env e :=
  lazymatch e with
  | ?a + ?b => let x := nr_reify env a in let y := nr_reify env b in constr:(EAdd x y)
  | ?a - ?b => let x := nr_reify env a in let y := nr_reify env b in constr:(ESub x y)
  | ?a * / ?b => let x := nr_reify env a in let y := nr_reify env b in constr:(EDiv x y)
  | ?a * ?b => let x := nr_reify env a in let y := nr_reify env b in constr:(EMul x y)
  | ?a / ?b => let x := nr_reify env a in let y := nr_reify env b in constr:(EDiv x y)
  | - ?a => let x := nr_reify env a in constr:(EOpp x)
  | ?a ^ ?n => let x := nr_reify env a in constr:(EPow x n)
  | IZR ?z => constr:(EZ z)
  | _ => let i := tw_find e env in constr:(EV i)
  end.
Ltac nr_reify_list env l :=
  lazymatch l with
  | nil => constr:(@nil ex)
  | ?a :: ?l' => let x := nr_reify env a in let y := nr_reify_list env l' in constr:(x :: y)
  end.
Ltac nr_reify_rule env q :=
  lazymatch q with
  | nil => constr:(@nil (ex * list ex))
  | (?w, ?p) :: ?q' => let x := nr_reify env w in let y := nr_reify_list env p in let z := nr_reify_rule env q' in constr:((x, y) :: z)
  end.
(** Reification of generators. *)
Ltac near_gens env :=
  lazymatch env with
  | nil => constr:(@nil gen)
  | PI :: ?env' => let l := near_gens env' in constr:(GPi :: l)
  | ?g :: ?env' =>
      let l := near_gens env' in
      let e := match goal with H : g * g = ?e |- _ => constr:(e) end in
      let x := nr_reify env' e in constr:(GSqrt x :: l)
  end.
Ltac near_gens_ok := cbn [ngens_ok eden nth]; repeat split; try assumption; reflexivity.
Ltac near_pos env :=
  let l := near_gens env in
  lazymatch goal with
  | |- 0 <= ?a =>
      let a' := eval lazy -[Rplus Rmult Rminus Ropp Rdiv Rinv IZR pow PI] in a in
      change (0 <= a'); let x := nr_reify env a' in change (0 <= eden env x); apply (pos_check_ok l); [near_gens_ok|vm_compute; reflexivity]
  end.
(** Runs the constructor: square roots first, then everything. *)
Ltac near_step :=
  lazymatch goal with
  | |- ?F (bind (rsqrt ?x) _) =>
      let r := fresh "r" in let E := fresh "E" in let P := fresh "P" in let H := fresh "H" in let H' := fresh "H" in
      assert (H : 0 <= x);
      [let env := tw_env in near_pos env
      |destruct (rsqrt_some x H) as (r & E & P & H'); clear H; rename H' into H; rewrite E; clear E; cbn [bind];
       let x' := eval lazy -[Rplus Rmult Rminus Ropp Rdiv Rinv IZR pow PI] in x in change (r * r = x') in H]
  end.
Ltac near_head r := lazymatch r with ?f _ => near_head f | ?f => f end.
Ltac near_run r := let h := near_head r in unfold h; cbv zeta; repeat near_step.
Ltac near_env := let env := tw_env in constr:(PI :: env).
Ltac near_tol c tol :=
  lazymatch c with
  | IZR ?z =>
      lazymatch tol with
      | IZR ?a * / IZR (Zpos ?b) / IZR (Zpos ?b') => let n := eval compute in (z * a)%Z in let m := eval compute in (b * b')%positive in constr:((n # m)%Q)
      | IZR ?a * / IZR (Zpos ?b) => let n := eval compute in (z * a)%Z in constr:((n # b)%Q)
      | IZR ?a / IZR (Zpos ?b) => let n := eval compute in (z * a)%Z in constr:((n # b)%Q)
      end
  end.
Ltac near_lazy := lazy -[Rplus Rmult Rminus Ropp Rdiv Rinv IZR pow sqrt PI cos sin].
Ltac near_sg I nc := lazymatch I with wedgeQ => constr:([2%nat]) | simplexQ _ => constr:(@nil nat) | _ => constr:(seq 0 nc) end.
Ltac near_sw I nc := lazymatch I with wedgeQ => constr:([0%nat]) | _ => constr:(seq 0 (nc - 1)) end.
Ltac near_symm :=
  lazymatch goal with
  | |- sym_moments _ _ _ cubeQ => apply cube_sym
  | |- sym_moments _ _ _ (ballQ _) => apply ball_sym
  | |- sym_moments _ _ _ (simplexQ _) => apply simplex_sym
  | |- sym_moments _ _ _ wedgeQ => apply wedge_sym
  end; repeat first [apply List.Forall_nil | apply List.Forall_cons; [lia|]].
(** HM : moments M nc I *)
Ltac near_prove HM :=
  lazymatch goal with |- reaches _ _ _ _ ?r => near_run r end;
  eapply reaches_run; [near_lazy; reflexivity|];
  let env := near_env in
  let l := near_gens env in
  lazymatch goal with
  | |- reaches ?c ?M ?nc ?d (Some (?s, ?tol)) =>
      let q := lazymatch s with mk_scheme _ ?q _ => q end in
      let e := nr_reify_rule env q in
      let t := near_tol c tol in
      let I := lazymatch type of HM with moments _ _ ?I => I end in
      let sg := near_sg I nc in let sg := eval vm_compute in (filter (fun i => experm e (map (on_ex (act exopp i)) e)) sg) in
      let sw := near_sw I nc in let sw := eval vm_compute in (filter (fun i => experm e (map (on_ex (swp i)) e)) sw) in
      apply (reaches_intro c M nc d I l env sg sw e s tol t);
      [exact HM|near_symm|reflexivity|lra|unfold Q2R; cbn [Qnum Qden]; lra|reflexivity|near_gens_ok|vm_compute; reflexivity]
  end.
Ltac far_prove HM k :=
  lazymatch goal with |- misses _ _ _ _ ?r => near_run r end;
  eapply misses_run; [near_lazy; reflexivity|];
  let env := near_env in
  let l := near_gens env in
  lazymatch goal with
  | |- misses ?c ?M ?nc ?d (Some (?s, ?tol)) =>
      let q := lazymatch s with mk_scheme _ ?q _ => q end in
      let e := nr_reify_rule env q in
      let t := near_tol c tol in
      let I := lazymatch type of HM with moments _ _ ?I => I end in
      apply (misses_intro c M nc d I l env e s tol t k);
      [exact HM|reflexivity|unfold Q2R; cbn [Qnum Qden]; lra|reflexivity|reflexivity|vm_compute; lia|near_gens_ok|vm_compute; reflexivity]
  end.
(** Exact schemes: c = 0. *)
Lemma reaches_exact M nc d I s tol : moments M nc I -> s_degree s = d -> 0 < tol -> exact nc d (fun k => Q2R (I k)) (s_rule s) -> reaches 0 M nc d (Some (s, tol)).
Proof.
  intros [HM _] HD H0 [P E]. exists s, tol. repeat split; auto. intros p Hp. rewrite (HM p d Hp), apply_mpeval.
  rewrite (Rsum_map_ext (fun ck => fst ck * apply (s_rule s) (mono (snd ck))) (fun ck => fst ck * Q2R (I (snd ck)))).
  - rewrite Rminus_eq_0, Rabs_R0. lra.
  - intros ck Hc. unfold mp_ok in Hp. rewrite List.Forall_forall in Hp. apply Hp in Hc. f_equal. apply E; tauto.
Qed.
Ltac exact_prove HM :=
  lazymatch goal with |- reaches _ _ _ _ ?r => near_run r end;
  eapply reaches_run; [near_lazy; reflexivity|];
  let env := tw_env in
  let I := lazymatch type of HM with moments _ _ ?I => I end in
  eapply (reaches_exact _ _ _ I); [exact HM|reflexivity|lra|]; cbn [s_rule]; tower_exact env I; reflexivity.
