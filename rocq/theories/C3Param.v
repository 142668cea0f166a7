(** The parametrised scheme of quadpy/c3: c3/_hammer_wymore.py. *)
From Coq Require Import Reals List Arith Lia Lra String QArith Qreals.
From Verif Require Import Spec RsumLemmas IntegralSpec PyBase SymmModel SchemeTools Tower TowerMoments FixSpec FixTools C2Param C3Model.
Import ListNotations.
Set Bullet Behavior "Strict Subproofs".
Open Scope R_scope.

(** A rule on the orbits (x,0,0), (x,x,0), (x,x,x), (x,x,x) has degree 7 as soon as seven moments are right. *)
Lemma c3_orbits_ok a1 a2 a3 a4 x1 x2 x3 x4 u1 u2 u3 u4 : x1 * x1 = u1 -> x2 * x2 = u2 -> x3 * x3 = u3 -> x4 * x4 = u4 ->
  6 * a1 + 12 * a2 + 8 * (a3 + a4) = 8 ->
  2 * a1 * u1 + 8 * a2 * u2 + 8 * (a3 * u3 + a4 * u4) = 8/3 ->
  2 * a1 * u1 ^ 2 + 8 * a2 * u2 ^ 2 + 8 * (a3 * u3 ^ 2 + a4 * u4 ^ 2) = 8/5 ->
  4 * a2 * u2 ^ 2 + 8 * (a3 * u3 ^ 2 + a4 * u4 ^ 2) = 8/9 ->
  2 * a1 * u1 ^ 3 + 8 * a2 * u2 ^ 3 + 8 * (a3 * u3 ^ 3 + a4 * u4 ^ 3) = 8/7 ->
  4 * a2 * u2 ^ 3 + 8 * (a3 * u3 ^ 3 + a4 * u4 ^ 3) = 8/15 ->
  8 * (a3 * u3 ^ 3 + a4 * u4 ^ 3) = 8/27 ->
  delivers (cube_mean 3) 3 7
    (c3_scheme [("symm_r00", ([a1/8], [[x1]])); ("symm_rr0", ([a2/8], [[x2]])); ("symm_rrr", ([a3/8; a4/8], [[x3; x4]]))]%string 7).
Proof.
  intros H1 H2 H3 H4 E0 E2 E4 E22 E6 E42 E222.
  eapply delivers_run; [lazy -[Rplus Rmult Rminus Ropp Rdiv Rinv IZR pow]; reflexivity|].
  apply delivers_intro; [reflexivity|]. cbn [s_rule]. apply enum_exact; [repeat constructor|].
  all_moments 3%nat 7%nat;
  rewrite cubeQ_ok by reflexivity; (lazymatch goal with |- _ = Q2R ?q => let v := eval vm_compute in q in change q with v end); rewrite Q2R_frac; unfold apply; cbn [map Rsum fst snd mono];
  (lazymatch goal with
  | |- _ = 0 / 1 => field
  | |- _ = 1 / 1 => transitivity ((6 * a1 + 12 * a2 + 8 * (a3 + a4)) / 8); [field|rewrite E0; field]
  | |- _ = 1 / 3 => transitivity ((2 * a1 * u1 + 8 * a2 * u2 + 8 * (a3 * u3 + a4 * u4)) / 8); [field [H1 H2 H3 H4]|rewrite E2; field]
  | |- _ = 1 / 5 => transitivity ((2 * a1 * u1 ^ 2 + 8 * a2 * u2 ^ 2 + 8 * (a3 * u3 ^ 2 + a4 * u4 ^ 2)) / 8); [field [H1 H2 H3 H4]|rewrite E4; field]
  | |- _ = 1 / 9 => transitivity ((4 * a2 * u2 ^ 2 + 8 * (a3 * u3 ^ 2 + a4 * u4 ^ 2)) / 8); [field [H1 H2 H3 H4]|rewrite E22; field]
  | |- _ = 1 / 7 => transitivity ((2 * a1 * u1 ^ 3 + 8 * a2 * u2 ^ 3 + 8 * (a3 * u3 ^ 3 + a4 * u4 ^ 3)) / 8); [field [H1 H2 H3 H4]|rewrite E6; field]
  | |- _ = 1 / 15 => transitivity ((4 * a2 * u2 ^ 3 + 8 * (a3 * u3 ^ 3 + a4 * u4 ^ 3)) / 8); [field [H1 H2 H3 H4]|rewrite E42; field]
  | |- _ = 1 / 27 => transitivity ((8 * (a3 * u3 ^ 3 + a4 * u4 ^ 3)) / 8); [field [H1 H2 H3 H4]|rewrite E222; field]
  end).
Qed.
Ltac inv_step H :=
  lazymatch type of H with
  | bind ?x _ = Some _ => let v := fresh "v" in let E := fresh "E" in destruct x as [v|] eqn:E; [cbn [bind] in H|discriminate H]
  end.
(** Whenever hammer_wymore returns, its scheme has degree 7. *)
Theorem hammer_wymore_ok lmbda s : c3_hammer_wymore lmbda = Some s -> delivers (cube_mean 3) 3 7 (Some s).
Proof.
  intros Hs. unfold c3_hammer_wymore in *. cbv zeta in *.
  set (u1 := (8 / 7 - 2 * (8 / 15) + 8 / 27 + lmbda * (8 / 15 - 8 / 27)) / (8 / 5 - 8 / 9)) in *.
  repeat inv_step Hs. rewrite <- Hs. clear Hs.
  repeat match goal with E : rdiv _ _ = Some _ |- _ => apply rdiv_inv in E; destruct E end.
  repeat match goal with E : rsqrt _ = Some _ |- _ => apply rsqrt_inv in E; destruct E end.
  rename v into u2, v0 into a1, v1 into a2, v2 into c0, v3 into c1, v4 into b, v5 into a3, v6 into a4, v7 into x1, v8 into x2, v9 into x3, v10 into x4.
  set (u3 := (- c1 - b) / 2) in *. set (u4 := (- c1 + b) / 2) in *.
  set (p0 := 8 - 6 * a1 - 12 * a2) in *. set (p1 := 8 / 3 - 2 * a1 * u1 - 8 * a2 * u2) in *. set (p2 := 8 / 9 - 4 * a2 * u2 ^ 2) in *.
  assert (S : u3 + u4 = - c1) by (unfold u3, u4; field).
  assert (Pr : u3 * u4 = c0). { unfold u3, u4. transitivity ((c1 ^ 2 - b * b) / 4); [field|]. match goal with E : b * b = _ |- _ => rewrite E end. field. }
  assert (D : p0 * p2 - p1 ^ 2 <> 0) by assumption.
  assert (N43 : u4 - u3 <> 0) by assumption.
  assert (L1 : u1 <> 0) by (intros Z; match goal with N : u1 ^ 3 <> 0 |- _ => apply N; rewrite Z; ring end).
  assert (L2 : u2 <> 0) by (intros Z; match goal with N : u2 ^ 3 <> 0 |- _ => apply N; rewrite Z; ring end).
  assert (Q0 : 8 * (a3 + a4) = p0). { subst a3 a4. field. split; auto. }
  assert (Q1 : 8 * (a3 * u3 + a4 * u4) = p1). { subst a3 a4. field. split; auto. }
  assert (C0 : c0 * (p0 * p2 - p1 ^ 2) = 8 / 27 * p1 - p2 ^ 2). { subst c0. field. auto. }
  assert (C1 : c1 * (p0 * p2 - p1 ^ 2) = p1 * p2 - 8 / 27 * p0). { subst c1. field. intros Z; apply D; lra. }
  assert (Q2 : 8 * (a3 * u3 ^ 2 + a4 * u4 ^ 2) = p2).
  { transitivity ((u3 + u4) * (8 * (a3 * u3 + a4 * u4)) - u3 * u4 * (8 * (a3 + a4))); [ring|]. rewrite S, Pr, Q0, Q1.
    apply (Rmult_eq_reg_r (p0 * p2 - p1 ^ 2)); auto. transitivity (- (c1 * (p0 * p2 - p1 ^ 2)) * p1 - c0 * (p0 * p2 - p1 ^ 2) * p0); [ring|]. rewrite C0, C1. ring. }
  assert (Q3 : 8 * (a3 * u3 ^ 3 + a4 * u4 ^ 3) = 8 / 27).
  { transitivity ((u3 + u4) * (8 * (a3 * u3 ^ 2 + a4 * u4 ^ 2)) - u3 * u4 * (8 * (a3 * u3 + a4 * u4))); [ring|]. rewrite S, Pr, Q1, Q2.
    apply (Rmult_eq_reg_r (p0 * p2 - p1 ^ 2)); auto. transitivity (- (c1 * (p0 * p2 - p1 ^ 2)) * p2 - c0 * (p0 * p2 - p1 ^ 2) * p1); [ring|]. rewrite C0, C1. ring. }
  assert (A1 : a1 * u1 ^ 3 = (8 / 7 - 2 * (8 / 15) + 8 / 27) / 2). { subst a1. field. auto. }
  assert (A2 : a2 * u2 ^ 3 = (8 / 15 - 8 / 27) / 4). { subst a2. field. auto. }
  assert (U : u2 * lmbda = u1). { match goal with E : u2 = u1 / lmbda |- _ => rewrite E end. field. auto. }
  assert (V : 2 * a1 * u1 ^ 2 + 4 * a2 * u2 ^ 2 = 8 / 5 - 8 / 9).
  { apply (Rmult_eq_reg_r u1); auto. transitivity (2 * (a1 * u1 ^ 3) + 4 * (a2 * u2 ^ 3) * lmbda + 4 * a2 * u2 ^ 2 * (u1 - u2 * lmbda)); [ring|]. rewrite A1, A2, U. unfold u1. field. }
  apply (c3_orbits_ok a1 a2 a3 a4 x1 x2 x3 x4 u1 u2 u3 u4); auto; rewrite ?Q0, ?Q1, ?Q2, ?Q3; unfold p0, p1, p2; lra.
Qed.
(** The default parameter: the constructor does return. *)
Lemma rdiv_val a b v : b <> 0 -> a / b = v -> rdiv a b = Some v.
Proof. intros H <-. apply rdiv_ok. auto. Qed.
Theorem hammer_wymore_default : delivers (cube_mean 3) 3 7 (c3_hammer_wymore (27/20)).
Proof.
  assert (R : exists s, c3_hammer_wymore (27/20) = Some s); [|destruct R as [s Hs]; rewrite Hs; apply (hammer_wymore_ok _ _ Hs)].
  unfold c3_hammer_wymore. cbv zeta.
  replace ((8 / 7 - 2 * (8 / 15) + 8 / 27 + 27 / 20 * (8 / 15 - 8 / 27)) / (8 / 5 - 8 / 9)) with (409/420) by field.
  rewrite (rdiv_val (409/420) (27/20) (409/567)) by (try lra; field). cbn [bind].
  erewrite (rdiv_val _ ((409/420)^3) (13798400/68417929)) by (try lra; field). cbn [bind].
  erewrite (rdiv_val _ ((409/567)^3) (54010152/342089645)) by (try lra; field). cbn [bind].
  replace (8 - 6 * (13798400 / 68417929) - 12 * (54010152 / 342089645)) with (1674643336/342089645) by field.
  replace (8 / 3 - 2 * (13798400 / 68417929) * (409 / 420) - 8 * (54010152 / 342089645) * (409 / 567)) with (1139832/836405) by field.
  replace (8 / 9 - 4 * (54010152 / 342089645) * (409 / 567) ^ 2) with (10312/18405) by field.
  erewrite (rdiv_val _ _ (710442407/7001077383)) by (try lra; field). cbn [bind].
  erewrite (rdiv_val _ _ (-(1810138294/2333692461))) by (try lra; field). cbn [bind].
  destruct (rsqrt_some ((-(1810138294/2333692461)) ^ 2 - 4 * (710442407/7001077383))) as (b & E & Pb & Hb); [lra|]. rewrite E. cbn [bind].
  assert (Bb : 44/100 < b < 45/100) by (eapply sq_bounds; eauto; lra).
  rewrite rdiv_ok by lra. cbn [bind]. rewrite rdiv_ok by lra. cbn [bind].
  rewrite !rsqrt_ok by lra. cbn [bind]. eexists. reflexivity.
Qed.
