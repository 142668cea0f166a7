(** Tactics for the closed-form schemes: run the constructor, then check the moments in the tower of square roots. *)
From Coq Require Import Reals List Arith Lia Lra String QArith Qreals.
From Verif Require Import Spec RsumLemmas IntegralSpec SphereSpec PyBase SymmModel OrbitModel SchemeTools Tower TowerSym TowerMoments FixSpec.
Import ListNotations.
Set Bullet Behavior "Strict Subproofs".
Open Scope R_scope.

Lemma rsqrt_some x : 0 <= x -> exists r, rsqrt x = Some r /\ 0 <= r /\ r * r = x.
Proof. intros H. exists (sqrt x). split; [apply rsqrt_ok; auto|]. split; [apply sqrt_pos|apply sqrt_sqrt; auto]. Qed.
Lemma delivers_intro M nc d s : s_degree s = d -> exact nc d (fun k => M (mono k)) (s_rule s) -> delivers M nc d (Some s).
Proof. intros H [P E]. exists s. repeat split; auto. Qed.
Lemma delivers_run M nc d r s : r = Some s -> delivers M nc d (Some s) -> delivers M nc d r.
Proof. intros ->. auto. Qed.
(** A list of generators from the hypotheses [g * g = e], the latest first. *)
Ltac tw_mem x l := lazymatch l with nil => fail | x :: _ => idtac | _ :: ?l' => tw_mem x l' end.
Ltac tw_rev l acc := lazymatch l with nil => acc | ?x :: ?l' => tw_rev l' (x :: acc) end.
Ltac tw_env_from acc :=
  match goal with
  | H : ?g * ?g = _ |- _ => let _ := match goal with _ => (tw_mem g acc; fail 1) | _ => idtac end in tw_env_from (g :: acc)
  | _ => tw_rev acc (@nil R)
  end.
Ltac tw_env := tw_env_from (@nil R).
(** The next square root or quotient of the constructor; the side condition is left over when it is not found. *)
Ltac fix_side := first [lra | nra | idtac].
Ltac fix_step :=
  lazymatch goal with
  | |- delivers _ _ _ (bind (rsqrt ?x) _) =>
      let r := fresh "r" in let E := fresh "E" in let P := fresh "P" in let H := fresh "H" in let H' := fresh "H" in
      assert (H : 0 <= x);
      [fix_side | destruct (rsqrt_some x H) as (r & E & P & H'); clear H; rename H' into H; rewrite E; clear E; cbn [bind]]
  | |- delivers _ _ _ (bind (rdiv ?a ?b) _) =>
      let H := fresh "N" in assert (H : b <> 0); [try (let env := tw_env in tower_nz env)|rewrite (rdiv_ok a b H); clear H; cbn [bind]]
  end.
(** The cheapest of the available moment checks that succeeds; hm as in TowerSym.v. *)
Ltac tower_best hm env Q :=
  first [tower_sym true 1%nat hm env Q | tower_sym true 2%nat hm env Q | tower_sym true 0%nat hm env Q
        | tower_sym false 1%nat hm env Q | tower_sym false 2%nat hm env Q | tower_sym false 0%nat hm env Q].
Ltac fix_finish_h hm Q tac :=
  let env := tw_env in
  eapply delivers_run; [lazy -[Rplus Rmult Rminus Ropp Rdiv Rinv IZR pow sqrt PI cos sin]; reflexivity|];
  apply delivers_intro; [reflexivity|]; cbn [s_rule]; tower_best hm env Q; [intros; tac].
Ltac fix_finish Q tac := fix_finish_h 0%nat Q tac.
(** Two square roots whose product is known are not independent: eliminate the second. *)
Lemma conj_prod s t A B c : 0 <= s -> 0 <= t -> 0 <= c -> s * s = A -> t * t = B -> A * B = c * c -> s * t = c.
Proof.
  intros Hs Ht Hc HA HB H. apply Rsqr_inj; auto; [apply Rmult_le_pos; auto|]. unfold Rsqr. rewrite <- H, <- HA, <- HB. ring.
Qed.
Lemma conj_elim s t A B c : 0 <= s -> 0 <= t -> 0 < c -> s * s = A -> t * t = B -> A * B = c * c -> t = c / s.
Proof.
  intros Hs Ht Hc HA HB H. pose proof (conj_prod s t A B c Hs Ht (Rlt_le _ _ Hc) HA HB H) as E.
  assert (s <> 0) by (intros Z; rewrite Z in E; lra). rewrite <- E. field. auto.
Qed.
(** [elim_conj s t c]: t = c / s. *)
Ltac elim_conj s t c :=
  match goal with
  | Hs : 0 <= s, Ht : 0 <= t, HA : s * s = ?A, HB : t * t = ?B |- _ =>
      let E := fresh "E" in
      assert (E : t = c / s);
      [apply (conj_elim s t A B c Hs Ht); [try lra|exact HA|exact HB|clear HB; clear Ht; let env := tw_env in try tower_eq env]
      |clear HB Ht; rewrite E; clear E]
  end.
Lemma sq_bounds r x lo hi : 0 <= r -> r * r = x -> 0 <= lo -> 0 <= hi -> lo * lo < x -> x < hi * hi -> lo < r < hi.
Proof. intros. nra. Qed.
(** [bounds r lo hi]: rational bounds for a square root. *)
Ltac bounds r lo hi :=
  match goal with
  | P : 0 <= r, H : r * r = ?x |- _ => let B := fresh "B" in assert (B : lo < r < hi) by (apply (sq_bounds r x lo hi P H); lra)
  end.
