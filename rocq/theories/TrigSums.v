(** Sums of cosines and sines over arithmetic progressions of angles. *)
From Coq Require Import Reals List Arith Lia Lra.
From Verif Require Import Spec RsumLemmas.
Import ListNotations.
Open Scope R_scope.

Lemma cos_progression phi c s N :
  Rsum (map (fun i => cos (INR i * phi + c)) (seq s N)) * (2 * sin (phi / 2)) =
  sin ((INR s + INR N - 1/2) * phi + c) - sin ((INR s - 1/2) * phi + c).
Proof.
  revert s; induction N as [|N IH]; intros s.
  { cbn [seq map Rsum INR]. replace (INR s + 0 - 1/2) with (INR s - 1/2) by ring. ring. }
  cbn [seq map Rsum]. rewrite Rmult_plus_distr_r, IH. rewrite !S_INR.
  assert (E : 2 * (cos (INR s * phi + c) * sin (phi / 2)) =
    sin (INR s * phi + c + phi / 2) - sin (INR s * phi + c - phi / 2)).
  { rewrite sin_plus, sin_minus. ring. }
  replace (INR s + 1 + INR N - 1 / 2) with (INR s + (INR N + 1) - 1/2) by ring.
  replace ((INR s + 1 - 1 / 2) * phi + c) with (INR s * phi + c + phi / 2) by field.
  replace ((INR s - 1 / 2) * phi + c) with (INR s * phi + c - phi / 2) by field.
  lra.
Qed.

Lemma sin_shift_period x k : sin (x + 2 * INR k * PI) = sin x.
Proof. apply sin_period. Qed.

Lemma sin_nz_frac j N : (0 < j < N)%nat -> sin (INR j * PI / INR N) <> 0.
Proof.
  intros [H1 H2]. assert (P1 : 0 < INR j) by (apply lt_0_INR; lia). assert (P2 : INR j < INR N) by (apply lt_INR; lia).
  assert (PP := PI_RGT_0). apply Rgt_not_eq, sin_gt_0.
  - apply Rdiv_lt_0_compat; [nra|lra].
  - apply Rmult_lt_reg_r with (INR N); [lra|]. unfold Rdiv. rewrite Rmult_assoc, Rinv_l by lra. nra.
Qed.

(** The N equally spaced angles 2 pi j i / N (any phase c, any start s) have vanishing cosine sum unless N | j. *)
Theorem cos_roots j N c s : (0 < j < N)%nat ->
  Rsum (map (fun i => cos (INR i * (2 * PI * INR j / INR N) + c)) (seq s N)) = 0.
Proof.
  intros H. assert (HN : INR N <> 0) by (apply not_0_INR; lia).
  assert (E := cos_progression (2 * PI * INR j / INR N) c s N).
  replace ((INR s + INR N - 1 / 2) * (2 * PI * INR j / INR N) + c)
    with ((INR s - 1/2) * (2 * PI * INR j / INR N) + c + 2 * INR j * PI) in E by (field; auto).
  rewrite sin_period in E. rewrite Rminus_diag_eq in E by auto.
  apply Rmult_integral in E. destruct E as [E|E]; auto. exfalso.
  apply Rmult_integral in E. destruct E as [E|E]; [lra|].
  replace (2 * PI * INR j / INR N / 2) with (INR j * PI / INR N) in E by (field; auto).
  exact (sin_nz_frac j N H E).
Qed.
Theorem sin_roots j N c s : (0 < j < N)%nat ->
  Rsum (map (fun i => sin (INR i * (2 * PI * INR j / INR N) + c)) (seq s N)) = 0.
Proof.
  intros H. rewrite <- (cos_roots j N (c - PI / 2) s H). apply Rsum_map_ext. intros i _.
  rewrite <- cos_shift. rewrite <- cos_neg. f_equal. ring.
Qed.
