(** McNamee-Stenger: for every fully symmetric functional, a constructed rule is exact. *)
From Coq Require Import Reals List Arith Lia Lra Permutation Bool.
From Verif Require Import Spec RsumLemmas CombModel CombProofs CombProofs2 Moments SymExact
  IntegralSpec IntegralProofs IntegralProofs2 PyBase SymmModel SymmProofs MiscModel CnModel SchemeTools CnTools
  CnProofs MsModel.
Import ListNotations.
Open Scope R_scope.

Definition scheme_ok (n d : nat) (I : list nat -> R) (s : scheme) : Prop :=
  s_dim s = n /\ s_degree s = d /\ exact n d I (s_rule s).
(** what the integrator must return: the normalised functional times the volume *)
Definition ms_integ (n : nat) (integ mom : list nat -> R) : Prop :=
  integ [] <> 0 /\ forall l, (length l <= n)%nat -> integ l = integ [] * mom l.

Lemma fs_mom_perm n I mom l l' : fs_functional n I mom -> Permutation l l' -> (length l <= n)%nat -> mom l = mom l'.
Proof.
  intros [F1 [_ F3]] P L. assert (L' := Permutation_length P).
  rewrite <- (F3 l (n - length l)%nat) by lia. rewrite <- (F3 l' (n - length l)%nat) by lia.
  apply F1. { apply Permutation_app_tail; auto. } rewrite app_length, repeat_length. lia.
Qed.

Lemma ms_scheme_inv n gs I0 d s : ms_scheme n (gdata gs) I0 d = Some s ->
  I0 <> 0 /\ s_dim s = n /\ s_degree s = d /\ s_rule s = sym_rule (map (fun g => (fst g * / I0, snd g)) gs).
Proof.
  unfold ms_scheme. destruct (Req_EM_T I0 0); [discriminate|]. assert (G := mk_rule_gdata gs).
  destruct (untangle (gdata gs)) as [pts ws]. intros E. injection E as <-. cbn [s_dim s_degree s_rule].
  split; auto. split; auto. split; auto. unfold Rdiv. rewrite mk_rule_scale, G, sym_rule_scale. auto.
Qed.

Lemma ms_roots_inv a b c sw u v : ms_roots a b c sw = Some (u, v) ->
  a <> 0 /\ a * u ^ 2 - b * u + c = 0 /\ a * v ^ 2 - b * v + c = 0.
Proof.
  unfold ms_roots. intros H. inv_opt.
  assert (a <> 0) by (intros ->; lra). split; auto.
  assert (R1 : a * v1 ^ 2 - b * v1 + c = 0).
  { rewrite D0. replace (a * ((b + v0) / (2 * a)) ^ 2 - b * ((b + v0) / (2 * a)) + c)
      with ((v0 * v0 - (b ^ 2 - 4 * a * c)) / (4 * a)) by (field; auto). rewrite Q. field; auto. }
  assert (R2 : a * v2 ^ 2 - b * v2 + c = 0).
  { rewrite D. replace (a * ((b - v0) / (2 * a)) ^ 2 - b * ((b - v0) / (2 * a)) + c)
      with ((v0 * v0 - (b ^ 2 - 4 * a * c)) / (4 * a)) by (field; auto). rewrite Q. field; auto. }
  destruct sw; injection H as <- <-; auto.
Qed.
Lemma ms_solve_inv p q r s x y X Y : ms_solve p q r s x y = Some (X, Y) ->
  p * s - q * r <> 0 /\ p * X + q * Y = x /\ r * X + s * Y = y.
Proof.
  unfold ms_solve, rdiv. cbv zeta. destruct (Req_EM_T (p * s - q * r) 0) as [|Nz]; [discriminate|]. cbn [bind].
  intros H. injection H as <- <-. split; auto. split; field; auto.
Qed.

Ltac fs_even F := apply (fs_exact_even _ _ _ _ _ F); [ok_groups|even_groups|];
  let l := fresh "l" in let Hl := fresh "Hl" in let Hn := fresh "Hn" in
  intros l Hl Hn; split_parts Hl.
Ltac fs_pre n := match goal with Hn : (length _ <= n)%nat |- _ => moment_lhs n Hn end.

Ltac st_sqrt H r P Q := apply bind_inv in H; destruct H as [r [P H]]; apply rsqrt_inv in P; destruct P as [P Q].
Ltac st_div H c N D := apply bind_inv in H; destruct H as [c [D H]]; apply rdiv_inv in D; destruct D as [N D].
Ltac st_fsd H := let p := fresh "p" in let E := fresh "E" in
  apply bind_inv in H; destruct H as [p [E H]]; apply Rfsd_inv in E; destruct E as [_ ->];
  cbn [map fst snd list_sum fold_right app Nat.add] in H; rewrite ?Rz_combine in H.

Theorem ms3_exact n integ I mom s : fs_functional n I mom -> ms_integ n integ mom -> (1 <= n)%nat ->
  ms3 n integ = Some s -> scheme_ok n 3 I s.
Proof.
  intros F [M0 M] Hn H. unfold ms3 in H. cbv zeta in H.
  st_div H u2 Nu Du. st_div H qA1 NA DA. st_sqrt H u Pu Qu. st_div H w0 Nz0 D0. st_div H w1 Nz1 D1. st_fsd H. injection H as <-.
  split; auto. split; auto. cbn [s_rule from_data].
  match goal with |- exact _ _ _ (mk_rule (untangle ?d)) =>
    change d with (gdata [(w0, [([0], n)]); (w1, [([u; - u], 1%nat); ([0], (n - 1)%nat)])]) end.
  rewrite mk_rule_gdata.
  assert (M1 := M [] ltac:(simpl; lia)). assert (M2 := M [2%nat] ltac:(simpl; lia)).
  set (I0 := integ []) in *. set (I2 := integ [2%nat]) in *.
  assert (I2 <> 0) by (intros X; apply NA; rewrite Du, X; unfold Rdiv; ring).
  fs_even F. all: fs_pre n; rewrite ?Qu; prep n; intros N; intros; apply Rmult_eq_reg_l with I0; auto; rewrite <- ?M1, <- ?M2.
  all: subst; field; auto.
Qed.

Theorem ms5_exact n integ I mom s : fs_functional n I mom -> ms_integ n integ mom ->
  ms5 n integ = Some s -> scheme_ok n 5 I s.
Proof.
  intros F [M0 M] H. unfold ms5 in H. cbv zeta in H. apply guard_inv in H. destruct H as [G H]. apply Nat.leb_le in G.
  st_div H u2 Nu Du. st_sqrt H v0 Pu Qu. st_div H r Nr Dr. st_fsd H. st_fsd H.
  match type of H with ms_scheme _ [(?A0, _); (?A1, _); (?A11, _)] _ _ = _ =>
    apply (ms_scheme_inv n [(A0, [([0], n)]); (A1, [([v0; - v0], 1%nat); ([0], (n - 1)%nat)]);
      (A11, [([v0; - v0], 2%nat); ([0], (n - 2)%nat)])]) in H end.
  destruct H as [Z [Hd [Hg Hr]]]. split; auto. split; auto. rewrite Hr. cbn [map fst snd]. clear Hr Hd Hg.
  assert (M1 := M [] ltac:(simpl; lia)). assert (M2 := M [2%nat] ltac:(simpl; lia)).
  assert (M4 := M [4%nat] ltac:(simpl; lia)). assert (M22 := M [2;2]%nat ltac:(simpl; lia)).
  set (I0 := integ []) in *. set (I2 := integ [2%nat]) in *. set (I4 := integ [4%nat]) in *. set (I22 := integ [2;2]%nat) in *.
  fs_even F. all: fs_pre n; rewrite ?Qu; prep n; intros N; intros; apply Rmult_eq_reg_l with I0; auto; rewrite <- ?M1, <- ?M2, <- ?M4, <- ?M22.
  all: subst; field; auto.
Qed.

Lemma comb2 n : (1 <= n)%nat -> INR (comb (n - 1) 2) = (INR n - 1) * (INR n - 2) / 2.
Proof.
  intros H. rewrite INR_comb. cbn [ffR fact Nat.mul Nat.add]. inr_lits. rewrite minus_INR by lia. simpl (INR 1). field.
Qed.
Lemma comb22 n : (2 <= n)%nat -> INR (comb (n - 2) 2) = (INR n - 2) * (INR n - 3) / 2.
Proof.
  intros H. rewrite INR_comb. cbn [ffR fact Nat.mul Nat.add]. inr_lits. rewrite minus_INR by lia. simpl (INR 2). field.
Qed.
Lemma comb13 n : (1 <= n)%nat -> INR (comb (n - 1) 3) = (INR n - 1) * (INR n - 2) * (INR n - 3) / 6.
Proof.
  intros H. rewrite INR_comb. cbn [ffR fact Nat.mul Nat.add]. inr_lits. rewrite minus_INR by lia. simpl (INR 1). field.
Qed.
Lemma combn2 n : INR (comb n 2) = INR n * (INR n - 1) / 2.
Proof. rewrite INR_comb. cbn [ffR fact Nat.mul Nat.add]. inr_lits. field. Qed.
Lemma combn3 n : INR (comb n 3) = INR n * (INR n - 1) * (INR n - 2) / 6.
Proof. rewrite INR_comb. cbn [ffR fact Nat.mul Nat.add]. inr_lits. field. Qed.
Lemma combn4 n : INR (comb n 4) = INR n * (INR n - 1) * (INR n - 2) * (INR n - 3) / 24.
Proof. rewrite INR_comb. cbn [ffR fact Nat.mul Nat.add]. inr_lits. field. Qed.

Ltac st_pair H x y E := apply bind_inv in H; let p := fresh "p" in destruct H as [p [E H]]; destruct p as [x y].

Theorem ms7_exact n integ I mom sw s : fs_functional n I mom -> ms_integ n integ mom ->
  ms7 n integ sw = Some s -> scheme_ok n 7 I s.
Proof.
  intros F [M0 M] H. unfold ms7 in H. cbv zeta in H. apply guard_inv in H. destruct H as [G H]. apply Nat.leb_le in G.
  assert (M1 := M [] ltac:(simpl; lia)). assert (M2 := M [2%nat] ltac:(simpl; lia)).
  assert (M4 := M [4%nat] ltac:(simpl; lia)). assert (M6 := M [6%nat] ltac:(simpl; lia)).
  assert (M22 := M [2;2]%nat ltac:(simpl; lia)). assert (M24 := M [2;4]%nat ltac:(simpl; lia)).
  assert (M222 := M [2;2;2]%nat ltac:(simpl; lia)).
  assert (P24 : mom [4;2]%nat = mom [2;4]%nat) by (apply (fs_mom_perm n I mom); auto; [apply perm_swap|simpl; lia]).
  set (i0 := integ []) in *. set (i2 := integ [2%nat]) in *. set (i4 := integ [4%nat]) in *. set (i6 := integ [6%nat]) in *.
  set (i22 := integ [2;2]%nat) in *. set (i24 := integ [2;4]%nat) in *. set (i222 := integ [2;2;2]%nat) in *.
  st_pair H u2 v2 Er. apply ms_roots_inv in Er. destruct Er as [Na [Ru Rv]].
  st_div H a111 Nu D111. st_pair H x1 y1 Es. apply ms_solve_inv in Es. destruct Es as [Nd1 [S1 S2]].
  st_pair H x2 y2 Es. apply ms_solve_inv in Es. destruct Es as [Nd2 [S3 S4]].
  st_sqrt H u Pu Qu. st_sqrt H v Pv Qv. do 5 st_fsd H.
  rewrite comb2, combn2, combn3 in * by lia.
  match type of H with ms_scheme _ [(?A0, _); (?A1, _); (?A2, _); (?A11, _); (?A22, _); (?A111, _)] _ _ = _ =>
    apply (ms_scheme_inv n [(A0, [([0], n)]); (A1, [([u; - u], 1%nat); ([0], (n - 1)%nat)]);
      (A2, [([v; - v], 1%nat); ([0], (n - 1)%nat)]); (A11, [([u; - u], 2%nat); ([0], (n - 2)%nat)]);
      (A22, [([v; - v], 2%nat); ([0], (n - 2)%nat)]); (A111, [([u; - u], 3%nat); ([0], (n - 3)%nat)])]) in H end.
  destruct H as [Z [Hd [Hg Hr]]]. split; auto. split; auto. rewrite Hr. cbn [map fst snd]. clear Hr Hd Hg.
  assert (Hu : u2 <> 0) by (intros X; apply Nu; rewrite X; ring).
  assert (S5 : u2 ^ 3 * (x2 + (INR n - 1) * (INR n - 2) * 4 * a111) + v2 ^ 3 * y2 = i6).
  { apply Rmult_eq_reg_l with (i2 ^ 2 - i0 * i4); auto.
    replace (u2 ^ 3 * (x2 + (INR n - 1) * (INR n - 2) * 4 * a111) + v2 ^ 3 * y2) with
      (u2 * (u2 ^ 2) * (x2 + (INR n - 1) * (INR n - 2) * 4 * a111) + v2 * (v2 ^ 2) * y2) by ring.
    set (X := x2 + (INR n - 1) * (INR n - 2) * 4 * a111).
    set (a := i2 ^ 2 - i0 * i4) in *. set (b := i2 * i4 - i0 * i6) in *. set (c := i4 ^ 2 - i2 * i6) in *.
    assert (T1 : u2 * X + v2 * y2 = i2) by (unfold X; lra).
    assert (T2 : u2 ^ 2 * X + v2 ^ 2 * y2 = i4) by (unfold X; lra).
    transitivity (b * (u2 ^ 2 * X + v2 ^ 2 * y2) - c * (u2 * X + v2 * y2)).
    { replace (a * (u2 * u2 ^ 2 * X + v2 * v2 ^ 2 * y2)) with (u2 * X * (a * u2 ^ 2) + v2 * y2 * (a * v2 ^ 2)) by ring.
      replace (a * u2 ^ 2) with (b * u2 - c) by lra. replace (a * v2 ^ 2) with (b * v2 - c) by lra. ring. }
    rewrite T1, T2. unfold a, b, c. ring. }
  assert (D' : (2 * u2) ^ 3 * a111 = i222) by (rewrite D111; field; auto).
  clear D111 Ru Rv Na Nd1 Nd2 M.
  fs_even F; fs_pre n; rewrite ?Qu, ?Qv; inr_lits; rewrite ?pow1; nz_facts n; apply Rmult_eq_reg_l with i0; auto;
    rewrite ?P24, <- ?M1, <- ?M2, <- ?M4, <- ?M6, <- ?M22, <- ?M24, <- ?M222;
  lazymatch goal with
  | |- _ = i0 => field; side
  | |- _ = i222 => rewrite <- D'; field; side
  | |- _ = i22 => symmetry; transitivity (u2 ^ 2 * x1 + v2 ^ 2 * y1 + 2 ^ 3 * (INR n - 2) * u2 ^ 2 * a111); [lra|]; field; side
  | |- _ = i24 => symmetry; transitivity (u2 ^ 3 * x1 + v2 ^ 3 * y1 + 2 ^ 3 * (INR n - 2) * u2 ^ 3 * a111); [lra|]; field; side
  | |- _ = i2 => symmetry; transitivity (u2 * x2 + v2 * y2 + 2 ^ 3 * ((INR n - 1) * (INR n - 2) / 2) * u2 * a111); [lra|]; field; side
  | |- _ = i4 => symmetry; transitivity (u2 ^ 2 * x2 + v2 ^ 2 * y2 + 2 ^ 3 * ((INR n - 1) * (INR n - 2) / 2) * u2 ^ 2 * a111); [lra|]; field; side
  | |- _ = i6 => symmetry; transitivity (u2 ^ 3 * (x2 + (INR n - 1) * (INR n - 2) * 4 * a111) + v2 ^ 3 * y2); [lra|]; field; side
  end.
Qed.

(** Degree 9 needs one relation between the integrals beyond full symmetry: the pair moments (2,2), (2,4),
    (2,6) must satisfy the three-term relation with the coefficients the code computes. *)
Definition ms9_relation (integ : list nat -> R) : Prop :=
  let a := integ [4%nat] ^ 2 - integ [2%nat] * integ [6%nat] in
  let b := integ [4%nat] * integ [6%nat] - integ [2%nat] * integ [8%nat] in
  let c := integ [6%nat] ^ 2 - integ [4%nat] * integ [8%nat] in
  a * integ [2; 6]%nat = b * integ [2; 4]%nat - c * integ [2; 2]%nat.

Lemma ms9_core n integ I mom sw s : fs_functional n I mom -> ms_integ n integ mom ->
  ms9 n integ sw = Some s ->
  s_dim s = n /\ s_degree s = 9%nat /\
  (ms9_relation integ -> exact n 9 I (s_rule s)) /\
  (~ ms9_relation integ -> apply (s_rule s) (mono (2%nat :: 2%nat :: repeat 0%nat (n - 2))) <> mom [2; 2]%nat).
Proof.
  intros F [M0 M] H. unfold ms9 in H. cbv zeta in H. apply guard_inv in H. destruct H as [G H]. apply Nat.leb_le in G.
  unfold ms9_relation. cbv zeta.
  assert (M1 := M [] ltac:(simpl; lia)). assert (M2 := M [2%nat] ltac:(simpl; lia)).
  assert (M4 := M [4%nat] ltac:(simpl; lia)). assert (M6 := M [6%nat] ltac:(simpl; lia)).
  assert (M8 := M [8%nat] ltac:(simpl; lia)).
  assert (M22 := M [2;2]%nat ltac:(simpl; lia)). assert (M24 := M [2;4]%nat ltac:(simpl; lia)).
  assert (M26 := M [2;6]%nat ltac:(simpl; lia)). assert (M44 := M [4;4]%nat ltac:(simpl; lia)).
  assert (M222 := M [2;2;2]%nat ltac:(simpl; lia)). assert (M224 := M [2;2;4]%nat ltac:(simpl; lia)).
  assert (M2222 := M [2;2;2;2]%nat ltac:(simpl; lia)).
  assert (P24 : mom [4;2]%nat = mom [2;4]%nat) by (apply (fs_mom_perm n I mom); auto; [apply perm_swap|simpl; lia]).
  assert (P26 : mom [6;2]%nat = mom [2;6]%nat) by (apply (fs_mom_perm n I mom); auto; [apply perm_swap|simpl; lia]).
  assert (P224 : mom [4;2;2]%nat = mom [2;2;4]%nat).
  { apply (fs_mom_perm n I mom); auto; [|simpl; lia]. change [2;2;4]%nat with ([2;2] ++ [4])%nat. apply (Permutation_cons_append [2;2]%nat 4%nat). }
  set (i0 := integ []) in *. set (i2 := integ [2%nat]) in *. set (i4 := integ [4%nat]) in *. set (i6 := integ [6%nat]) in *.
  set (i8 := integ [8%nat]) in *.
  set (i22 := integ [2;2]%nat) in *. set (i24 := integ [2;4]%nat) in *. set (i26 := integ [2;6]%nat) in *.
  set (i44 := integ [4;4]%nat) in *. set (i222 := integ [2;2;2]%nat) in *. set (i224 := integ [2;2;4]%nat) in *.
  set (i2222 := integ [2;2;2;2]%nat) in *.
  st_pair H u2 v2 Er. apply ms_roots_inv in Er. destruct Er as [Na [Ru Rv]].
  st_div H a1111 Nu D1111. st_pair H x1 y1 Es. apply ms_solve_inv in Es. destruct Es as [Nd1 [S1 S2]].
  st_div H a12 Nuv D12.
  st_pair H x2 y2 Es. apply ms_solve_inv in Es. destruct Es as [_ [S3 S4]].
  st_pair H x3 y3 Es. apply ms_solve_inv in Es. destruct Es as [_ [S5 S6]].
  st_sqrt H u Pu Qu. st_sqrt H v Pv Qv. do 8 st_fsd H.
  rewrite comb2, comb22, comb13, combn2, combn3, combn4 in * by lia.
  match type of H with ms_scheme _ [(?A0, _); (?A1, _); (?A2, _); (?A11, _); (?A12, _); (?A22, _); (?A111, _); (?A222, _); (?A1111, _)] _ _ = _ =>
    apply (ms_scheme_inv n [(A0, [([0], n)]); (A1, [([u; - u], 1%nat); ([0], (n - 1)%nat)]);
      (A2, [([v; - v], 1%nat); ([0], (n - 1)%nat)]); (A11, [([u; - u], 2%nat); ([0], (n - 2)%nat)]);
      (A12, [([u; - u], 1%nat); ([v; - v], 1%nat); ([0], (n - 2)%nat)]);
      (A22, [([v; - v], 2%nat); ([0], (n - 2)%nat)]); (A111, [([u; - u], 3%nat); ([0], (n - 3)%nat)]);
      (A222, [([v; - v], 3%nat); ([0], (n - 3)%nat)]);
      (A1111, [([u; - u], 4%nat); ([0], (n - 4)%nat)])]) in H end.
  destruct H as [Z [Hd [Hg Hr]]]. split; auto. split; auto. rewrite Hr. cbn [map fst snd]. clear Hr Hd Hg.
  assert (Hu : u2 <> 0) by (intros X; apply Nu; rewrite X; ring).
  assert (Hv : v2 <> 0) by (intros X; apply Nuv; rewrite X; ring).
  set (a := i4 ^ 2 - i2 * i6) in *. set (b := i4 * i6 - i2 * i8) in *. set (c := i6 ^ 2 - i4 * i8) in *.
  assert (Huv : u2 - v2 <> 0) by (intros X; apply Nuv; rewrite X; ring).
  assert (Hc : c <> 0).
  { assert (Sb : b = a * (u2 + v2)).
    { apply Rmult_eq_reg_r with (u2 - v2); auto. replace (a * (u2 + v2) * (u2 - v2)) with (a * u2 ^ 2 - a * v2 ^ 2) by ring. lra. }
    assert (Sc : c = a * (u2 * v2)).
    { replace c with (b * u2 - a * u2 ^ 2) by lra. rewrite Sb. ring. }
    rewrite Sc. repeat (apply Rmult_integral_contrapositive_currified; auto). }
  assert (Eu : a * u2 ^ 2 = b * u2 - c) by lra. assert (Ev : a * v2 ^ 2 = b * v2 - c) by lra.
  set (N := INR n) in *.
  set (X := x3 + (N - 1) * (N - 2) * (N - 3) * 8 / 3 * a1111).
  assert (T1 : u2 * X + v2 * y3 = i2) by (unfold X; lra).
  assert (T2 : u2 ^ 2 * X + v2 ^ 2 * y3 = i4) by (unfold X; lra).
  assert (T3 : u2 ^ 3 * X + v2 ^ 3 * y3 = i6).
  { apply Rmult_eq_reg_l with a; auto.
    transitivity (b * (u2 ^ 2 * X + v2 ^ 2 * y3) - c * (u2 * X + v2 * y3)).
    { replace (a * (u2 ^ 3 * X + v2 ^ 3 * y3)) with (u2 * X * (a * u2 ^ 2) + v2 * y3 * (a * v2 ^ 2)) by ring.
      rewrite Eu, Ev. ring. }
    rewrite T1, T2. unfold a, b, c. ring. }
  assert (T4 : u2 ^ 4 * X + v2 ^ 4 * y3 = i8).
  { apply Rmult_eq_reg_l with a; auto.
    transitivity (b * (u2 ^ 3 * X + v2 ^ 3 * y3) - c * (u2 ^ 2 * X + v2 ^ 2 * y3)).
    { replace (a * (u2 ^ 4 * X + v2 ^ 4 * y3)) with (u2 ^ 2 * X * (a * u2 ^ 2) + v2 ^ 2 * y3 * (a * v2 ^ 2)) by ring.
      rewrite Eu, Ev. ring. }
    rewrite T2, T3. unfold a, b, c. ring. }
  set (Y := x2 + (N - 2) * (N - 3) * 8 * a1111).
  assert (U1 : u2 ^ 3 * Y + v2 ^ 3 * y2 + 4 * (u2 ^ 2 * v2 + u2 * v2 ^ 2) * a12 = i24) by (unfold Y; lra).
  assert (U2 : u2 ^ 4 * Y + v2 ^ 4 * y2 + 4 * (u2 ^ 3 * v2 + u2 * v2 ^ 3) * a12 = i26) by (unfold Y; lra).
  assert (D12' : 4 * u2 * v2 * (u2 - v2) ^ 2 * a12 = i26 - i44) by (rewrite D12; field; auto).
  assert (U3 : u2 ^ 4 * Y + v2 ^ 4 * y2 + 8 * u2 ^ 2 * v2 ^ 2 * a12 = i44).
  { replace i44 with (i26 - (i26 - i44)) by ring. rewrite <- D12', <- U2. ring. }
  assert (U4 : a * i26 = b * i24 - c * (u2 ^ 2 * Y + v2 ^ 2 * y2 + 8 * u2 * v2 * a12)).
  { rewrite <- U2, <- U1.
    replace (a * (u2 ^ 4 * Y + v2 ^ 4 * y2 + 4 * (u2 ^ 3 * v2 + u2 * v2 ^ 3) * a12)) with
      ((a * u2 ^ 2) * (u2 ^ 2 * Y) + (a * v2 ^ 2) * (v2 ^ 2 * y2) + 4 * ((a * u2 ^ 2) * u2 * v2 + u2 * v2 * (a * v2 ^ 2)) * a12) by ring.
    rewrite Eu, Ev. ring. }
  assert (D' : (2 * u2) ^ 4 * a1111 = i2222) by (rewrite D1111; field; auto).
  clear D1111 D12 Ru Rv Nd1 M.
  set (q22 := u2 ^ 2 * Y + v2 ^ 2 * y2 + 8 * u2 * v2 * a12) in *.
  match goal with |- (_ -> exact n 9 I (sym_rule ?g)) /\ _ => set (gs := g) end.
  assert (OK : forall g, In g gs -> ok_group n g) by (unfold gs; ok_groups).
  assert (EV : forall g, In g gs -> even_group g) by (unfold gs; even_groups).
  assert (Q22 : Rsum (map (fun g => fst g * (gnum g * gavg g (INR n) [2;2]%nat)) gs) = q22 / i0).
  { unfold gs. assert (Hn : (length [2;2]%nat <= n)%nat) by (simpl; lia). fs_pre n. rewrite ?Qu, ?Qv. inr_lits; rewrite ?pow1; nz_facts n.
    fold N in H, H0, H1, H2. fold N. unfold q22, Y. field; side. }
  split.
  - intros Rel. assert (U5 : q22 = i22) by (apply Rmult_eq_reg_l with c; auto; lra).
    subst X Y q22 N. apply (fs_exact_even _ _ _ _ _ F); auto; intros l Hl Hn; split_parts Hl;
    unfold gs; clear gs OK EV Q22; fs_pre n; rewrite ?Qu, ?Qv; inr_lits; rewrite ?pow1; nz_facts n;
    apply Rmult_eq_reg_l with i0; auto;
    rewrite ?P24, ?P26, ?P224, <- ?M1, <- ?M2, <- ?M4, <- ?M6, <- ?M8, <- ?M22, <- ?M24, <- ?M26, <- ?M44, <- ?M222, <- ?M224, <- ?M2222;
    lazymatch goal with
    | |- _ = i0 => field; side
    | |- _ = i2222 => rewrite <- D'; field; side
    | |- _ = i222 => symmetry; transitivity (u2 ^ 3 * x1 + v2 ^ 3 * y1 + 2 ^ 4 * (INR n - 3) * u2 ^ 3 * a1111); [lra|]; field; side
    | |- _ = i224 => symmetry; transitivity (u2 ^ 4 * x1 + v2 ^ 4 * y1 + 2 ^ 4 * (INR n - 3) * u2 ^ 4 * a1111); [lra|]; field; side
    | |- _ = i22 => rewrite <- U5; field; side
    | |- _ = i24 => rewrite <- U1; field; side
    | |- _ = i26 => rewrite <- U2; field; side
    | |- _ = i44 => rewrite <- U3; field; side
    | |- _ = i2 => rewrite <- T1; field; side
    | |- _ = i4 => rewrite <- T2; field; side
    | |- _ = i6 => rewrite <- T3; field; side
    | |- _ = i8 => rewrite <- T4; field; side
    end.
  - intros Rel E. apply Rel.
    assert (E2 : i22 = q22).
    { rewrite M22, <- E. change (2%nat :: 2%nat :: repeat 0%nat (n - 2)) with ([2;2]%nat ++ repeat 0%nat (n - 2)).
      rewrite (sym_rule_moment n) by (auto; simpl; lia). rewrite Q22. field. auto. }
    rewrite E2, U4. auto.
Qed.
