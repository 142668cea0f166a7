(** Boxes and simplices can be cut into cells as small as one likes (C91). *)
From Coq Require Import Reals List Arith ZArith Lia Lra Permutation.
From Verif Require Import Spec RsumLemmas GeomModel ConvNdSpec MeshSpec MeshProofs MeshSimplex MeshCut.
Import ListNotations.
Set Bullet Behavior "Strict Subproofs".
Open Scope R_scope.
Local Notation length := List.length.

Lemma halvings h d : 0 < h -> exists k, d < h * 2 ^ k.
Proof.
  intros Hh. destruct (Pow_x_infinity 2 ltac:(rewrite Rabs_right; lra) (Rabs d / h + 1)) as (k & K). exists k. specialize (K k (le_n k)). rewrite Rabs_right in K by (apply Rle_ge, pow_le; lra).
  assert (Rabs d / h < 2 ^ k) by lra. apply (Rmult_lt_compat_l h) in H; [|lra]. replace (h * (Rabs d / h)) with (Rabs d) in H by (field; lra). pose proof (Rle_abs d). lra.
Qed.
Lemma fine_boxes h post : 0 < h -> limits_ok post -> forall pre, box_size_below h pre -> exists m, boxes_of (pre ++ post) m /\ List.Forall (box_size_below h) m.
Proof.
  intros Hh F. induction F as [|[a b] post Hab F IH]; intros pre B.
  - rewrite app_nil_r. exists [pre]. split; [constructor|constructor; [exact B|constructor]].
  - cbn [fst snd] in Hab. destruct (halvings h (b - a) Hh) as (k & Hk). revert a b Hab Hk. induction k as [|k IHk]; intros a b Hab Hk.
    + destruct (IH (pre ++ [(a, b)])) as (m & M & S); [apply Forall_app; split; [exact B|constructor; [cbn in *; lra|constructor]]|]. rewrite <- app_assoc in M. exists m. split; assumption.
    + cbn [pow] in Hk. destruct (IHk a ((a + b) / 2)) as (m1 & M1 & S1); [lra|lra|]. destruct (IHk ((a + b) / 2) b) as (m2 & M2 & S2); [lra|lra|]. exists (m1 ++ m2). split; [apply (box_cut pre a b post ((a + b) / 2)); auto; lra|apply Forall_app; auto].
Qed.

(** squared distances *)
Fixpoint sq (u v : point) : R := match u, v with a :: u', b :: v' => (a - b) ^ 2 + sq u' v' | _, _ => 0 end.
Lemma sq_ge0 u : forall v, 0 <= sq u v.
Proof. induction u as [|a u IH]; intros [|b v]; cbn [sq]; try lra. specialize (IH v). pose proof (pow2_ge_0 (a - b)). lra. Qed.
Lemma sq_refl u : sq u u = 0.
Proof. induction u as [|a u IH]; cbn [sq]; [reflexivity|]. rewrite IH. ring. Qed.
Lemma sq_sym u : forall v, sq u v = sq v u.
Proof. induction u as [|a u IH]; intros [|b v]; cbn [sq]; try reflexivity. rewrite IH. ring. Qed.
Lemma sq_mid u : forall v w, length u = length v -> length u = length w -> sq (between (1 / 2) u v) w = (sq u w + sq v w) / 2 - sq u v / 4.
Proof. unfold between. induction u as [|a u IH]; intros [|b v] [|c w] H1 H2; try discriminate; cbn [List.combine map sq fst snd]; [field|]. cbn in H1, H2. rewrite (IH v w) by lia. field. Qed.
Lemma sq_mid_end u : forall v, length u = length v -> sq (between (1 / 2) u v) u = sq u v / 4.
Proof. unfold between. induction u as [|a u IH]; intros [|b v] H; try discriminate; cbn [List.combine map sq fst snd]; [field|]. cbn in H. rewrite (IH v) by lia. field. Qed.
Lemma sq_close h u : forall v, 0 < h -> length u = length v -> sq u v < h ^ 2 -> close h u v.
Proof.
  induction u as [|a u IH]; intros [|b v] Hh L H; try discriminate; [constructor|]. cbn [sq] in H. pose proof (sq_ge0 u v). pose proof (pow2_ge_0 (a - b)). constructor; [|apply IH; [exact Hh|cbn in L; lia|lra]].
  apply Rsqr_lt_abs_0 || idtac. assert (Rsqr (a - b) < Rsqr h) as Q by (unfold Rsqr; lra). apply Rsqr_lt_abs_0 in Q. rewrite (Rabs_right h) in Q by lra. exact Q.
Qed.
Definition longb (S : R) (u v : point) : nat := if Rlt_dec (7 / 8 * S) (sq u v) then 1 else 0.
Lemma longb_sym S u v : longb S u v = longb S v u.
Proof. unfold longb. rewrite sq_sym. reflexivity. Qed.
Fixpoint from (S : R) (u : point) (V : list point) : nat := match V with [] => O | v :: V' => (longb S u v + from S u V')%nat end.
Fixpoint cnt (S : R) (V : list point) : nat := match V with [] => O | v :: V' => (from S v V' + cnt S V')%nat end.
Lemma from_perm S u V V' : Permutation V V' -> from S u V = from S u V'.
Proof. induction 1; cbn [from]; lia. Qed.
Lemma cnt_perm S V V' : Permutation V V' -> cnt S V = cnt S V'.
Proof. induction 1 as [|x l l' P IH|x y l|l l' l'' P1 IH1 P2 IH2]; cbn [cnt from]; [reflexivity|rewrite (from_perm S x l l' P); lia|rewrite (longb_sym S x y); lia|lia]. Qed.
Lemma two_of (u v : point) V : In u V -> In v V -> u <> v -> exists rest, Permutation V (u :: v :: rest).
Proof.
  intros Hu Hv N. apply in_split in Hu. destruct Hu as (l1 & l2 & ->). assert (Hv' : In v (l1 ++ l2)) by (apply in_app_iff in Hv; apply in_app_iff; destruct Hv as [|[|]]; auto; congruence).
  apply in_split in Hv'. destruct Hv' as (r1 & r2 & E). exists (r1 ++ r2). eapply perm_trans; [apply Permutation_sym, Permutation_middle|]. constructor. rewrite E. apply Permutation_sym, Permutation_middle.
Qed.
Definition within2 (S : R) (V : list point) : Prop := forall u v, In u V -> In v V -> sq u v <= S.
Lemma within2_perm S V V' : Permutation V V' -> within2 S V -> within2 S V'.
Proof. intros P H u v Hu Hv. apply Permutation_sym in P. apply H; eapply Permutation_in; eauto. Qed.
Lemma short_all S V : 0 <= S -> cnt S V = O -> within2 (7 / 8 * S) V.
Proof.
  intros HS H u v Hu Hv. destruct (Rle_lt_dec (sq u v) (7 / 8 * S)) as [L|L]; [exact L|exfalso]. destruct (two_of u v V Hu Hv) as (rest & P); [intros ->; rewrite sq_refl in L; lra|].
  rewrite (cnt_perm S _ _ P) in H. cbn [cnt from] in H. unfold longb in H. destruct (Rlt_dec _ _); [lia|lra].
Qed.
Lemma some_long S V : cnt S V <> O -> exists u v rest, Permutation V (u :: v :: rest) /\ 7 / 8 * S < sq u v.
Proof.
  induction V as [|u V IH]; cbn [cnt]; intros H; [lia|]. destruct (Nat.eq_dec (from S u V) 0) as [E|E].
  - destruct IH as (x & y & rest & P & L); [lia|]. exists x, y, (u :: rest). split; [|exact L]. eapply perm_trans; [apply perm_skip, P|]. eapply perm_trans; [apply perm_swap|]. apply perm_skip, perm_swap.
  - clear IH H. assert (exists v, In v V /\ 7 / 8 * S < sq u v) as (v & Hv & L).
    { induction V as [|v V IH]; cbn [from] in E; [lia|]. unfold longb in E. destruct (Rlt_dec (7 / 8 * S) (sq u v)) as [L|L]; [exists v; split; [now left|exact L]|]. destruct IH as (w & Hw & Lw); [exact E|]. exists w. split; [now right|exact Lw]. }
    apply in_split in Hv. destruct Hv as (l1 & l2 & ->). exists u, v, (l1 ++ l2). split; [|exact L]. constructor. apply Permutation_sym, Permutation_middle.
Qed.
Lemma from_zero S u V : (forall v, In v V -> sq u v <= 7 / 8 * S) -> from S u V = O.
Proof. induction V as [|v V IH]; intros H; cbn [from]; [reflexivity|]. rewrite IH by (intros; apply H; now right). unfold longb. destruct (Rlt_dec _ _) as [L|L]; [|reflexivity]. specialize (H v (or_introl eq_refl)). lra. Qed.
(** one of the two parts *)
Lemma half_part n S u v rest : 0 <= S -> simplex_ok n (u :: v :: rest) -> within2 S (u :: v :: rest) -> 7 / 8 * S < sq u v ->
  within2 S (u :: between (1 / 2) u v :: rest) /\ (cnt S (u :: between (1 / 2) u v :: rest) < cnt S (u :: v :: rest))%nat.
Proof.
  intros HS [_ F] W L. rewrite Forall_forall in F. assert (Lu := F u (or_introl eq_refl)). assert (Lv := F v (or_intror (or_introl eq_refl))). set (m := between (1 / 2) u v).
  assert (Mu : sq m u <= 7 / 8 * S) by (unfold m; rewrite sq_mid_end by congruence; pose proof (W u v (or_introl eq_refl) (or_intror (or_introl eq_refl))); lra).
  assert (Mw : forall w, In w rest -> sq m w <= 7 / 8 * S).
  { intros w Hw. assert (Lw := F w (or_intror (or_intror Hw))). unfold m. rewrite sq_mid by congruence. pose proof (W u w (or_introl eq_refl) (or_intror (or_intror Hw))). pose proof (W v w (or_intror (or_introl eq_refl)) (or_intror (or_intror Hw))). lra. }
  split.
  - intros x y [<-|[<-|Hx]] [<-|[<-|Hy]]; rewrite ?sq_refl; try lra.
    + rewrite sq_sym. lra.
    + apply W; [now left|right; now right].
    + specialize (Mw y Hy). lra.
    + apply W; [right; now right|now left].
    + rewrite sq_sym. specialize (Mw x Hx). lra.
    + apply W; right; now right.
  - cbn [cnt from]. rewrite (from_zero S m rest Mw). unfold longb at 1 2. rewrite (sq_sym u m). destruct (Rlt_dec (7 / 8 * S) (sq m u)); [lra|]. destruct (Rlt_dec (7 / 8 * S) (sq u v)); [|lra]. lia.
Qed.
Lemma fine_simplices n h k : 0 < h -> forall S V, simplex_ok n V -> 0 <= S -> within2 S V -> (7 / 8) ^ k * S < h ^ 2 ->
  exists m, simplices_of V m /\ List.Forall (simplex_size_below h) m.
Proof.
  intros Hh. induction k as [|k IHk]; intros S V O HS W Hk.
  - exists [V]. split; [constructor|]. constructor; [|constructor]. intros u v Hu Hv. destruct O as [_ F]. rewrite Forall_forall in F. apply sq_close; [exact Hh|rewrite (F u Hu), (F v Hv); reflexivity|]. specialize (W u v Hu Hv). cbn in Hk. lra.
  - remember (cnt S V) as N eqn:EN. revert V O W EN. induction N as [N IHN] using lt_wf_ind. intros V O W EN. destruct (Nat.eq_dec N 0) as [Z|Z].
    + apply (IHk (7 / 8 * S)); [exact O|lra|apply short_all; [exact HS|congruence]|]. cbn [pow] in Hk. lra.
    + destruct (some_long S V) as (u & v & rest & P & L); [congruence|]. pose proof (simplex_ok_perm n _ _ P O) as O'. pose proof (within2_perm S _ _ P W) as W'. destruct (ok_cut n (1 / 2) u v rest O') as [OA OB].
      destruct (half_part n S u v rest HS O' W' L) as [WA CA].
      assert (Luv : length u = length v) by (destruct O' as [_ F]; rewrite Forall_forall in F; rewrite (F u), (F v); [reflexivity|right; now left|now left]).
      assert (PB : Permutation (v :: between (1 / 2) v u :: rest) (between (1 / 2) u v :: v :: rest)) by (rewrite (between_sym (1 / 2) u v Luv); replace (1 - 1 / 2) with (1 / 2) by field; apply perm_swap).
      destruct (half_part n S v u rest HS) as [WB CB]; [apply (simplex_ok_perm n _ _ (perm_swap _ _ _) O')|apply (within2_perm S _ _ (perm_swap _ _ _) W')|rewrite sq_sym; exact L|].
      apply (within2_perm S _ _ PB) in WB. rewrite (cnt_perm S _ _ PB), (cnt_perm S (v :: u :: rest) (u :: v :: rest) (perm_swap _ _ _)) in CB. rewrite (cnt_perm S _ _ P) in EN.
      destruct (IHN _ ltac:(rewrite EN; exact CA) _ OA WA eq_refl) as (m1 & M1 & S1). destruct (IHN _ ltac:(rewrite EN; exact CB) _ OB WB eq_refl) as (m2 & M2 & S2).
      exists (m1 ++ m2). split; [|apply Forall_app; auto]. apply (simplex_reorder _ _ _ P). apply (simplex_cut u v rest (1 / 2)); auto. lra.
Qed.
Lemma bounded2 V : exists S, 0 <= S /\ within2 S V.
Proof.
  assert (G : forall (l : list (point * point)), exists S, 0 <= S /\ forall p, In p l -> sq (fst p) (snd p) <= S).
  { induction l as [|p l (S & HS & H)]; [exists 0; split; [lra|intros ? []]|]. exists (S + sq (fst p) (snd p)). pose proof (sq_ge0 (fst p) (snd p)). split; [lra|]. intros q [<-|Hq]; [lra|]. specialize (H q Hq). lra. }
  destruct (G (list_prod V V)) as (S & HS & H). exists S. split; [exact HS|]. intros u v Hu Hv. apply (H (u, v)). apply in_prod; auto.
Qed.
