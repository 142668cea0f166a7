(** The reals as a mathcomp commutative ring, and the list determinant of GeomModel as mathcomp's \det. *)
From Coq Require Import Reals List Lia Lra FunctionalExtensionality ClassicalEpsilon.
From mathcomp Require Import ssreflect ssrfun ssrbool eqtype ssrnat seq choice fintype bigop ssralg fingroup perm matrix.
From Verif Require Import Spec GeomModel.
Set Implicit Arguments.
Unset Strict Implicit.
Unset Printing Implicit Defensive.
Import GRing.Theory.

Definition Reqb (x y : R) : bool := if Req_EM_T x y then true else false.
Lemma ReqP : Equality.axiom Reqb.
Proof. move=> x y. rewrite /Reqb. by case: Req_EM_T => H; constructor. Qed.
Canonical R_eqMixin := EqMixin ReqP.
Canonical R_eqType := Eval hnf in EqType R R_eqMixin.

Definition Rfind (P : pred R) (n : nat) : option R :=
  match excluded_middle_informative (exists x, P x) with
  | left H => Some (proj1_sig (constructive_indefinite_description _ H))
  | right _ => None
  end.
Lemma RfindP (P : pred R) n x : Rfind P n = Some x -> P x.
Proof.
  rewrite /Rfind. case: excluded_middle_informative => // H [<-].
  by case: constructive_indefinite_description.
Qed.
Lemma Rfind_complete (P : pred R) : (exists x, P x) -> exists n, Rfind P n.
Proof. move=> H. exists 0%N. rewrite /Rfind. by case: excluded_middle_informative. Qed.
Lemma Rfind_ext (P Q : pred R) : P =1 Q -> Rfind P =1 Rfind Q.
Proof. move=> H n. by have -> : P = Q by apply functional_extensionality. Qed.
Definition R_choiceMixin := Choice.Mixin RfindP Rfind_complete Rfind_ext.
Canonical R_choiceType := Eval hnf in ChoiceType R R_choiceMixin.

Lemma RaddA : associative Rplus. Proof. move=> *; ring. Qed.
Lemma RaddC : commutative Rplus. Proof. move=> *; ring. Qed.
Lemma Radd0 : left_id R0 Rplus. Proof. move=> *; ring. Qed.
Lemma RaddN : left_inverse R0 Ropp Rplus. Proof. move=> *; ring. Qed.
Definition R_zmodMixin := ZmodMixin RaddA RaddC Radd0 RaddN.
Canonical R_zmodType := Eval hnf in ZmodType R R_zmodMixin.
Lemma RmulA : associative Rmult. Proof. move=> *; ring. Qed.
Lemma RmulC : commutative Rmult. Proof. move=> *; ring. Qed.
Lemma Rmul1 : left_id R1 Rmult. Proof. move=> *; ring. Qed.
Lemma RmulD : left_distributive Rmult Rplus. Proof. move=> *; ring. Qed.
Lemma R10 : R1 != R0 :> R_zmodType. Proof. apply/eqP. exact: R1_neq_R0. Qed.
Definition R_comRingMixin := @ComRingMixin R_zmodType R1 Rmult RmulA RmulC Rmul1 RmulD R10.
Canonical R_ringType := Eval hnf in RingType R R_comRingMixin.
Canonical R_comRingType := Eval hnf in ComRingType R RmulC.

Lemma RE : (forall x y : R, (x + y)%R = Rplus x y) * (forall x : R, (- x)%R = Ropp x) *
  (forall x y : R, (x * y)%R = Rmult x y) * ((0 : R)%R = R0) * ((1 : R)%R = R1).
Proof. by []. Qed.
Lemma RexprE (x : R) n : (x ^+ n)%R = pow x n.
Proof. elim: n => [|n IH]; first by []. by rewrite exprS IH. Qed.

(** Sums of lists as big sums. *)
Lemma Rsum_big (F : nat -> R) a n : Rsum (List.map F (List.seq a n)) = (\sum_(i < n) F (a + i)%N)%R.
Proof.
  elim: n a => [|n IH] a; first by rewrite big_ord0.
  rewrite big_ord_recl /= addn0 IH. congr (Rplus _ _). apply eq_bigr => i _. by rewrite /bump /= add1n addSnnS.
Qed.

(** The n by n matrix given by its rows. *)
Definition mx (n : nat) (M : list (list R)) : 'M[R]_n := (\matrix_(i, j) List.nth j (List.nth i M nil) 0%R)%R.

Lemma nth_drop_nth (r : list R) j k : List.nth k (drop_nth j r) 0%R = List.nth (bump j k) r 0%R.
Proof.
  rewrite /drop_nth. elim: r j k => [|x r IH] j k.
  - case: j; case: k => //=; by move=> *; case: (bump _ _).
  - case: j => [|j] /=; first by [].
    case: k => [|k] /=; first by rewrite /bump /=.
    rewrite IH /bump ltnS. by rewrite addnS.
Qed.
Lemma nth_map_drop (M : list (list R)) j i : List.nth i (List.map (drop_nth j) M) nil = drop_nth j (List.nth i M nil).
Proof.
  have E : drop_nth j (@nil R) = nil by rewrite /drop_nth; case: j.
  elim: M i => [|r M IH] [|i] //=.
Qed.
Theorem det_mx n M : length M = n -> det n M = (\det (mx n M))%R.
Proof.
  elim: n M => [|n IH] M HM; first by rewrite det_mx00.
  case: M HM => [|r rows] // [HM].
  rewrite (expand_det_row _ ord0) [det _ _]/=.
  have -> : Rplus (Rmult (Rmult 1 (List.nth 0 r 0%R)) (det n (List.map (drop_nth 0) rows)))
     (Rsum (List.map (fun j => Rmult (Rmult (pow (-1) j) (List.nth j r 0%R)) (det n (List.map (drop_nth j) rows))) (List.seq 1 n)))
     = Rsum (List.map (fun j => Rmult (Rmult (pow (-1) j) (List.nth j r 0%R)) (det n (List.map (drop_nth j) rows))) (List.seq 0 n.+1)) by [].
  rewrite Rsum_big. apply eq_bigr => j _. rewrite add0n IH; last by rewrite List.map_length.
  rewrite /cofactor !mxE /= add0n RexprE !RE.
  have -> : (mx n (List.map (drop_nth j) rows)) = row' ord0 (col' j (mx n.+1 (r :: rows))).
  { apply/matrixP => a b. by rewrite !mxE /= nth_map_drop nth_drop_nth. }
  move: (determinant _) => D. have -> : Ropp R1 = IZR (-1) by []. ring.
Qed.
