(** The Cayley-Menger determinant in every dimension: det C = -(-2)^n det(edges)^2. *)
From mathcomp Require Import ssreflect ssrfun ssrbool eqtype ssrnat seq choice fintype bigop ssralg fingroup perm matrix.
Set Implicit Arguments.
Unset Strict Implicit.
Unset Printing Implicit Defensive.
Import GRing.Theory.
Local Open Scope ring_scope.

Section CM.
Context (K : comRingType) (n : nat) (p : nat -> nat -> K).
Let sq a := \sum_(k < n) p a k * p a k.
Definition fmx (m : nat) (F : nat -> nat -> K) : 'M[K]_m := \matrix_(i, j) F i j.
Definition cmF (i j : nat) : K :=
  match i, j with
  | 0%N, 0%N => 0
  | 0%N, _ => 1
  | _, 0%N => 1
  | S a, S b => \sum_(k < n) (p a k - p b k) * (p a k - p b k)
  end.
Let aF (i j : nat) : K :=
  match i with
  | 0%N => if j == 1%N then 1 else 0
  | S a => match j with 0%N => 1 | 1%N => sq a | S (S k) => p a k end
  end.
Let bF (i j : nat) : K :=
  match i with
  | 0%N => if j == 0%N then 1 else 0
  | S a => match j with 0%N => sq a | 1%N => 1 | S (S k) => - (p a k + p a k) end
  end.
Let dF (a j : nat) : K := match j with 0%N => 1 | S k => p a k end.
Let qF (a j : nat) : K :=
  match a, j with
  | 0%N, 0%N => 1
  | 0%N, S k => p 0%N k
  | S _, 0%N => 0
  | S a, S k => p a.+1 k - p 0%N k
  end.
Definition edgeF (a k : nat) : K := p a.+1 k - p 0%N k.

Lemma cm_product : fmx n.+2 cmF = fmx n.+2 aF *m (fmx n.+2 bF)^T.
Proof.
  apply/matrixP => i j. rewrite !mxE !big_ord_recl !mxE /=.
  rewrite (eq_bigr (fun k : 'I_n => aF i k.+2 * bF j k.+2)); last first.
  { move=> k _. by rewrite !mxE. }
  case: (nat_of_ord i) => [|a]; case: (nat_of_ord j) => [|b] /=.
  - rewrite big1; last by move=> k _; rewrite mul0r. by rewrite mul0r mulr0 !add0r.
  - rewrite big1; last by move=> k _; rewrite mul0r. by rewrite mul0r mulr1 !addr0 add0r.
  - rewrite big1; last by move=> k _; rewrite mulr0. by rewrite mulr1 mulr0 !addr0.
  - rewrite mul1r mulr1 /sq addrA -!big_split /=. 
    apply eq_bigr => k _. rewrite mulrBl !mulrBr mulrN mulrDr [p b k * p a k]mulrC.
    rewrite !opprD !opprK !addrA. 
    move: (p a k * p a k) (p a k * p b k) (p b k * p b k) => x y z.
    by rewrite [z + x]addrC -!addrA; congr (_ + _); rewrite addrCA; congr (_ + _); rewrite addrC.
Qed.
Lemma minor_fmx m F (i j : 'I_m.+1) : row' i (col' j (fmx m.+1 F)) = fmx m (fun a b => F (bump i a) (bump j b)).
Proof. by apply/matrixP => a b; rewrite !mxE. Qed.
Lemma eq_fmx m F G : (forall i j, (i < m)%N -> (j < m)%N -> F i j = G i j) -> fmx m F = fmx m G.
Proof. move=> H. apply/matrixP => i j. rewrite !mxE. exact: H. Qed.

Lemma det_aF : \det (fmx n.+2 aF) = - \det (fmx n.+1 dF).
Proof.
  rewrite (expand_det_row _ ord0) !big_ord_recl !mxE /= mul0r add0r big1; last first.
  { move=> k _. by rewrite !mxE /= mul0r. }
  rewrite addr0 mul1r /cofactor minor_fmx /= expr1 mulN1r. congr (- \det _).
  apply eq_fmx => a b _ _. rewrite /bump /=. by case: b.
Qed.
Lemma det_bF : \det (fmx n.+2 bF) = (- 1 - 1) ^+ n * \det (fmx n.+1 dF).
Proof.
  rewrite (expand_det_row _ ord0) !big_ord_recl !mxE /= mul0r add0r big1; last first.
  { move=> k _. by rewrite !mxE /= mul0r. }
  rewrite addr0 mul1r /cofactor minor_fmx /= expr0 mul1r.
  pose d : 'rV[K]_n.+1 := \row_j (if j == ord0 then 1 else - 1 - 1).
  have -> : fmx n.+1 (fun a b => bF (bump 0 a) (bump 0 b)) = fmx n.+1 dF *m diag_mx d.
  { apply/matrixP => a b. rewrite mul_mx_diag !mxE /bump /=. case: b => [[|b] Hb] /=; first by rewrite mulr1.
    by rewrite mulrDr mulrN1 opprD. }
  rewrite det_mulmx det_diag mulrC. congr (_ * _).
  rewrite big_ord_recl mxE /= mul1r (eq_bigr (fun=> - 1 - 1)); last by move=> k _; rewrite mxE.
  by rewrite prodr_const card_ord.
Qed.
Lemma det_dF : \det (fmx n.+1 dF) = \det (fmx n edgeF).
Proof.
  pose L : 'M[K]_n.+1 := \matrix_(i, j) (if (j == ord0) || (i == j) then 1 else 0).
  have -> : fmx n.+1 dF = L *m fmx n.+1 qF.
  { apply/matrixP => a b. rewrite !mxE big_ord_recl !mxE /= mul1r.
    case: (unliftP ord0 a) => [a' ->|->] /=.
    - rewrite (bigD1 a') //= big1; last first.
      { move=> k /negbTE Hk. rewrite !mxE /=. case: eqP => [/lift_inj E|_]; last by rewrite mul0r. by rewrite E eqxx in Hk. }
      rewrite !mxE eqxx orbT mul1r addr0 /= /bump /=. case: (nat_of_ord b) => [|k] /=; first by rewrite addr0.
      by rewrite addrCA subrr addr0.
    - rewrite big1; last first.
      { move=> k _. by rewrite !mxE /= mul0r. }
      rewrite addr0. by case: (nat_of_ord b). }
  rewrite det_mulmx det_trig; last first.
  { apply/is_trig_mxP => i j Hij. rewrite mxE.
    have -> : (i == j) = false by apply/negbTE/eqP => E; move: Hij; rewrite E ltnn.
    by have -> : (j == ord0) = false by apply/negbTE/eqP => E; move: Hij; rewrite E. }
  rewrite big1 ?mul1r; last by move=> i _; rewrite mxE eqxx orbT.
  rewrite (expand_det_col _ ord0) big_ord_recl !mxE /= mul1r big1; last first.
  { move=> k _. by rewrite !mxE /= mul0r. }
  rewrite addr0 /cofactor minor_fmx /= expr0 mul1r. by congr (\det _); apply eq_fmx.
Qed.
Theorem cayley_menger : \det (fmx n.+2 cmF) = - ((- 1 - 1) ^+ n * (\det (fmx n edgeF) * \det (fmx n edgeF))).
Proof. rewrite cm_product det_mulmx det_tr det_aF det_bF det_dF mulNr. congr (- _). by rewrite mulrCA. Qed.
End CM.
