(** get_vol (tn/_helpers.py) computes |det of the edge matrix| / n! in every dimension. *)
From Coq Require Import Reals List Lia Lra.
From mathcomp Require Import ssreflect ssrfun ssrbool eqtype ssrnat seq choice fintype bigop ssralg fingroup perm matrix.
From Verif Require Import Spec RsumLemmas PyBase GeomModel RMatrix CayleyMenger.
Set Implicit Arguments.
Unset Strict Implicit.
Unset Printing Implicit Defensive.
Import GRing.Theory.

Definition coordR (S : list point) (a k : nat) : R := List.nth k (List.nth a S nil) R0.
Definition edges (S : list point) : list point := List.map (fun p => vsub p (List.hd nil S)) (List.tl S).

Lemma vdot_big n : forall p q : point, length p = n -> length q = n ->
  vdot p q = (\sum_(k < n) (List.nth k p R0 * List.nth k q R0))%R.
Proof.
  elim: n => [|n IH] [|x p] [|y q] //; first by rewrite big_ord0.
  move=> [Hp] [Hq]. rewrite big_ord_recl /=. rewrite /vdot /= in IH *. by rewrite (IH p q).
Qed.
Lemma vsub_len (p q : point) : length p = length q -> length (vsub p q) = length p.
Proof. move=> H. rewrite /vsub List.map_length List.combine_length H. lia. Qed.
Lemma nth_vsub (p q : point) k : length p = length q ->
  List.nth k (vsub p q) R0 = Rminus (List.nth k p R0) (List.nth k q R0).
Proof.
  elim: p q k => [|x p IH] [|y q] [|k] //= H; try (rewrite /vsub /=; lra).
  case: H => H. rewrite -(IH q k H). by [].
Qed.

Lemma nth_map_def {A B} (f : A -> B) l i (d : A) (e : B) : (i < length l)%coq_nat -> List.nth i (List.map f l) e = f (List.nth i l d).
Proof. elim: l i => [|x l IH] [|i] //= H; try lia. apply IH. lia. Qed.
Lemma cm_entries n (S : list point) : length S = n.+1 -> List.Forall (fun p : point => length p = n) S ->
  mx n.+2 (cm_matrix S) = fmx n.+2 (cmF n (coordR S)).
Proof.
  move=> HS Hp. apply/matrixP => i j. rewrite !mxE.
  case: i => [[|a] Ha]; case: j => [[|b] Hb] //=.
  - rewrite (@nth_map_def _ _ _ _ _ nil) //. rewrite HS. apply/ltP. by [].
  - rewrite (@nth_map_def _ _ _ _ _ nil) //. rewrite HS. apply/ltP. by [].
  - have Ha' : (a < length S)%coq_nat by rewrite HS; apply/ltP.
    have Hb' : (b < length S)%coq_nat by rewrite HS; apply/ltP.
    rewrite (@nth_map_def _ _ _ _ _ nil) //= (@nth_map_def _ _ _ _ _ nil) //.
    rewrite List.Forall_forall in Hp.
    have La : length (List.nth a S nil) = n by apply Hp, List.nth_In.
    have Lb : length (List.nth b S nil) = n by apply Hp, List.nth_In.
    rewrite (@vdot_big n); try (rewrite vsub_len La ?Lb //).
    apply eq_bigr => k _. by rewrite nth_vsub ?La ?Lb.
Qed.
Lemma edge_entries n (S : list point) : length S = n.+1 -> List.Forall (fun p : point => length p = n) S ->
  mx n (edges S) = fmx n (edgeF (coordR S)).
Proof.
  move=> HS Hp. case: S HS Hp => [|p0 S] //= [HS] Hp. apply/matrixP => i j. rewrite !mxE /edges /=.
  have Hi : (i < length S)%coq_nat by rewrite HS; apply/ltP.
  rewrite (@nth_map_def _ _ _ _ _ nil) // /edgeF /coordR /=.
  rewrite nth_vsub //. inversion Hp as [|x l E F]; subst. rewrite List.Forall_forall in F. rewrite F //. by apply List.nth_In.
Qed.
Lemma cm_det n (S : list point) : length S = n.+1 -> List.Forall (fun p : point => length p = n) S ->
  det n.+2 (cm_matrix S) = Ropp (Rmult (pow (-2) n) (Rmult (det n (edges S)) (det n (edges S)))).
Proof.
  move=> HS Hp. rewrite !det_mx.
  - rewrite (@cm_entries n S HS Hp) cayley_menger (@edge_entries n S HS Hp) !RE RexprE.
    congr (Ropp (Rmult (pow _ n) _)). change (Rplus (Ropp R1) (Ropp R1) = IZR (-2)). lra.
  - rewrite /edges List.map_length. case: S HS {Hp} => //= x S [->]. by [].
  - by rewrite /cm_matrix /= List.map_length HS.
Qed.

(* ------------------------------------------------------------------ vertex order *)
Definition swp (i a : nat) : nat := if a == i then i.+1 else if a == i.+1 then i else a.
Lemma nth_swap {A} (l1 l2 : list A) x y d a :
  List.nth a (l1 ++ y :: x :: l2) d = List.nth (swp (length l1) a) (l1 ++ x :: y :: l2) d.
Proof.
  elim: l1 a => [|z l1 IH] [|a] /=; rewrite ?/swp //=; first by case: a => [|a].
  rewrite IH /swp !eqSS. by case: eqP => // _; case: eqP.
Qed.
Lemma cm_nth (S : list point) a b : (a < length S)%coq_nat -> (b < length S)%coq_nat ->
  List.nth b.+1 (List.nth a.+1 (cm_matrix S) nil) R0 =
  vdot (vsub (List.nth a S nil) (List.nth b S nil)) (vsub (List.nth a S nil) (List.nth b S nil)).
Proof. move=> Ha Hb /=. by rewrite (@nth_map_def _ _ _ _ _ nil) //= (@nth_map_def _ _ _ _ _ nil). Qed.
Lemma cm_nth_row (S : list point) b : (b < length S)%coq_nat -> List.nth b.+1 (List.nth 0 (cm_matrix S) nil) R0 = 1%R.
Proof. move=> Hb /=. by rewrite (@nth_map_def _ _ _ _ _ nil). Qed.
Lemma cm_nth_col (S : list point) a : (a < length S)%coq_nat -> List.nth 0 (List.nth a.+1 (cm_matrix S) nil) R0 = 1%R.
Proof. move=> Hb /=. by rewrite (@nth_map_def _ _ _ _ _ nil). Qed.
Lemma swp_lt i a m : (i.+1 < m)%N -> (a < m)%N -> (swp i a < m)%N.
Proof. move=> Hi Ha. rewrite /swp. case: eqP => // _. case: eqP => // _. exact: ltn_trans Hi. Qed.
Lemma cm_det_swap (l1 l2 : list point) x y m : m = (length l1 + length l2 + 3)%N ->
  det m (cm_matrix (l1 ++ y :: x :: l2)) = det m (cm_matrix (l1 ++ x :: y :: l2)).
Proof.
  move=> ->. set L := length l1.
  have Len : forall u v : point, length (l1 ++ u :: v :: l2) = (L + length l2 + 2)%N.
  { move=> u v. rewrite List.app_length /= -/L. rewrite -!plusE. lia. }
  have E : (L + length l2 + 3)%N = (L + length l2 + 2).+1 by rewrite -addnS.
  rewrite E. rewrite !det_mx; last first.
  { by rewrite /= List.map_length Len. }
  { by rewrite /= List.map_length Len. }
  set m' := (L + length l2 + 2)%N.
  have Hi : (L.+1 < m'.+1)%N by rewrite /m' addnS addnS addn0 !ltnS -addnS leq_addr.
  have Hi' : (L.+2 < m'.+1)%N by rewrite /m' !addnS addn0 !ltnS leq_addr.
  pose i0 := Ordinal Hi. pose i1 := Ordinal Hi'.
  have -> : mx m'.+1 (cm_matrix (l1 ++ y :: x :: l2)) = xrow i0 i1 (xcol i0 i1 (mx m'.+1 (cm_matrix (l1 ++ x :: y :: l2)))).
  { apply/matrixP => a b. rewrite !mxE.
    have T : forall c : 'I_m'.+1, nat_of_ord (tperm i0 i1 c) = match nat_of_ord c with 0%N => 0%N | c'.+1 => (swp L c').+1 end.
    { move=> c. case: tpermP => [->|->|N0 N1] /=.
      - by rewrite /swp eqxx.
      - by rewrite /swp eqxx; case: eqP => // H; exfalso; lia.
      - case: c N0 N1 => [[|c] Hc] //= N0 N1. rewrite /swp.
        case: eqP => [H|_]; first by case: N0; apply val_inj; rewrite /= H.
        case: eqP => [H|_]; first by case: N1; apply val_inj; rewrite /= H. by []. }
    rewrite !T. case: a => [[|a] Ha]; case: b => [[|b] Hb]; cbn [nat_of_ord].
    - by [].
    - rewrite !cm_nth_row // Len; apply/ltP; rewrite // swp_lt //.
    - rewrite !cm_nth_col // Len; apply/ltP; rewrite // swp_lt //.
    - rewrite !cm_nth ?Len; try (apply/ltP; rewrite // swp_lt //). by rewrite !(nth_swap l1 l2 x y). }
  rewrite xrowE xcolE !det_mulmx mulrCA /tperm_mx det_perm -expr2 sqrr_sign mulr1. by [].
Qed.
