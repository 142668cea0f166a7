(** Golub-Welsch: eigenvalues and eigenvectors of the Jacobi matrix give the Gauss rule. *)
From Coq Require Import Reals List Arith Lia Lra Sorted.
From Verif Require Import Spec Spec1 RsumLemmas GwSpec.
Import ListNotations.
Set Bullet Behavior "Strict Subproofs".
Open Scope R_scope.

(* ------------------------------------------------------------------ sums *)
Lemma sumn_ext n f g : (forall i, (i < n)%nat -> f i = g i) -> sumn n f = sumn n g.
Proof. intros H. apply Rsum_map_ext. intros i Hi. apply in_seq in Hi. apply H. lia. Qed.
Lemma sumn_add n f g : sumn n (fun i => f i + g i) = sumn n f + sumn n g.
Proof. apply Rsum_map_plus. Qed.
Lemma sumn_scal n c f : sumn n (fun i => c * f i) = c * sumn n f.
Proof. apply Rsum_map_scal. Qed.
Lemma sumn_zero n f : (forall i, (i < n)%nat -> f i = 0) -> sumn n f = 0.
Proof. intros H. apply Rsum_map_zero. intros i Hi. apply in_seq in Hi. apply H. lia. Qed.
Lemma sumn_S n f : sumn (S n) f = sumn n f + f n.
Proof. unfold sumn. rewrite seq_S, map_app, Rsum_app. cbn. ring. Qed.
Lemma sumn_swap n m f : sumn n (fun i => sumn m (fun j => f i j)) = sumn m (fun j => sumn n (fun i => f i j)).
Proof. unfold sumn. apply (Rsum_swap f). Qed.
Lemma sumn_pick n i f : (i < n)%nat -> sumn n (fun j => if (i =? j)%nat then f j else 0) = f i.
Proof.
  induction n as [|n IH]; intros H; [lia|]. rewrite sumn_S. destruct (Nat.eq_dec i n) as [->|N].
  - rewrite Nat.eqb_refl. rewrite sumn_zero; [ring|]. intros j Hj. destruct (Nat.eqb_spec n j); [lia|auto].
  - rewrite IH by lia. destruct (Nat.eqb_spec i n); [lia|]. ring.
Qed.
Lemma sumn_pick_out n i f : (n <= i)%nat -> sumn n (fun j => if (i =? j)%nat then f j else 0) = 0.
Proof. intros H. apply sumn_zero. intros j Hj. destruct (Nat.eqb_spec i j); [lia|auto]. Qed.
Lemma sumn_nonneg n f : (forall i, (i < n)%nat -> 0 <= f i) -> 0 <= sumn n f.
Proof. intros H. apply Rsum_nonneg. intros x Hx. apply in_map_iff in Hx. destruct Hx as [i [<- Hi]]. apply in_seq in Hi. apply H. lia. Qed.

Lemma tri_row d e v n i : (i < n)%nat ->
  sumn n (fun j => tri d e i j * v j) =
  (match i with O => 0 | S i' => nth i' e 0 * v i' end) + nth i d 0 * v i + (if (S i <? n)%nat then nth i e 0 * v (S i) else 0).
Proof.
  intros H.
  rewrite (sumn_ext n _ (fun j => (match i with O => 0 | S i' => if (i' =? j)%nat then nth i' e 0 * v j else 0 end) +
    ((if (i =? j)%nat then nth i d 0 * v j else 0) + (if (S i =? j)%nat then nth i e 0 * v j else 0)))).
  - rewrite !sumn_add. rewrite (sumn_pick n i (fun j => nth i d 0 * v j)) by auto. rewrite <- Rplus_assoc. f_equal; [f_equal|].
    + destruct i as [|i']; [apply sumn_zero; auto|]. rewrite (sumn_pick n i' (fun j => nth i' e 0 * v j)) by lia. auto.
    + destruct (Nat.ltb_spec (S i) n) as [L|L]; [rewrite (sumn_pick n (S i) (fun j => nth i e 0 * v j)); auto|apply (sumn_pick_out n (S i) (fun j => nth i e 0 * v j)); lia].
  - intros j Hj. unfold tri. destruct (Nat.eqb_spec i j) as [->|N].
    + destruct j as [|j']; [cbn; ring|]. destruct (Nat.eqb_spec j' (S j')); [lia|]. destruct (Nat.eqb_spec (S (S j')) (S j')); [lia|]. ring.
    + destruct i as [|i'].
      * destruct (Nat.eqb_spec 0 (S j)); [lia|]. destruct (Nat.eqb_spec 1 j) as [<-|]; cbn; ring.
      * destruct (Nat.eqb_spec (S i') (S j)) as [E|E].
        -- injection E as ->. rewrite Nat.eqb_refl. destruct (Nat.eqb_spec (S (S j)) j); [lia|]. ring.
        -- destruct (Nat.eqb_spec i' j); [lia|]. destruct (Nat.eqb_spec (S (S i')) j) as [<-|]; ring.
Qed.

(* ------------------------------------------------------------------ the recurrence *)
(** The recurrence coefficients of the matrix. *)
Definition arec (d : list R) (i : nat) : R := nth i d 0.
Definition brec (e : list R) (i : nat) : R := (nth (i - 1) e 0) ^ 2.
(** e_0 ... e_{j-1} *)
Fixpoint eprod (e : list R) (j : nat) : R := match j with O => 1 | S j' => eprod e j' * nth j' e 0 end.
Lemma eprod_neq e j : (forall i, (i < j)%nat -> nth i e 0 <> 0) -> eprod e j <> 0.
Proof. induction j as [|j IH]; intros H; cbn; [lra|]. apply Rmult_integral_contrapositive. split; [apply IH; intros; apply H; lia|apply H; lia]. Qed.
(** A vector that satisfies the first n-1 eigenvector equations. *)
Lemma rows_monic d e v x n : (forall i, (S i < n)%nat -> nth i e 0 <> 0) ->
  (forall i, (S i < n)%nat -> sumn n (fun j => tri d e i j * v j) = x * v i) ->
  forall j, (j < n)%nat -> v j * eprod e j = v 0%nat * monic (arec d) (brec e) j x.
Proof.
  intros He H. assert (G : forall j, ((j < n)%nat -> v j * eprod e j = v 0%nat * monic (arec d) (brec e) j x) /\
                                     ((S j < n)%nat -> v (S j) * eprod e (S j) = v 0%nat * monic (arec d) (brec e) (S j) x)).
  { induction j as [|j [IH1 IH2]].
    - split; intros L; [cbn; ring|]. assert (E := H 0%nat L). rewrite tri_row in E by lia. destruct (Nat.ltb_spec 1 n); [|lia].
      cbn [monic eprod]. unfold arec. lra.
    - split; [exact IH2|]. intros L. assert (E := H (S j) L). rewrite tri_row in E by lia. destruct (Nat.ltb_spec (S (S j)) n); [|lia].
      change (monic (arec d) (brec e) (S (S j)) x) with ((x - arec d (S j)) * monic (arec d) (brec e) (S j) x - brec e (S j) * monic (arec d) (brec e) j x).
      assert (E1 := IH1 ltac:(lia)). assert (E2 := IH2 ltac:(lia)). cbn [eprod] in *. unfold arec in *. unfold brec at 2. replace (S j - 1)%nat with j by lia.
      replace (v 0%nat * ((x - nth (S j) d 0) * monic (fun i => nth i d 0) (brec e) (S j) x - nth j e 0 ^ 2 * monic (fun i => nth i d 0) (brec e) j x))
        with ((x - nth (S j) d 0) * (v 0%nat * monic (fun i => nth i d 0) (brec e) (S j) x) - nth j e 0 ^ 2 * (v 0%nat * monic (fun i => nth i d 0) (brec e) j x)) by ring.
      change (fun i => nth i d 0) with (arec d) in *. rewrite <- E1, <- E2.
      assert (F : nth (S j) e 0 * v (S (S j)) = x * v (S j) - nth (S j) d 0 * v (S j) - nth j e 0 * v j) by lra.
      replace (v (S (S j)) * (eprod e j * nth j e 0 * nth (S j) e 0)) with ((nth (S j) e 0 * v (S (S j))) * (eprod e j * nth j e 0)) by ring. rewrite F. ring. }
  intros j L. exact (proj1 (G j) L).
Qed.
(** ... and the last equation, with a right-hand side. *)
Lemma last_row_monic d e v x n r : (forall i, (S i < S n)%nat -> nth i e 0 <> 0) ->
  (forall i, (S i < S n)%nat -> sumn (S n) (fun j => tri d e i j * v j) = x * v i) ->
  sumn (S n) (fun j => tri d e n j * v j) = x * v n + r -> v 0%nat * monic (arec d) (brec e) (S n) x = - r * eprod e n.
Proof.
  intros He H HL. rewrite tri_row in HL by lia. destruct (Nat.ltb_spec (S n) (S n)); [lia|]. assert (M := rows_monic d e v x (S n) He H).
  assert (Mn := M n ltac:(lia)). destruct n as [|n].
  - cbn [monic eprod] in *. unfold arec. lra.
  - assert (Mp := M n ltac:(lia)). change (monic (arec d) (brec e) (S (S n)) x) with ((x - arec d (S n)) * monic (arec d) (brec e) (S n) x - brec e (S n) * monic (arec d) (brec e) n x).
    replace (v 0%nat * ((x - arec d (S n)) * monic (arec d) (brec e) (S n) x - brec e (S n) * monic (arec d) (brec e) n x))
      with ((x - arec d (S n)) * (v 0%nat * monic (arec d) (brec e) (S n) x) - brec e (S n) * (v 0%nat * monic (arec d) (brec e) n x)) by ring.
    rewrite <- Mn, <- Mp. unfold arec, brec. replace (S n - 1)%nat with n by lia. cbn [eprod].
    replace r with (nth n e 0 * v n + nth (S n) d 0 * v (S n) - x * v (S n)) by lra. ring.
Qed.
(** Conversely: the vector of the polynomial values satisfies the equations. *)
Lemma monic_rows d e x n : (forall i, (S i < n)%nat -> nth i e 0 <> 0) ->
  let v := fun j => monic (arec d) (brec e) j x / eprod e j in
  forall i, (S i < n)%nat -> sumn n (fun j => tri d e i j * v j) = x * v i.
Proof.
  intros He v i L. rewrite tri_row by lia. destruct (Nat.ltb_spec (S i) n); [|lia]. unfold v.
  assert (Hp : forall j, (j <= i)%nat -> eprod e j <> 0) by (intros j Hj; apply eprod_neq; intros; apply He; lia). destruct i as [|i].
  - cbn [monic eprod]. unfold arec. field. apply He. lia.
  - change (monic (arec d) (brec e) (S (S i)) x) with ((x - arec d (S i)) * monic (arec d) (brec e) (S i) x - brec e (S i) * monic (arec d) (brec e) i x).
    set (P1 := monic (arec d) (brec e) (S i) x). set (P0 := monic (arec d) (brec e) i x). unfold arec, brec. replace (S i - 1)%nat with i by lia. cbn [eprod].
    assert (nth i e 0 <> 0) by (apply He; lia). assert (nth (S i) e 0 <> 0) by (apply He; lia). assert (eprod e i <> 0) by (apply Hp; lia).
    field. auto.
Qed.
Lemma monic_last_row d e x n : (forall i, (S i < S n)%nat -> nth i e 0 <> 0) ->
  let v := fun j => monic (arec d) (brec e) j x / eprod e j in
  sumn (S n) (fun j => tri d e n j * v j) = x * v n - monic (arec d) (brec e) (S n) x / eprod e n.
Proof.
  intros He v. rewrite tri_row by lia. destruct (Nat.ltb_spec (S n) (S n)); [lia|]. unfold v. destruct n as [|n].
  - cbn [monic eprod]. unfold arec. field.
  - change (monic (arec d) (brec e) (S (S n)) x) with ((x - arec d (S n)) * monic (arec d) (brec e) (S n) x - brec e (S n) * monic (arec d) (brec e) n x).
    set (P1 := monic (arec d) (brec e) (S n) x). set (P0 := monic (arec d) (brec e) n x). unfold arec, brec. replace (S n - 1)%nat with n by lia. cbn [eprod].
    assert (nth n e 0 <> 0) by (apply He; lia). assert (eprod e n <> 0) by (apply eprod_neq; intros; apply He; lia). field. auto.
Qed.
Lemma monic_ext a b a' b' k x : (forall i, (i < k)%nat -> a i = a' i) -> (forall i, (0 < i < k)%nat -> b i = b' i) -> monic a b k x = monic a' b' k x.
Proof.
  assert (G : forall k, (forall i, (i < S k)%nat -> a i = a' i) -> (forall i, (0 < i < S k)%nat -> b i = b' i) -> monic a b k x = monic a' b' k x /\ monic a b (S k) x = monic a' b' (S k) x).
  { induction k0 as [|k0 IH]; intros Ha Hb.
    - cbn. rewrite Ha by lia. auto.
    - destruct IH as [E1 E2]; [intros; apply Ha; lia|intros; apply Hb; lia|]. split; auto.
      change (monic a b (S (S k0)) x) with ((x - a (S k0)) * monic a b (S k0) x - b (S k0) * monic a b k0 x).
      change (monic a' b' (S (S k0)) x) with ((x - a' (S k0)) * monic a' b' (S k0) x - b' (S k0) * monic a' b' k0 x). rewrite E1, E2, (Ha (S k0)), (Hb (S k0)) by lia. auto. }
  destruct k as [|k]; [auto|]. intros Ha Hb. exact (proj2 (G k Ha Hb)).
Qed.
Lemma lmonic_ext a b mu a' b' k m : (forall i, (i < k)%nat -> a i = a' i) -> (forall i, (0 < i < k)%nat -> b i = b' i) -> lmonic a b mu k m = lmonic a' b' mu k m.
Proof.
  assert (G : forall k, (forall i, (i < S k)%nat -> a i = a' i) -> (forall i, (0 < i < S k)%nat -> b i = b' i) -> forall m, lmonic a b mu k m = lmonic a' b' mu k m /\ lmonic a b mu (S k) m = lmonic a' b' mu (S k) m).
  { induction k0 as [|k0 IH]; intros Ha Hb m0.
    - cbn. rewrite Ha by lia. auto.
    - assert (IH' := IH ltac:(intros; apply Ha; lia) ltac:(intros; apply Hb; lia)). split; [apply (IH' m0)|].
      change (lmonic a b mu (S (S k0)) m0) with (lmonic a b mu (S k0) (S m0) - a (S k0) * lmonic a b mu (S k0) m0 - b (S k0) * lmonic a b mu k0 m0).
      change (lmonic a' b' mu (S (S k0)) m0) with (lmonic a' b' mu (S k0) (S m0) - a' (S k0) * lmonic a' b' mu (S k0) m0 - b' (S k0) * lmonic a' b' mu k0 m0).
      rewrite (proj2 (IH' (S m0))), (proj2 (IH' m0)), (proj1 (IH' m0)), (Ha (S k0)), (Hb (S k0)) by lia. auto. }
  destruct k as [|k]; [auto|]. intros Ha Hb. exact (proj2 (G k Ha Hb m)).
Qed.
Lemma lmonic_SS a b mu k m : lmonic a b mu (S (S k)) m = lmonic a b mu (S k) (S m) - a (S k) * lmonic a b mu (S k) m - b (S k) * lmonic a b mu k m.
Proof. reflexivity. Qed.
Lemma monic_SS a b k x : monic a b (S (S k)) x = (x - a (S k)) * monic a b (S k) x - b (S k) * monic a b k x.
Proof. reflexivity. Qed.

(** [lmonic] is what it says: for a quadrature rule it is the rule applied to x^m p_k. *)
Lemma apply1_add q f g : apply1 q (fun x => f x + g x) = apply1 q f + apply1 q g.
Proof. unfold apply1. rewrite <- Rsum_map_plus. apply Rsum_map_ext. intros. ring. Qed.
Lemma apply1_lin q u v w f g h : apply1 q (fun x => u * f x + v * g x + w * h x) = u * apply1 q f + v * apply1 q g + w * apply1 q h.
Proof. unfold apply1. rewrite <- !Rsum_map_scal, <- !Rsum_map_plus. apply Rsum_map_ext. intros. ring. Qed.
Lemma apply1_fext q f g : (forall x, f x = g x) -> apply1 q f = apply1 q g.
Proof. intros H. unfold apply1. apply Rsum_map_ext. intros. rewrite H. auto. Qed.
Lemma lmonic_apply1 a b q k : forall m, lmonic a b (fun j => apply1 q (fun x => x ^ j)) k m = apply1 q (fun x => x ^ m * monic a b k x).
Proof.
  assert (G : forall k, (forall m, lmonic a b (fun j => apply1 q (fun x => x ^ j)) k m = apply1 q (fun x => x ^ m * monic a b k x)) /\
     (forall m, lmonic a b (fun j => apply1 q (fun x => x ^ j)) (S k) m = apply1 q (fun x => x ^ m * monic a b (S k) x))).
  { induction k0 as [|k0 [IH1 IH2]].
    - split; intros m; cbn [lmonic monic]; [apply apply1_fext; intros; ring|].
      rewrite (apply1_fext q (fun x => x ^ m * _) (fun x => 1 * x ^ S m + (- a 0%nat) * x ^ m + 0 * 0)) by (intros; cbn; ring).
      rewrite (apply1_lin q 1 (- a 0%nat) 0 (fun x => x ^ S m) (fun x => x ^ m) (fun _ => 0)). ring.
    - split; [exact IH2|]. intros m. rewrite lmonic_SS, !IH2, IH1.
      rewrite (apply1_fext q (fun x => x ^ m * monic a b (S (S k0)) x) (fun x => 1 * (x ^ S m * monic a b (S k0) x) + (- a (S k0)) * (x ^ m * monic a b (S k0) x) + (- b (S k0)) * (x ^ m * monic a b k0 x))) by (intros; rewrite monic_SS; cbn [pow]; ring).
      rewrite (apply1_lin q 1 (- a (S k0)) (- b (S k0)) (fun x => x ^ S m * monic a b (S k0) x) (fun x => x ^ m * monic a b (S k0) x) (fun x => x ^ m * monic a b k0 x)). ring. }
  intros m. apply (G k).
Qed.

(** L(x^k p_k) = mu_0 b_1 ... b_k *)
Fixpoint bprod (b : nat -> R) (k : nat) : R := match k with O => 1 | S k' => bprod b k' * b k end.
Lemma lmonic_norm a b mu n : orthogonal a b mu n -> forall k, (k < n)%nat -> lmonic a b mu k k = mu 0%nat * bprod b k.
Proof.
  intros H k. induction k as [|k IH]; intros L; [cbn; ring|]. assert (E := H (S (S k)) k ltac:(lia)). rewrite lmonic_SS in E. rewrite (H (S k) k) in E by lia. rewrite IH in E by lia. cbn [bprod]. lra.
Qed.
(** Two functionals with the same values on the x^k p_k and x^(k-1) p_k have the same moments. *)
Lemma lmonic_diff a b mu nu k : forall m, (forall j, (j < m + k)%nat -> mu j = nu j) -> lmonic a b mu k m - lmonic a b nu k m = mu (m + k)%nat - nu (m + k)%nat.
Proof.
  assert (G : forall k, (forall m, (forall j, (j < m + k)%nat -> mu j = nu j) -> lmonic a b mu k m - lmonic a b nu k m = mu (m + k)%nat - nu (m + k)%nat) /\
    (forall m, (forall j, (j < m + S k)%nat -> mu j = nu j) -> lmonic a b mu (S k) m - lmonic a b nu (S k) m = mu (m + S k)%nat - nu (m + S k)%nat)).
  { induction k0 as [|k0 [IH1 IH2]].
    - split; intros m H; cbn [lmonic]; [rewrite Nat.add_0_r; auto|]. rewrite (H m) by lia. replace (m + 1)%nat with (S m) by lia. ring.
    - split; [exact IH2|]. intros m H. rewrite !lmonic_SS.
      assert (E1 := IH2 (S m) ltac:(intros; apply H; lia)). assert (E2 := IH2 m ltac:(intros; apply H; lia)). assert (E3 := IH1 m ltac:(intros; apply H; lia)).
      rewrite (H (m + S k0)%nat) in E2 by lia. rewrite (H (m + k0)%nat) in E3 by lia. replace (S m + S k0)%nat with (m + S (S k0))%nat in E1 by lia.
      replace (lmonic a b mu (S k0) m) with (lmonic a b nu (S k0) m) by lra. replace (lmonic a b mu k0 m) with (lmonic a b nu k0 m) by lra. lra. }
  intros m. apply (G k).
Qed.
Lemma moments_agree a b mu nu D : (forall k, (2 * k <= D)%nat -> lmonic a b mu k k = lmonic a b nu k k) -> (forall k, (2 * k + 1 <= D)%nat -> lmonic a b mu (S k) k = lmonic a b nu (S k) k) ->
  forall j, (j <= D)%nat -> mu j = nu j.
Proof.
  intros He Ho j. induction j as [j IH] using lt_wf_ind. intros L.
  destruct (Nat.Even_or_Odd j) as [[k ->]|[k ->]].
  - assert (E := lmonic_diff a b mu nu k k ltac:(intros i Hi; apply IH; lia)). rewrite He in E by lia. replace (2 * k)%nat with (k + k)%nat by lia. lra.
  - assert (E := lmonic_diff a b mu nu (S k) k ltac:(intros i Hi; apply IH; lia)). rewrite Ho in E by lia. replace (2 * k + 1)%nat with (k + S k)%nat by lia. lra.
Qed.

(* ------------------------------------------------------------------ the decomposition *)
(** The rule that scheme_from_rc builds from a decomposition. *)
Definition gw_rule (int_1 : R) (x : list R) (V : list (list R)) : rule1 := List.combine (map (fun v => int_1 * v ^ 2) (nth 0 V [])) x.
Lemma combine_nth_seq {A B} (l : list A) : forall (m : list B) a b, length l = length m -> List.combine l m = map (fun k => (nth k l a, nth k m b)) (seq 0 (length l)).
Proof. induction l as [|x l IH]; intros [|y m] a b H; try discriminate; auto. cbn [List.combine length seq map nth]. f_equal. rewrite <- seq_shift, map_map. apply IH. cbn in H. lia. Qed.
Section Decomposition.
Context (d e x : list R) (V : list (list R)) (n : nat).
Context (Hn : length d = S n) (HD : eigen_decomposition d e x V) (He : forall i, (i < n)%nat -> nth i e 0 <> 0).
Lemma gw_rule_sum int_1 f : apply1 (gw_rule int_1 x V) f = int_1 * sumn (S n) (fun k => entry V 0 k ^ 2 * f (nth k x 0)).
Proof.
  destruct HD as [Hx [HV [HF _]]]. rewrite Hn in *. unfold gw_rule, apply1.
  assert (L0 : length (nth 0 V []) = S n) by (rewrite List.Forall_forall in HF; apply HF; apply nth_In; lia).
  rewrite (combine_nth_seq _ x 0 0) by (rewrite map_length; lia). rewrite map_length, L0, map_map. rewrite <- sumn_scal. apply Rsum_map_ext. intros k Hk. apply in_seq in Hk. cbn [fst snd].
  rewrite (nth_indep _ 0 ((fun v => int_1 * v ^ 2) 0)) by (rewrite map_length; lia). rewrite (map_nth (fun v => int_1 * v ^ 2)). unfold entry. ring.
Qed.
Lemma gw_col k j : (k < S n)%nat -> (j < S n)%nat -> entry V j k * eprod e j = entry V 0 k * monic (arec d) (brec e) j (nth k x 0).
Proof.
  intros Lk Lj. destruct HD as [Hx [HV [HF [_ [HE _]]]]]. rewrite Hn in *. apply (rows_monic d e (fun j => entry V j k) (nth k x 0) (S n)); auto; intros i Hi; [apply He; lia|apply HE; lia].
Qed.
Lemma gw_first k : (k < S n)%nat -> entry V 0 k <> 0.
Proof.
  intros Lk E. destruct HD as [_ [_ [_ [_ [_ [HC _]]]]]]. rewrite Hn in HC. assert (N := HC k k Lk Lk). unfold delta in N. rewrite Nat.eqb_refl in N. rewrite sumn_zero in N; [lra|].
  intros j Lj. assert (G := gw_col k j Lk Lj). rewrite E, Rmult_0_l in G. apply Rmult_integral in G. destruct G as [->|G]; [ring|]. exfalso. revert G. apply eprod_neq. intros; apply He; lia.
Qed.
Lemma gw_root k : (k < S n)%nat -> monic (arec d) (brec e) (S n) (nth k x 0) = 0.
Proof.
  intros Lk. destruct HD as [_ [_ [_ [_ [HE _]]]]]. rewrite Hn in HE.
  assert (G := last_row_monic d e (fun j => entry V j k) (nth k x 0) n 0 ltac:(intros i Hi; apply He; lia) ltac:(intros i Hi; apply HE; lia) ltac:(cbn beta; rewrite HE by lia; ring)).
  rewrite Ropp_0, Rmult_0_l in G. apply Rmult_integral in G. destruct G as [G|G]; auto. exfalso. exact (gw_first k Lk G).
Qed.
(** (J^m)_{0j} *)
Lemma gw_power m : forall j, (m < j)%nat -> (j < S n)%nat -> sumn (S n) (fun k => entry V 0 k * nth k x 0 ^ m * entry V j k) = 0.
Proof.
  destruct HD as [_ [_ [_ [_ [HE [_ HR]]]]]]. rewrite Hn in HE, HR. induction m as [|m IH]; intros j Hm Lj.
  - rewrite (sumn_ext _ _ (fun k => entry V 0 k * entry V j k)) by (intros; cbn; ring). rewrite HR by lia. unfold delta. destruct (Nat.eqb_spec 0 j); [lia|auto].
  - rewrite (sumn_ext _ _ (fun k => (match j with O => 0 | S j' => nth j' e 0 * (entry V 0 k * nth k x 0 ^ m * entry V j' k) end) + nth j d 0 * (entry V 0 k * nth k x 0 ^ m * entry V j k)
      + (if (S j <? S n)%nat then nth j e 0 * (entry V 0 k * nth k x 0 ^ m * entry V (S j) k) else 0))).
    + rewrite !sumn_add, sumn_scal, IH by lia. destruct j as [|j]; [lia|]. rewrite sumn_scal, IH by lia.
      destruct (Nat.ltb_spec (S (S j)) (S n)); [rewrite sumn_scal, IH by lia; ring|rewrite sumn_zero by auto; ring].
    + intros k Lk. cbn [pow]. replace (entry V 0 k * (nth k x 0 * nth k x 0 ^ m) * entry V j k) with (entry V 0 k * nth k x 0 ^ m * (nth k x 0 * entry V j k)) by ring.
      rewrite <- (HE j k) by lia. rewrite (tri_row d e (fun i => entry V i k)) by auto. destruct j; destruct (S _ <? S n)%nat; ring.
Qed.
Lemma gw_orthogonal int_1 : orthogonal (arec d) (brec e) (fun j => apply1 (gw_rule int_1 x V) (fun x => x ^ j)) (S n).
Proof.
  intros k m [Hm Hk]. rewrite lmonic_apply1, gw_rule_sum. destruct (Nat.eq_dec k (S n)) as [->|N].
  - rewrite sumn_zero; [ring|]. intros i Hi. rewrite gw_root by auto. ring.
  - rewrite (sumn_ext _ _ (fun i => eprod e k * (entry V 0 i * nth i x 0 ^ m * entry V k i))) by (intros i Hi; replace (entry V 0 i ^ 2 * (nth i x 0 ^ m * monic (arec d) (brec e) k (nth i x 0))) with (entry V 0 i * nth i x 0 ^ m * (entry V 0 i * monic (arec d) (brec e) k (nth i x 0))) by ring; rewrite <- gw_col by lia; ring).
    rewrite sumn_scal, gw_power by lia. ring.
Qed.
Lemma gw_sum int_1 : apply1 (gw_rule int_1 x V) (fun x => x ^ 0) = int_1.
Proof.
  rewrite gw_rule_sum. destruct HD as [_ [_ [_ [_ [_ [_ HR]]]]]]. rewrite Hn in HR. rewrite (sumn_ext _ _ (fun k => entry V 0 k * entry V 0 k)) by (intros; cbn; ring). rewrite HR by lia. cbn. ring.
Qed.
Lemma gw_weights int_1 : 0 <= int_1 -> List.Forall (fun wx => 0 <= fst wx) (gw_rule int_1 x V).
Proof.
  intros H. unfold gw_rule. apply List.Forall_forall. intros [w y] Hin. apply in_combine_l in Hin. apply in_map_iff in Hin. destruct Hin as [v [<- _]]. cbn [fst]. apply Rmult_le_pos; auto. apply pow2_ge_0.
Qed.
(** Every zero of p_n is a point. *)
Lemma gw_contains r : monic (arec d) (brec e) (S n) r = 0 -> In r x.
Proof.
  intros Hr. destruct HD as [Hx [_ [_ [_ [HE [_ HR]]]]]]. rewrite Hn in *.
  destruct (in_dec Req_EM_T r x) as [I|I]; auto. exfalso.
  set (v := fun j => monic (arec d) (brec e) j r / eprod e j).
  assert (Hv : forall i, (i < S n)%nat -> sumn (S n) (fun j => tri d e i j * v j) = r * v i).
  { intros i Hi. destruct (Nat.eq_dec i n) as [->|N]; [|apply (monic_rows d e r (S n)); [intros; apply He|]; lia].
    unfold v. rewrite (monic_last_row d e r n) by (intros; apply He; lia). rewrite Hr. unfold Rdiv. ring. }
  assert (Hs : forall i j, tri d e i j = tri d e j i).
  { intros i j. unfold tri. destruct (Nat.eqb_spec i j) as [->|]; [rewrite Nat.eqb_refl; auto|]. destruct (Nat.eqb_spec j i); [lia|].
    rewrite (Nat.eqb_sym (S i) j), (Nat.eqb_sym (S j) i). destruct (Nat.eqb_spec i (S j)); destruct (Nat.eqb_spec j (S i)); auto; lia. }
  assert (Z : forall k, (k < S n)%nat -> sumn (S n) (fun i => v i * entry V i k) = 0).
  { intros k Lk. assert (S1 : sumn (S n) (fun i => v i * (nth k x 0 * entry V i k)) = sumn (S n) (fun j => (r * v j) * entry V j k)).
    - rewrite (sumn_ext _ _ (fun i => sumn (S n) (fun j => v i * (tri d e i j * entry V j k)))) by (intros i Hi; rewrite <- HE by auto; rewrite sumn_scal; auto).
      rewrite sumn_swap. apply sumn_ext. intros j Hj. rewrite <- Hv by auto. rewrite (sumn_ext _ _ (fun i => entry V j k * (tri d e j i * v i))) by (intros; rewrite (Hs i j); ring). rewrite sumn_scal. ring.
    - rewrite (sumn_ext _ _ (fun i => nth k x 0 * (v i * entry V i k))) in S1 by (intros; ring). rewrite (sumn_ext _ (fun j => r * v j * entry V j k) (fun i => r * (v i * entry V i k))) in S1 by (intros; ring). rewrite !sumn_scal in S1.
      assert (N : nth k x 0 <> r) by (intros N; apply I; rewrite <- N; apply nth_In; lia).
      assert (T : (nth k x 0 - r) * sumn (S n) (fun i => v i * entry V i k) = 0) by lra. apply Rmult_integral in T. destruct T; auto. exfalso. apply N. lra. }
  assert (v 0%nat = 0).
  { replace (v 0%nat) with (sumn (S n) (fun i => v i * delta i 0)).
    - rewrite (sumn_ext _ _ (fun i => sumn (S n) (fun k => v i * (entry V i k * entry V 0 k)))) by (intros i Hi; rewrite sumn_scal, HR by lia; auto).
      rewrite sumn_swap. apply sumn_zero. intros k Lk. rewrite (sumn_ext _ _ (fun i => entry V 0 k * (v i * entry V i k))) by (intros; ring). rewrite sumn_scal, Z by auto. ring.
    - rewrite (sumn_ext _ _ (fun i => if (0 =? i)%nat then v i else 0)) by (intros i _; unfold delta; rewrite Nat.eqb_sym; destruct (0 =? i)%nat; ring). apply sumn_pick. lia. }
  unfold v in H. cbn in H. lra.
Qed.
End Decomposition.

(** The Golub-Welsch theorem, for a matrix whose recurrence coefficients agree with those of the functional only up to some
    index.  [ka], [kb]: number of a_i, i = 0..., and of b_i, i = 0..., that agree (b_0 plays no role). *)
Theorem golub_welsch a b mu N d e x V n int_1 D ka kb : length d = S n -> eigen_decomposition d e x V -> (forall i, (i < n)%nat -> nth i e 0 <> 0) ->
  orthogonal a b mu N -> mu 0%nat = int_1 ->
  (forall i, (i < ka)%nat -> nth i d 0 = a i) -> (forall i, (0 < i < kb)%nat -> nth (i - 1) e 0 ^ 2 = b i) ->
  (forall k, (2 * k <= D)%nat -> (k <= ka /\ k < kb /\ k < S n /\ k < N)%nat) -> (forall k, (2 * k + 1 <= D)%nat -> (S k <= ka /\ S k <= kb /\ S k <= S n /\ S k <= N)%nat) ->
  exact1_mu D mu (gw_rule int_1 x V).
Proof.
  intros Hn HD He HO Hm Ha Hb H1 H2 j Hj. symmetry. revert j Hj.
  assert (HQ := gw_orthogonal d e x V n Hn HD He int_1).
  apply (moments_agree a b mu (fun j => apply1 (gw_rule int_1 x V) (fun x => x ^ j)) D).
  - intros k Hk. destruct (H1 k Hk) as [Ka [Kb [Kn KN]]]. rewrite (lmonic_norm a b mu N) by auto.
    rewrite (lmonic_ext a b _ (arec d) (brec e)) by (intros i Hi; symmetry; unfold arec, brec; (apply Ha || apply Hb); lia).
    rewrite (lmonic_norm _ _ _ (S n)) by auto. rewrite (gw_sum d e x V n Hn HD). rewrite Hm. f_equal.
    assert (Q : forall k, (k < kb)%nat -> bprod b k = bprod (brec e) k).
    { clear - Hb. induction k as [|k IH]; intros L; cbn [bprod]; auto. rewrite IH by lia. rewrite <- (Hb (S k)) by lia. reflexivity. }
    apply Q. auto.
  - intros k Hk. destruct (H2 k Hk) as [Ka [Kb [Kn KN]]]. rewrite HO by lia.
    rewrite (lmonic_ext a b _ (arec d) (brec e)) by (intros i Hi; symmetry; unfold arec, brec; (apply Ha || apply Hb); lia). symmetry. apply HQ. lia.
Qed.
