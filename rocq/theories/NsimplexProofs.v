(** The regular simplex (get_nsimplex_points) and the sphere rules built on it. *)
From Coq Require Import Reals List Arith Lia Lra Permutation Bool.
From Verif Require Import Spec RsumLemmas CombModel CombProofs CombProofs2 Moments SymExact
  IntegralSpec IntegralProofs PyBase SymmModel SymmProofs MiscModel CnModel SchemeTools CnTools CnProofs IntegralProofs2 CnProofs4 CnProofs5 CubeProofs
  SphereSpec SphereInt RadialInt RadialTools UnModel.
Import ListNotations.
Set Bullet Behavior "Strict Subproofs".
Open Scope R_scope.

(* ------------------------------------------------------------------ coordinates *)
(** s_j: the entries below the diagonal are -s_j, the diagonal is (n-j) s_j *)
Definition nsx_s (n j : nat) : R := sqrt ((INR n + 1) / (INR n * (INR n - INR j + 1) * (INR n - INR j))).
Definition nsx (n r j : nat) : R := if (j <? r)%nat then - nsx_s n j else if (j =? r)%nat then (INR n - INR j) * nsx_s n j else 0.

Lemma nsx_s_sq n j : (j < n)%nat -> nsx_s n j * nsx_s n j = (INR n + 1) / (INR n * (INR n - INR j + 1) * (INR n - INR j)).
Proof.
  intros H. assert (INR j < INR n) by (apply lt_INR; auto). pose proof (pos_INR j). unfold nsx_s. apply sqrt_sqrt.
  apply Rlt_le, Rdiv_lt_0_compat; [lra|]. repeat apply Rmult_lt_0_compat; lra.
Qed.
Lemma nsimplex_head_run n is : Forall (fun i => (i < n)%nat) is -> nsimplex_head n is = Some (map (fun i => - nsx_s n i) is).
Proof.
  intros H. induction H as [|i is Hi _ IH]; [reflexivity|]. cbn [nsimplex_head map].
  assert (INR i < INR n) by (apply lt_INR; auto). pose proof (pos_INR i).
  assert (0 < INR n * (INR n - INR i + 1) * (INR n - INR i)) by (repeat apply Rmult_lt_0_compat; lra).
  rewrite rdiv_ok by lra. cbn [bind]. rewrite rsqrt_ok by (apply Rlt_le, Rdiv_lt_0_compat; lra). rewrite IH. reflexivity.
Qed.
Lemma seq_cut n r : (r < n)%nat -> seq 0 n = seq 0 r ++ [r] ++ seq (r + 1) (n - r - 1).
Proof. intros H. replace n with (r + (1 + (n - r - 1)))%nat at 1 by lia. rewrite !seq_app. reflexivity. Qed.
Lemma nsimplex_row_run n r : (r <= n)%nat -> nsimplex_row n r = Some (map (nsx n r) (seq 0 n)).
Proof.
  intros H. unfold nsimplex_row. rewrite nsimplex_head_run by (apply Forall_forall; intros i Hi; apply in_seq in Hi; lia). cbn [bind].
  assert (E : map (fun i => - nsx_s n i) (seq 0 r) = map (nsx n r) (seq 0 r)).
  { apply map_ext_in. intros i Hi. apply in_seq in Hi. unfold nsx. destruct (Nat.ltb_spec i r); [auto|lia]. }
  rewrite E. destruct (Nat.ltb_spec r n) as [Hr|Hr].
  - assert (INR r < INR n) by (apply lt_INR; auto). pose proof (pos_INR r).
    assert (0 < INR n * (INR n - INR r + 1)) by (repeat apply Rmult_lt_0_compat; lra).
    rewrite rdiv_ok by lra. cbn [bind]. rewrite rsqrt_ok by (apply Rlt_le, Rdiv_lt_0_compat; [|lra]; apply Rmult_lt_0_compat; lra). cbn [bind].
    f_equal. rewrite (seq_cut n r Hr), !map_app. f_equal. cbn [map app]. f_equal.
    + unfold nsx. rewrite Nat.ltb_irrefl, Nat.eqb_refl. apply sqrt_lem_1.
      * apply Rlt_le, Rdiv_lt_0_compat; [|lra]; apply Rmult_lt_0_compat; lra.
      * apply Rmult_le_pos; [lra|apply sqrt_pos].
      * replace ((INR n - INR r) * nsx_s n r * ((INR n - INR r) * nsx_s n r)) with ((INR n - INR r) ^ 2 * (nsx_s n r * nsx_s n r)) by ring.
        rewrite nsx_s_sq by auto. field. lra.
    + clear -r. rewrite (map_ext_in _ (fun _ => 0)).
      * generalize (r + 1)%nat. induction (n - r - 1)%nat as [|m IH]; intros s; cbn; f_equal; auto.
      * intros i Hi. apply in_seq in Hi. unfold nsx. destruct (Nat.ltb_spec i r); [lia|]. destruct (Nat.eqb_spec i r); [lia|auto].
  - replace r with n by lia. auto.
Qed.
Lemma opt_list_run {A B} (f : A -> option B) g l : (forall a, In a l -> f a = Some (g a)) -> opt_list f l = Some (map g l).
Proof. induction l as [|a l IH]; intros H; [reflexivity|]. cbn [opt_list map]. rewrite H by (left; auto). rewrite IH by (intros; apply H; right; auto). reflexivity. Qed.
Definition nsx_pts (n : nat) : list point := map (fun r => map (nsx n r) (seq 0 n)) (seq 0 (n + 1)).
Theorem nsimplex_run n : get_nsimplex_points n = Some (nsx_pts n).
Proof. unfold get_nsimplex_points. apply opt_list_run. intros r Hr. apply in_seq in Hr. apply nsimplex_row_run. lia. Qed.

(* ------------------------------------------------------------------ rows: the simplex is regular *)
Fixpoint dot (x y : list R) : R := match x, y with a :: x', b :: y' => a * b + dot x' y' | _, _ => 0 end.
Lemma dot_map (f g : nat -> R) l : dot (map f l) (map g l) = Rsum (map (fun j => f j * g j) l).
Proof. induction l; cbn; auto. rewrite IHl. auto. Qed.
Lemma nsx_s_tel n r : (r <= n)%nat -> (1 <= n)%nat ->
  Rsum (map (fun j => nsx_s n j * nsx_s n j) (seq 0 r)) = (INR n + 1) / INR n * (/ (INR n - INR r + 1) - / (INR n + 1)).
Proof.
  intros H Hn. assert (1 <= INR n) by (apply (le_INR 1); auto). induction r as [|r IH]; [cbn; field; lra|].
  rewrite seq_S, map_app, Rsum_app, IH by lia. cbn [map Rsum Nat.add]. rewrite nsx_s_sq by lia.
  assert (INR r < INR n) by (apply lt_INR; lia). rewrite S_INR. field. repeat split; lra.
Qed.
Lemma Rsum_zero {A} (f : A -> R) l : (forall a, In a l -> f a = 0) -> Rsum (map f l) = 0.
Proof. intros H. rewrite (Rsum_map_ext _ (fun _ => 0)) by auto. induction l; cbn; auto. rewrite IHl by (intros; apply H; right; auto). ring. Qed.
Lemma nsx_row_dot n r q : (1 <= n)%nat -> (r <= q <= n)%nat ->
  dot (map (nsx n r) (seq 0 n)) (map (nsx n q) (seq 0 n)) = if (r =? q)%nat then 1 else - / INR n.
Proof.
  intros Hn H. rewrite dot_map. assert (N1 : 1 <= INR n) by (apply (le_INR 1); auto).
  assert (Z : Rsum (map (fun j => nsx n r j * nsx n q j) (seq 0 n)) =
    Rsum (map (fun j => nsx_s n j * nsx_s n j) (seq 0 r)) + (if (r <? n)%nat then nsx n r r * nsx n q r else 0)).
  { destruct (Nat.ltb_spec r n) as [Hr|Hr].
    - rewrite (seq_cut n r Hr), !map_app, !Rsum_app. cbn [map Rsum]. 
      rewrite (Rsum_zero _ (seq (r + 1) (n - r - 1))).
      2: { intros j Hj. apply in_seq in Hj. unfold nsx at 1. destruct (Nat.ltb_spec j r); [lia|]. destruct (Nat.eqb_spec j r); [lia|ring]. }
      rewrite (Rsum_map_ext _ (fun j => nsx_s n j * nsx_s n j) (seq 0 r)); [ring|]. intros j Hj. apply in_seq in Hj. unfold nsx.
      destruct (Nat.ltb_spec j r); [|lia]. destruct (Nat.ltb_spec j q); [ring|lia].
    - replace r with n in * by lia. rewrite Rplus_0_r. apply Rsum_map_ext. intros j Hj. apply in_seq in Hj. unfold nsx.
      destruct (Nat.ltb_spec j n); [|lia]. destruct (Nat.ltb_spec j q); [ring|lia]. }
  rewrite Z, nsx_s_tel by lia. destruct (Nat.ltb_spec r n) as [Hr|Hr].
  - assert (INR r < INR n) by (apply lt_INR; lia). pose proof (pos_INR r). unfold nsx. rewrite Nat.ltb_irrefl, Nat.eqb_refl.
    destruct (Nat.eqb_spec r q) as [<-|Hq].
    + rewrite Nat.ltb_irrefl. replace ((INR n - INR r) * nsx_s n r * ((INR n - INR r) * nsx_s n r)) with ((INR n - INR r) ^ 2 * (nsx_s n r * nsx_s n r)) by ring.
      rewrite nsx_s_sq by auto. field. repeat split; lra.
    + destruct (Nat.ltb_spec r q); [|lia].
      replace ((INR n - INR r) * nsx_s n r * - nsx_s n r) with (- ((INR n - INR r) * (nsx_s n r * nsx_s n r))) by ring. rewrite nsx_s_sq by auto. field. repeat split; lra.
  - replace r with n by lia. destruct (Nat.eqb_spec n q); [|lia]. replace (INR n - INR n + 1) with 1 by ring. field. lra.
Qed.

(* ------------------------------------------------------------------ columns *)
Definition nS1 n a := Rsum (map (fun r => nsx n r a) (seq 0 (n + 1))).
Definition nS2 n a b := Rsum (map (fun r => nsx n r a * nsx n r b) (seq 0 (n + 1))).
Lemma nsx_below n r j : (r < j)%nat -> nsx n r j = 0.
Proof. intros H. unfold nsx. destruct (Nat.ltb_spec j r); [lia|]. destruct (Nat.eqb_spec j r); [lia|auto]. Qed.
Lemma nsx_above n r j : (j < r)%nat -> nsx n r j = - nsx_s n j.
Proof. intros H. unfold nsx. destruct (Nat.ltb_spec j r); [auto|lia]. Qed.
Lemma nsx_diag n j : nsx n j j = (INR n - INR j) * nsx_s n j.
Proof. unfold nsx. rewrite Nat.ltb_irrefl, Nat.eqb_refl. auto. Qed.
Lemma col_split n j (f : nat -> R) : (j < n)%nat -> (forall r, (r < j)%nat -> f r = 0) -> (forall r, (j < r)%nat -> f r = f (S j)) ->
  Rsum (map f (seq 0 (n + 1))) = f j + (INR n - INR j) * f (S j).
Proof.
  intros H H0 H1. replace (n + 1)%nat with (j + (1 + (n - j)))%nat by lia. rewrite !seq_app, !map_app, !Rsum_app. cbn [seq map Rsum Nat.add].
  rewrite (Rsum_zero _ (seq 0 j)) by (intros r Hr; apply in_seq in Hr; apply H0; lia).
  rewrite (Rsum_map_ext _ (fun _ => f (S j)) (seq (j + 1) (n - j))) by (intros r Hr; apply in_seq in Hr; apply H1; lia).
  rewrite Rsum_map_const, seq_length, minus_INR by lia. ring.
Qed.
Lemma nS1_zero n a : (a < n)%nat -> nS1 n a = 0.
Proof.
  intros H. unfold nS1. rewrite (col_split n a) by (auto; intros; first [apply nsx_below; auto; lia|rewrite !nsx_above by lia; auto]).
  rewrite nsx_diag, nsx_above by lia. ring.
Qed.
Definition delta (a b : nat) : R := if (a =? b)%nat then 1 else 0.
Lemma nS2_val n a b : (a < n)%nat -> (b < n)%nat -> nS2 n a b = (INR n + 1) / INR n * delta a b.
Proof.
  assert (G : forall a b, (a < b < n)%nat -> nS2 n a b = 0).
  { intros a' b' H. unfold nS2. rewrite (Rsum_map_ext _ (fun r => - nsx_s n a' * nsx n r b')).
    - rewrite Rsum_map_scal. fold (nS1 n b'). rewrite nS1_zero by lia. ring.
    - intros r _. destruct (Nat.le_gt_cases b' r); [rewrite (nsx_above n r a') by lia; auto|]. rewrite (nsx_below n r b') by auto. ring. }
  intros Ha Hb. unfold delta. destruct (Nat.eqb_spec a b) as [<-|Hne].
  - assert (INR a < INR n) by (apply lt_INR; auto). pose proof (pos_INR a). unfold nS2.
    rewrite (col_split n a) by (auto; intros; first [rewrite nsx_below by auto; ring|rewrite !nsx_above by lia; auto]).
    rewrite nsx_diag, nsx_above by lia.
    replace ((INR n - INR a) * nsx_s n a * ((INR n - INR a) * nsx_s n a) + (INR n - INR a) * (- nsx_s n a * - nsx_s n a))
      with (((INR n - INR a) ^ 2 + (INR n - INR a)) * (nsx_s n a * nsx_s n a)) by ring.
    rewrite nsx_s_sq by auto. field. repeat split; lra.
  - rewrite Rmult_0_r. destruct (Nat.lt_ge_cases a b); [apply G; lia|]. unfold nS2. rewrite (Rsum_map_ext _ (fun r => nsx n r b * nsx n r a)) by (intros; ring).
    apply G. lia.
Qed.

(* ------------------------------------------------------------------ monomials as products over index lists *)
Fixpoint idx (k : list nat) : list nat := match k with [] => [] | a :: k' => repeat 0%nat a ++ map S (idx k') end.
Lemma idx_length k : length (idx k) = tdeg k.
Proof. induction k as [|a k IH]; [reflexivity|]. rewrite tdeg_cons. cbn [idx]. rewrite app_length, repeat_length, map_length. lia. Qed.
Lemma idx_bound k a : In a (idx k) -> (a < length k)%nat.
Proof.
  revert a; induction k as [|b k IH]; intros a; cbn [idx length]; [intros []|]. intros H. apply in_app_or in H. destruct H as [H|H].
  - apply repeat_spec in H. lia.
  - apply in_map_iff in H. destruct H as [c [<- Hc]]. apply IH in Hc. lia.
Qed.
Lemma idx_mono k x : length k = length x -> mono k x = Rprod (map (fun a => nth a x 0) (idx k)).
Proof.
  revert x; induction k as [|a k IH]; intros [|t x] H; try discriminate; [reflexivity|]. cbn [mono idx]. rewrite map_app, Rprod_app, map_map. cbn [nth].
  rewrite IH by (cbn in H; lia). apply f_equal2; [|reflexivity]. clear. induction a; cbn; auto. rewrite IHa. auto.
Qed.
Definition wick (l : list nat) : R :=
  match l with
  | [] => 1
  | [a; b] => delta a b
  | [a; b; c; d] => delta a b * delta c d + delta a c * delta b d + delta a d * delta b c
  | _ => 0
  end.
Lemma delta_S a b : delta (S a) (S b) = delta a b. Proof. reflexivity. Qed.
Lemma rm_one_cons a k : rmoment (fun _ => 1) (a :: k) = (if Nat.odd a then 0 else df a) * rmoment (fun _ => 1) k.
Proof. unfold rmoment. cbn [existsb map Rprod]. destruct (Nat.odd a); cbn [orb]; [ring|]. destruct (existsb Nat.odd k); ring. Qed.
Lemma rmoment_scale h k : rmoment h k = h (tdeg k / 2)%nat * rmoment (fun _ => 1) k.
Proof. unfold rmoment. destruct (existsb Nat.odd k); ring. Qed.
Lemma wick_S l : wick (map S l) = wick l.
Proof. destruct l as [|a [|b [|c [|d [|e l]]]]]; cbn [map wick]; rewrite ?delta_S; auto. Qed.
Lemma rmoment_wick k : (tdeg k <= 5)%nat -> rmoment (fun _ => 1) k = wick (idx k).
Proof.
  induction k as [|a k IH]; intros H; [unfold rmoment; cbn; ring|]. rewrite tdeg_cons in H. rewrite rm_one_cons, IH by lia.
  cbn [idx]. assert (L := idx_length k). rewrite <- L in H. clear L IH. destruct a as [|[|[|[|[|[|a]]]]]]; [| | | | | |lia].
  - cbn [repeat app Nat.odd Nat.even negb df]. rewrite wick_S. ring.
  - destruct (idx k) as [|b [|c [|d [|e [|f l]]]]]; cbn [length] in H; try lia; cbn [repeat app map wick]; unfold delta; cbn [Nat.eqb Nat.odd Nat.even negb]; ring.
  - destruct (idx k) as [|b [|c [|d [|e l]]]]; cbn [length] in H; try lia; cbn [repeat app map wick]; unfold delta; cbn [Nat.eqb Nat.odd Nat.even negb df Nat.add]; cbn [INR]; ring.
  - destruct (idx k) as [|b [|c [|d l]]]; cbn [length] in H; try lia; cbn [repeat app map wick]; unfold delta; cbn [Nat.eqb Nat.odd Nat.even negb]; ring.
  - destruct (idx k) as [|b [|c l]]; cbn [length] in H; try lia; cbn [repeat app map wick]; unfold delta; cbn; ring.
  - destruct (idx k) as [|b l]; cbn [length] in H; try lia. cbn. ring.
Qed.

(* ------------------------------------------------------------------ exactness through index lists *)
Definition iprod (x : nat -> R) (l : list nat) : R := Rprod (map x l).
Definition coord (x : point) (a : nat) : R := nth a x 0.
Lemma exact_by_index n d I h rule : (d <= 5)%nat -> (forall k, length k = n -> I k = rmoment h k) ->
  points_in_dim n rule ->
  (forall l, (length l <= d)%nat -> Forall (fun a => (a < n)%nat) l ->
     Rsum (map (fun wp => fst wp * iprod (coord (snd wp)) l) rule) = h (length l / 2)%nat * wick l) ->
  exact n d I rule.
Proof.
  intros Hd HI HP H. split; auto. intros k Hk Hkd. rewrite HI, rmoment_scale, rmoment_wick by (auto; lia).
  rewrite <- (idx_length k), <- H; [|rewrite idx_length; lia|apply Forall_forall; intros a Ha; apply idx_bound in Ha; lia].
  unfold apply. apply Rsum_map_ext. intros wp Hw. f_equal. apply idx_mono. unfold points_in_dim in HP. rewrite Forall_forall in HP. rewrite HP; auto.
Qed.
Lemma iprod_ext x y l : (forall a, In a l -> x a = y a) -> iprod x l = iprod y l.
Proof. intros H. unfold iprod. f_equal. apply map_ext_in. auto. Qed.
Lemma iprod_scale c x l : iprod (fun a => c * x a) l = c ^ length l * iprod x l.
Proof. unfold iprod. induction l as [|a l IH]; cbn [map Rprod length pow]; [ring|]. rewrite IH. ring. Qed.
Lemma iprod_zero l : iprod (fun _ => 0) l = 0 ^ length l.
Proof. unfold iprod. induction l as [|a l IH]; cbn [map Rprod length pow]; [ring|]. rewrite IH. ring. Qed.

Definition nsx_point n r : point := map (nsx n r) (seq 0 n).
Lemma coord_map n (f : nat -> R) a : (a < n)%nat -> coord (map f (seq 0 n)) a = f a.
Proof. intros H. unfold coord. rewrite (nth_indep _ 0 (f 0%nat)) by (rewrite map_length, seq_length; auto). rewrite map_nth, seq_nth; auto. Qed.
Lemma coord_nsx n r a : (a < n)%nat -> coord (nsx_point n r) a = nsx n r a.
Proof. apply coord_map. Qed.
Lemma nsx_point_length n r : length (nsx_point n r) = n.
Proof. unfold nsx_point. rewrite map_length, seq_length. auto. Qed.
Lemma nsx_pts_nth n k : (k <= n)%nat -> nth k (nsx_pts n) [] = nsx_point n k.
Proof.
  intros H. unfold nsx_pts. rewrite (nth_indep _ [] (nsx_point n 0)) by (rewrite map_length, seq_length; lia).
  change (fun r => map (nsx n r) (seq 0 n)) with (nsx_point n). rewrite map_nth, seq_nth by lia. auto.
Qed.

(** degree 2: the vertices, scaled *)
Theorem simplex2_exact n c I h : (1 <= n)%nat -> (forall k, length k = n -> I k = rmoment h k) -> h 0%nat = 1 -> h 1%nat = c * c / INR n ->
  exact n 2 I (map (fun r => (1 / (INR n + 1), vscale c (nsx_point n r))) (seq 0 (n + 1))).
Proof.
  intros Hn HI H0 H1. assert (1 <= INR n) by (apply (le_INR 1); auto). apply (exact_by_index n 2 I h); auto.
  - apply Forall_map, Forall_forall. intros r _. cbn [snd]. unfold vscale. rewrite map_length. apply nsx_point_length.
  - intros l Hl Hb. rewrite map_map. cbn [fst snd].
    rewrite (Rsum_map_ext _ (fun r => c ^ length l / (INR n + 1) * iprod (nsx n r) l)).
    2: { intros r _. rewrite <- (iprod_ext (fun a => c * nsx n r a)); [rewrite iprod_scale; unfold Rdiv; ring|].
         intros a Ha. rewrite Forall_forall in Hb. specialize (Hb a Ha). unfold coord, vscale. rewrite <- (coord_nsx n r a) by auto. unfold coord.
         replace 0 with (c * 0) at 2 by ring. rewrite map_nth. auto. }
    rewrite Rsum_map_scal. destruct l as [|a [|b [|]]]; cbn [length] in *; try lia; cbn [wick pow].
    + change (0 / 2)%nat with 0%nat. rewrite H0. unfold iprod. cbn [map Rprod]. rewrite Rsum_map_const, seq_length, plus_INR. cbn [INR]. field. lra.
    + unfold iprod. cbn [map Rprod]. rewrite (Rsum_map_ext _ (fun r => nsx n r a)) by (intros; ring). fold (nS1 n a). inversion_clear Hb. rewrite nS1_zero by auto. ring.
    + unfold iprod. cbn [map Rprod]. rewrite (Rsum_map_ext _ (fun r => nsx n r a * nsx n r b)) by (intros; ring). fold (nS2 n a b).
      inversion_clear Hb as [|? ? Ha Hb']. inversion_clear Hb'. rewrite nS2_val by auto. change (2 / 2)%nat with 1%nat. rewrite H1. field. lra.
Qed.

(* ------------------------------------------------------------------ pairs of vertices *)
(** sums of products over a family of vectors *)
Definition T1 {A} (L : list A) (y : A -> nat -> R) a := Rsum (map (fun i => y i a) L).
Definition T2 {A} (L : list A) (y : A -> nat -> R) a b := Rsum (map (fun i => y i a * y i b) L).
Definition T3 {A} (L : list A) (y : A -> nat -> R) a b c := Rsum (map (fun i => y i a * y i b * y i c) L).
Definition T4 {A} (L : list A) (y : A -> nat -> R) a b c d := Rsum (map (fun i => y i a * y i b * y i c * y i d) L).
Lemma inner4 {A} (L : list A) (y : A -> nat -> R) (x : nat -> R) a b c d :
  Rsum (map (fun i => (x a + y i a) * (x b + y i b) * (x c + y i c) * (x d + y i d)) L) =
  INR (length L) * (x a * x b * x c * x d)
  + (x a * x b * x c * T1 L y d + x a * x b * x d * T1 L y c + x a * x c * x d * T1 L y b + x b * x c * x d * T1 L y a)
  + (x a * x b * T2 L y c d + x a * x c * T2 L y b d + x a * x d * T2 L y b c + x b * x c * T2 L y a d + x b * x d * T2 L y a c + x c * x d * T2 L y a b)
  + (x a * T3 L y b c d + x b * T3 L y a c d + x c * T3 L y a b d + x d * T3 L y a b c) + T4 L y a b c d.
Proof.
  unfold T1, T2, T3, T4. induction L as [|i L IH]; [cbn; ring|]. cbn [map Rsum length]. rewrite IH, S_INR. ring.
Qed.
Lemma outer4 {A} (L : list A) (x : A -> nat -> R) a b c d N q1 q2 q3 q4 q5 q6 t1 t2 t3 t4 t :
  Rsum (map (fun i => N * (x i a * x i b * x i c * x i d)
  + (x i a * x i b * q1 + x i a * x i c * q2 + x i a * x i d * q3 + x i b * x i c * q4 + x i b * x i d * q5 + x i c * x i d * q6)
  + (x i a * t1 + x i b * t2 + x i c * t3 + x i d * t4) + t) L) =
  N * T4 L x a b c d + (T2 L x a b * q1 + T2 L x a c * q2 + T2 L x a d * q3 + T2 L x b c * q4 + T2 L x b d * q5 + T2 L x c d * q6)
  + (T1 L x a * t1 + T1 L x b * t2 + T1 L x c * t3 + T1 L x d * t4) + INR (length L) * t.
Proof.
  unfold T1, T2, T4. induction L as [|i L IH]; [cbn; ring|]. cbn [map Rsum length]. rewrite IH, S_INR. ring.
Qed.
Lemma inner2 {A} (L : list A) (y : A -> nat -> R) (x : nat -> R) a b :
  Rsum (map (fun i => (x a + y i a) * (x b + y i b)) L) =
  INR (length L) * (x a * x b) + (x a * T1 L y b + x b * T1 L y a) + T2 L y a b.
Proof. unfold T1, T2. induction L as [|i L IH]; [cbn; ring|]. cbn [map Rsum length]. rewrite IH, S_INR. ring. Qed.
Lemma outer2 {A} (L : list A) (x : A -> nat -> R) a b N t :
  Rsum (map (fun i => N * (x i a * x i b) + t) L) = N * T2 L x a b + INR (length L) * t.
Proof. unfold T2. induction L as [|i L IH]; [cbn; ring|]. cbn [map Rsum length]. rewrite IH, S_INR. ring. Qed.

(** sum over l < k < m *)
Definition pairsum (g : nat -> nat -> R) m := Rsum (map (fun k => Rsum (map (fun l => g k l) (seq 0 k))) (seq 0 m)).
Lemma pairsum_double g m : (forall k l, g k l = g l k) ->
  2 * pairsum g m = Rsum (map (fun k => Rsum (map (fun l => g k l) (seq 0 m))) (seq 0 m)) - Rsum (map (fun k => g k k) (seq 0 m)).
Proof.
  intros H. induction m as [|m IH]; [cbn; ring|]. unfold pairsum in *. rewrite !seq_S, !map_app, !Rsum_app. cbn [map Rsum Nat.add].
  rewrite !map_app, !Rsum_app. cbn [map Rsum].
  rewrite (Rsum_map_ext (fun k => Rsum (map (fun l => g k l) (seq 0 m ++ [m]))) (fun k => Rsum (map (fun l => g k l) (seq 0 m)) + g k m) (seq 0 m)).
  2: { intros k _. rewrite map_app, Rsum_app. cbn. ring. }
  rewrite Rsum_map_plus. rewrite (Rsum_map_ext (fun k => g k m) (fun k => g m k)) by auto. lra.
Qed.
Lemma pairsum_ext g g' m : (forall k l, (l < k < m)%nat -> g k l = g' k l) -> pairsum g m = pairsum g' m.
Proof. intros H. apply Rsum_map_ext. intros k Hk. apply Rsum_map_ext. intros l Hl. apply in_seq in Hk, Hl. apply H. lia. Qed.
Lemma pairsum_scal c g m : pairsum (fun k l => c * g k l) m = c * pairsum g m.
Proof. unfold pairsum. rewrite <- Rsum_map_scal. apply Rsum_map_ext. intros. apply Rsum_map_scal. Qed.

Definition nsx_pair n (l : list nat) : R := pairsum (fun k j => iprod (fun a => nsx n k a + nsx n j a) l) (n + 1).
Definition nsx_vert n (l : list nat) : R := Rsum (map (fun r => iprod (nsx n r) l) (seq 0 (n + 1))).
Lemma nsx_vert_2 n a b : (a < n)%nat -> (b < n)%nat -> nsx_vert n [a; b] = (INR n + 1) / INR n * delta a b.
Proof. intros. rewrite <- nS2_val by auto. apply Rsum_map_ext. intros. unfold iprod. cbn. ring. Qed.
Lemma delta_sym a b : delta a b = delta b a. Proof. unfold delta. rewrite Nat.eqb_sym. auto. Qed.
Lemma nsx_pair_0 n : nsx_pair n [] = (INR n + 1) * INR n / 2.
Proof.
  unfold nsx_pair, iprod. cbn [map Rprod]. assert (E : forall m, pairsum (fun _ _ => 1) m = INR m * (INR m - 1) / 2).
  { unfold pairsum. induction m as [|m IH]; [cbn; field|]. rewrite seq_S, map_app, Rsum_app, IH. cbn [map Rsum Nat.add]. rewrite Rsum_map_const, seq_length, S_INR. field. }
  rewrite E, plus_INR. cbn [INR]. field.
Qed.
Lemma iprod_add_sym n k j l : iprod (fun a => nsx n k a + nsx n j a) l = iprod (fun a => nsx n j a + nsx n k a) l.
Proof. apply iprod_ext. intros; ring. Qed.
Lemma nsx_pair_2 n a b : (a < n)%nat -> (b < n)%nat -> nsx_pair n [a; b] = (INR n - 1) * ((INR n + 1) / INR n * delta a b).
Proof.
  intros Ha Hb. assert (E := pairsum_double (fun k j => iprod (fun a => nsx n k a + nsx n j a) [a; b]) (n + 1) (fun k j => iprod_add_sym n k j [a; b])). fold (nsx_pair n [a; b]) in E.
  rewrite <- nS2_val by auto. unfold iprod in E. cbn [map Rprod] in E.
  rewrite (Rsum_map_ext _ (fun k => INR (n + 1) * (nsx n k a * nsx n k b) + nS2 n a b)) in E.
  2: { intros k _. rewrite (Rsum_map_ext _ (fun j => (nsx n k a + nsx n j a) * (nsx n k b + nsx n j b))) by (intros; ring).
       rewrite inner2, seq_length. unfold T1, T2. fold (nS1 n a) (nS1 n b) (nS2 n a b). rewrite !nS1_zero by auto. ring. }
  rewrite outer2, seq_length in E. unfold T2 in E. fold (nS2 n a b) in E.
  rewrite (Rsum_map_ext _ (fun k => 4 * (nsx n k a * nsx n k b))) in E by (intros; ring). rewrite Rsum_map_scal in E. fold (nS2 n a b) in E.
  rewrite plus_INR in E. cbn [INR] in E. lra.
Qed.
Lemma nsx_pair_4 n a b c d : (a < n)%nat -> (b < n)%nat -> (c < n)%nat -> (d < n)%nat ->
  nsx_pair n [a; b; c; d] = (INR n - 7) * nsx_vert n [a; b; c; d] + ((INR n + 1) / INR n) ^ 2 * wick [a; b; c; d].
Proof.
  intros Ha Hb Hc Hd. assert (E := pairsum_double (fun k j => iprod (fun a => nsx n k a + nsx n j a) [a; b; c; d]) (n + 1) (fun k j => iprod_add_sym n k j _)).
  fold (nsx_pair n [a; b; c; d]) in E. unfold iprod in E. cbn [map Rprod] in E.
  set (L := seq 0 (n + 1)) in *. set (y := fun k a => nsx n k a).
  assert (V : nsx_vert n [a; b; c; d] = T4 L y a b c d) by (apply Rsum_map_ext; intros; unfold iprod, y; cbn; ring).
  assert (Z1 : forall e, (e < n)%nat -> T1 L y e = 0) by (intros; apply nS1_zero; auto).
  assert (Z2 : forall e f, (e < n)%nat -> (f < n)%nat -> T2 L y e f = (INR n + 1) / INR n * delta e f) by (intros; apply nS2_val; auto).
  assert (HL : INR (length L) = INR n + 1) by (unfold L; rewrite seq_length, plus_INR; reflexivity).
  rewrite (Rsum_map_ext _ (fun k => (INR n + 1) * (y k a * y k b * y k c * y k d)
    + (y k a * y k b * T2 L y c d + y k a * y k c * T2 L y b d + y k a * y k d * T2 L y b c + y k b * y k c * T2 L y a d + y k b * y k d * T2 L y a c + y k c * y k d * T2 L y a b)
    + (y k a * T3 L y b c d + y k b * T3 L y a c d + y k c * T3 L y a b d + y k d * T3 L y a b c) + T4 L y a b c d)) in E.
  2: { intros k _. rewrite (Rsum_map_ext _ (fun j => (y k a + y j a) * (y k b + y j b) * (y k c + y j c) * (y k d + y j d))) by (intros; unfold y; ring).
       rewrite inner4, HL, !Z1 by auto. ring. }
  rewrite outer4, HL, !Z1 in E by auto.
  rewrite (Rsum_map_ext _ (fun k => 16 * (y k a * y k b * y k c * y k d))) in E by (intros; unfold y; ring). rewrite Rsum_map_scal in E.
  fold (T4 L y a b c d) in E. rewrite !Z2 in E by auto. rewrite V. cbn [wick].
  set (q := (INR n + 1) / INR n) in *. nra.
Qed.

(** A rule with center weight p, weight A on +-sigma a_r and weight B on +-sigma beta (a_k + a_l). *)
Theorem pair5_exact n I h rule p A B sg be : (1 <= n)%nat -> (forall k, length k = n -> I k = rmoment h k) -> points_in_dim n rule ->
  (forall l, Forall (fun a => (a < n)%nat) l -> apply rule (fun x => iprod (coord x) l) =
     p * 0 ^ length l + A * sg ^ length l * (1 + (-1) ^ length l) * nsx_vert n l + B * (sg * be) ^ length l * (1 + (-1) ^ length l) * nsx_pair n l) ->
  p + 2 * A * (INR n + 1) + B * (INR n + 1) * INR n = h 0%nat ->
  (2 * A * sg ^ 2 + 2 * B * (sg * be) ^ 2 * (INR n - 1)) * ((INR n + 1) / INR n) = h 1%nat ->
  A + B * be ^ 4 * (INR n - 7) = 0 -> 2 * B * (sg * be) ^ 4 * ((INR n + 1) / INR n) ^ 2 = h 2%nat ->
  exact n 5 I rule.
Proof.
  intros Hn HI HP Hr E0 E1 E2 E3. apply (exact_by_index n 5 I h); auto. intros l Hl Hb.
  change (Rsum (map (fun wp => fst wp * iprod (coord (snd wp)) l) rule)) with (apply rule (fun x => iprod (coord x) l)).
  rewrite Hr by auto. destruct l as [|a [|b [|c [|d [|e [|]]]]]]; cbn [length] in *; try lia.
  - rewrite nsx_pair_0. change (0 / 2)%nat with 0%nat. rewrite <- E0. unfold nsx_vert, iprod. cbn [map Rprod]. rewrite Rsum_map_const, seq_length, plus_INR. cbn [INR pow wick]. field.
  - cbn [wick]. ring.
  - inversion_clear Hb as [|? ? Ha Hb']. inversion_clear Hb' as [|? ? Hb _]. rewrite nsx_pair_2, nsx_vert_2 by auto. change (2 / 2)%nat with 1%nat. rewrite <- E1. cbn [wick]. ring.
  - cbn [wick]. ring.
  - inversion_clear Hb as [|? ? Ha Hb']. inversion_clear Hb' as [|? ? Hb Hc']. inversion_clear Hc' as [|? ? Hc Hd']. inversion_clear Hd' as [|? ? Hd _].
    rewrite nsx_pair_4 by auto. change (4 / 2)%nat with 2%nat. rewrite <- E3. replace A with (- (B * be ^ 4 * (INR n - 7))) by lra. ring.
  - cbn [wick]. ring.
Qed.

Lemma mk_rule_app p1 p2 w1 w2 : length w1 = length p1 -> mk_rule (p1 ++ p2, w1 ++ w2) = mk_rule (p1, w1) ++ mk_rule (p2, w2).
Proof. intros H. unfold mk_rule. cbn [fst snd]. apply combine_app'. auto. Qed.
Lemma apply_app r1 r2 f : apply (r1 ++ r2) f = apply r1 f + apply r2 f.
Proof. unfold apply. rewrite map_app, Rsum_app. auto. Qed.
Lemma apply_uniform w pts m f : length pts = m -> apply (mk_rule (pts, repeat w m)) f = w * Rsum (map f pts).
Proof. intros H. rewrite uniform_rule by auto. unfold apply. rewrite map_map. cbn [fst snd]. apply Rsum_map_scal. Qed.

Lemma pts_as_points n : nsx_pts n = map (nsx_point n) (seq 0 (n + 1)).
Proof. reflexivity. Qed.
Lemma nsx_pts_len n : length (nsx_pts n) = (n + 1)%nat.
Proof. unfold nsx_pts. rewrite map_length, seq_length. auto. Qed.
Lemma coord_scale c x a : coord (vscale c x) a = c * coord x a.
Proof. unfold coord, vscale. replace 0 with (c * 0) at 1 by ring. apply map_nth. Qed.
Lemma coord_opp x a : coord (map Ropp x) a = -1 * coord x a.
Proof. unfold coord. replace 0 with (- 0) at 1 by ring. rewrite map_nth. ring. Qed.
Lemma coord_add x y a : length x = length y -> coord (vadd x y) a = coord x a + coord y a.
Proof.
  unfold coord, vadd. revert y a. induction x as [|u x IH]; intros [|v y] a H; try discriminate; [destruct a; cbn; ring|].
  destruct a; cbn [List.combine map nth fst snd]; auto.
Qed.
Lemma vadd_length x y : length x = length y -> length (vadd x y) = length x.
Proof. intros H. unfold vadd. rewrite map_length, combine_length. lia. Qed.
(** sums over the vertices and over the pairs *)
Lemma vert_sum n c l : Forall (fun a => (a < n)%nat) l -> Rsum (map (fun x => iprod (fun a => c * coord x a) l) (nsx_pts n)) = c ^ length l * nsx_vert n l.
Proof.
  intros Hb. rewrite pts_as_points, map_map. unfold nsx_vert. rewrite <- Rsum_map_scal. apply Rsum_map_ext. intros r _. rewrite iprod_scale. f_equal.
  apply iprod_ext. intros a Ha. rewrite Forall_forall in Hb. apply coord_nsx; auto.
Qed.
Lemma pair_sum n c be l : Forall (fun a => (a < n)%nat) l ->
  Rsum (map (fun x => iprod (fun a => c * coord x a) l) (pair_midpoints be (nsx_pts n))) = (c * be) ^ length l * nsx_pair n l.
Proof.
  intros Hb. unfold pair_midpoints, nsx_pair. rewrite nsx_pts_len, Rsum_map_flat_map, <- pairsum_scal. unfold pairsum. apply Rsum_map_ext. intros k Hk. rewrite map_map.
  apply Rsum_map_ext. intros j Hj. apply in_seq in Hk, Hj. rewrite <- iprod_scale. apply iprod_ext. intros a Ha. rewrite Forall_forall in Hb. specialize (Hb a Ha).
  rewrite coord_scale, coord_add by (rewrite !nsx_pts_nth, !nsx_point_length by lia; auto). rewrite !nsx_pts_nth, !coord_nsx by lia. ring.
Qed.
Lemma nsx_pts_dim n : Forall (fun p => length p = n) (nsx_pts n).
Proof. rewrite pts_as_points. apply Forall_map, Forall_forall. intros. apply nsx_point_length. Qed.
Lemma pair_dim n be : Forall (fun p => length p = n) (pair_midpoints be (nsx_pts n)).
Proof.
  apply Forall_forall. intros p Hp. unfold pair_midpoints in Hp. apply in_flat_map in Hp. destruct Hp as [k [Hk Hp]]. apply in_map_iff in Hp. destruct Hp as [l [<- Hl]].
  rewrite nsx_pts_len in Hk. apply in_seq in Hk, Hl. unfold vscale. rewrite map_length, vadd_length; rewrite !nsx_pts_nth, !nsx_point_length by lia; auto.
Qed.
Lemma mk_rule_dim n pts ws : Forall (fun p => length p = n) pts -> points_in_dim n (mk_rule (pts, ws)).
Proof.
  intros H. apply Forall_forall. intros [w p] Hw. unfold mk_rule in Hw. cbn [fst snd] in *. apply in_combine_r in Hw. rewrite Forall_forall in H. auto.
Qed.

Theorem mysovskikh_1_exact n : (1 <= n)%nat -> good_scheme n 2 (sphereI n) (mysovskikh_1 n).
Proof.
  intros H. inr_pos n. unfold mysovskikh_1. rewrite nsimplex_run. cbn [bind]. eexists. split; [reflexivity|]. split; [auto|]. split; [auto|]. cbn [s_rule].
  rewrite uniform_rule by apply nsx_pts_len. rewrite pts_as_points, map_map.
  assert (E := simplex2_exact n 1 (sphereI n) (h_sphere n) H (fun k => sphereI_val n k H) (h_sphere_0 n)).
  rewrite (map_ext _ (fun r => (1 / (INR n + 1), vscale 1 (nsx_point n r)))).
  - apply E. unfold h_sphere. cbn. field. lra.
  - intros r. f_equal. unfold vscale. rewrite <- (map_id (nsx_point n r)) at 1. apply map_ext. intros; ring.
Qed.
Lemma opp_dim n l : Forall (fun p : point => length p = n) l -> Forall (fun p : point => length p = n) (map (map Ropp) l).
Proof. intros H. apply Forall_map. eapply Forall_impl; [|exact H]. intros p Hp. cbn beta in *. rewrite map_length. auto. Qed.
Theorem mysovskikh_2_exact n : (2 <= n)%nat -> good_scheme n 5 (sphereI n) (mysovskikh_2 n).
Proof.
  intros H. inr_pos n. unfold mysovskikh_2. cbv zeta. assert (0 < (INR n + 1) ^ 2) by (apply pow_lt; lra).
  apply bind_div; [nra|]. intros A HA. apply bind_div; [repeat (apply Rmult_integral_contrapositive; split); lra|]. intros B HB.
  rewrite nsimplex_run. cbn [bind]. apply bind_div; [lra|]. intros q Hq. apply bind_sqrt; [subst; apply Rlt_le, Rdiv_lt_0_compat; lra|]. intros c Pc Qc.
  eexists. split; [reflexivity|]. split; [auto|]. split; [auto|]. cbn [s_rule].
  assert (E4 : c ^ 4 = INR n ^ 2 / (4 * (INR n - 1) ^ 2)) by (replace (c ^ 4) with ((c * c) ^ 2) by ring; rewrite Qc, Hq; field; lra).
  assert (E2 : c ^ 2 = INR n / (2 * (INR n - 1))) by (replace (c ^ 2) with (c * c) by ring; rewrite Qc, Hq; auto).
  apply (pair5_exact n _ (h_sphere n) _ 0 A B 1 c); auto; try lia.
  - intros k Hk. apply sphereI_val; auto. lia.
  - apply mk_rule_dim. repeat (apply Forall_app; split); auto using nsx_pts_dim, pair_dim, opp_dim.
  - intros l Hb. rewrite !mk_rule_app, !apply_app, !apply_uniform by (rewrite ?repeat_length, ?map_length; auto).
    rewrite !map_map.
    rewrite (Rsum_map_ext (fun x => iprod (coord x) l) (fun x => iprod (fun a => 1 * coord x a) l) (nsx_pts n)) by (intros; apply iprod_ext; intros; ring).
    rewrite (Rsum_map_ext (fun x => iprod (coord x) l) (fun x => iprod (fun a => 1 * coord x a) l) (pair_midpoints c (nsx_pts n))) by (intros; apply iprod_ext; intros; ring).
    rewrite (Rsum_map_ext (fun x => iprod (coord (map Ropp x)) l) (fun x => iprod (fun a => -1 * coord x a) l) (nsx_pts n)) by (intros; apply iprod_ext; intros; apply coord_opp).
    rewrite (Rsum_map_ext (fun x => iprod (coord (map Ropp x)) l) (fun x => iprod (fun a => -1 * coord x a) l) (pair_midpoints c (nsx_pts n))) by (intros; apply iprod_ext; intros; apply coord_opp).
    rewrite !vert_sum, !pair_sum by auto. rewrite pow1, !Rpow_mult_distr, pow1. ring.
  - rewrite HA, HB, h_sphere_0. field. lra.
  - rewrite Rpow_mult_distr, E2, HA, HB. unfold h_sphere. cbn [rise]. field. lra.
  - rewrite E4, HA, HB. field. lra.
  - rewrite Rpow_mult_distr, E4, HB. unfold h_sphere. cbn [rise]. field. lra.
Qed.
