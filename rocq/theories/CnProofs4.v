(** Tensor product rules on the n-cube: stroud_cn_3_6, stroud_cn_5_9; the face rule stroud_1966_b. *)
From Coq Require Import Reals List Arith Lia Lra Permutation Bool.
From Verif Require Import Spec RsumLemmas CombModel CombProofs CombProofs2 Moments SymExact
  IntegralSpec IntegralProofs PyBase SymmModel SymmProofs OrbitProofs2 MiscModel CnModel SchemeTools CnTools CnProofs IntegralProofs2.
Import ListNotations.
Open Scope R_scope.

(* ------------------------------------------------------------------ tensor sums *)
(** sum over all tuples of prod_i f_i(t_i) = prod_i sum_x f_i(x) *)
Fixpoint zipprod {A} (fs : list (A -> R)) (t : list A) : R :=
  match fs, t with f :: fs', a :: t' => f a * zipprod fs' t' | _, _ => 1 end.
Lemma tensor_sum {A} (l : list A) fs :
  Rsum (map (zipprod fs) (product (repeat l (length fs)))) = Rprod (map (fun f => Rsum (map f l)) fs).
Proof.
  induction fs as [|f fs IH]; simpl; [ring|].
  rewrite Rsum_map_flat_map. rewrite <- IH. rewrite <- Rsum_map_scal_r. apply Rsum_map_ext. intros x _.
  rewrite map_map. simpl. rewrite Rsum_map_scal. auto.
Qed.

Definition wpow (a : nat) (wx : R * R) : R := fst wx * snd wx ^ a.
Lemma zipprod_wpow k (t : list (R * R)) : length t = length k ->
  zipprod (map wpow k) t = Rprod (map fst t) * mono k (map snd t).
Proof.
  revert t; induction k as [|a k IH]; intros [|[w x] t] H; simpl in *; try discriminate; [ring|].
  rewrite IH by lia. unfold wpow. simpl. ring.
Qed.

Lemma Rprod_app l1 l2 : Rprod (l1 ++ l2) = Rprod l1 * Rprod l2.
Proof. induction l1; simpl; [ring|rewrite IHl1; ring]. Qed.
Lemma Rprod_rev l : Rprod (rev l) = Rprod l.
Proof. induction l; simpl; auto. rewrite Rprod_app, IHl. simpl. ring. Qed.
Lemma Rprod_perm l l' : Permutation l l' -> Rprod l = Rprod l'.
Proof. induction 1; simpl; auto; try (rewrite IHPermutation; auto); try ring. congruence. Qed.
Lemma Rprod_swap2 l : Rprod (swap2 l) = Rprod l.
Proof. destruct l as [|a [|b l]]; simpl; auto. ring. Qed.
Lemma swap2_perm {A} (l : list A) : Permutation (swap2 l) l.
Proof. destruct l as [|a [|b l]]; simpl; auto. constructor. Qed.
Lemma swap2_map {A B} (f : A -> B) l : swap2 (map f l) = map f (swap2 l).
Proof. destruct l as [|a [|b l]]; auto. Qed.
Lemma swap2_len {A} (l : list A) : length (swap2 l) = length l.
Proof. destruct l as [|a [|b l]]; auto. Qed.
Lemma mono_swap2 k x : length k = length x -> mono k (swap2 x) = mono (swap2 k) x.
Proof.
  destruct k as [|a [|b k]], x as [|u [|v x]]; simpl; intros H; try discriminate; auto. ring.
Qed.
Lemma mono_rev k x : length k = length x -> mono k (rev x) = mono (rev k) x.
Proof.
  revert k; induction x as [|u x IH]; intros [|a k] H; try discriminate; auto. cbn [rev]. simpl in H.
  destruct (exists_last (l := a :: k)) as [k' [b E]]; [discriminate|].
  assert (L : length k' = length k) by (apply (f_equal (@length nat)) in E; rewrite app_length in E; simpl in E; lia).
  rewrite E. rewrite mono_app by (rewrite rev_length; lia).
  rewrite IH by lia. replace (rev k ++ [a]) with (rev (a :: k)) by auto. rewrite E.
  rewrite rev_app_distr. simpl. ring.
Qed.

(** weights and points of the mesh come from one table of pairs *)
Lemma mesh_rule n (ws xs : list R) : length ws = length xs ->
  mk_rule (mesh_rows n xs, map (fun row => prod_list row / 2 ^ n) (mesh_rows n ws)) =
  map (fun t => (Rprod (map fst t) / 2 ^ n, swap2 (rev (map snd t)))) (product (repeat (List.combine ws xs) n)).
Proof.
  intros H. unfold mk_rule, mesh_rows. simpl.
  assert (F1 : forall (a b : list R), length a = length b -> map fst (List.combine a b) = a).
  { induction a; intros [|x b] L; simpl in *; try discriminate; auto. f_equal. apply IHa. lia. }
  assert (F2 : forall (a b : list R), length a = length b -> map snd (List.combine a b) = b).
  { induction a; intros [|x b] L; simpl in *; try discriminate; auto. f_equal. apply IHa. lia. }
  assert (E1 : repeat ws n = map (map fst) (repeat (List.combine ws xs) n)).
  { induction n; simpl; auto. rewrite <- IHn. f_equal. rewrite F1; auto. }
  assert (E2 : repeat xs n = map (map snd) (repeat (List.combine ws xs) n)).
  { clear E1. induction n; simpl; auto. rewrite <- IHn. f_equal. rewrite F2; auto. }
  rewrite E1, E2. rewrite !product_map, !map_map.
  induction (product (repeat (List.combine ws xs) n)) as [|t l IH]; simpl; auto. rewrite IH. f_equal. f_equal.
  rewrite prod_list_Rprod. rewrite Rprod_swap2, Rprod_rev. auto.
Qed.

Theorem mesh_exact n d ws xs : length ws = length xs ->
  (forall a, (a <= d)%nat -> Rsum (map (wpow a) (List.combine ws xs)) = 2 * cube_moment [a]) ->
  exact n d (cubeI n) (mk_rule (mesh_rows n xs, map (fun row => prod_list row / 2 ^ n) (mesh_rows n ws))).
Proof.
  intros H Hm. rewrite mesh_rule by auto. set (l := List.combine ws xs) in *.
  assert (Hlen : forall t, In t (product (repeat l n)) -> length t = n).
  { intros t Ht. apply in_product in Ht. apply Forall2_len in Ht. rewrite repeat_length in Ht. auto. }
  split.
  { unfold points_in_dim. apply Forall_forall. intros wp Hw. apply in_map_iff in Hw. destruct Hw as [t [<- Ht]].
    cbn [snd]. rewrite swap2_len, rev_length, map_length. auto. }
  intros k Hk Hd. unfold apply. rewrite map_map. cbn [fst snd].
  set (k' := rev (swap2 k)).
  assert (Pk : Permutation k' k) by (unfold k'; rewrite <- Permutation_rev; apply swap2_perm).
  assert (Lk : length k' = n) by (rewrite (Permutation_length Pk); auto).
  rewrite (Rsum_map_ext _ (fun t => / 2 ^ n * zipprod (map wpow k') t)).
  2: { intros t Ht. specialize (Hlen t Ht). rewrite zipprod_wpow by lia. unfold k'.
       rewrite mono_swap2 by (rewrite rev_length, map_length; lia).
       rewrite mono_rev by (rewrite swap2_len, map_length; lia).
       unfold Rdiv. ring. }
  rewrite Rsum_map_scal. replace n with (length (map wpow k')) at 2 by (rewrite map_length; auto).
  rewrite tensor_sum, map_map. unfold cubeI. rewrite cube_mean_mono by auto.
  rewrite <- (cube_moment_perm k' k Pk). rewrite <- (tdeg_perm k' k Pk) in Hd. clearbody k'. clear Pk Hk k Hlen.
  subst n. revert Hd. induction k' as [|a k IH]; intros Hd.
  { unfold cube_moment. simpl. field. }
  change (tdeg (a :: k)) with (a + tdeg k)%nat in Hd.
  cbn [map Rprod length]. rewrite Hm by lia. assert (IH' := IH ltac:(lia)).
  transitivity (cube_moment [a] * (/ 2 ^ length k * Rprod (map (fun x => Rsum (map (wpow x) l)) k))).
  { cbn [pow]. field. apply pow2_nz. }
  rewrite IH'. unfold cube_moment. cbn [map Rprod]. ring.
Qed.

Theorem stroud_cn_3_6_exact n : cube_scheme n 3 (Some (stroud_cn_3_6 n)).
Proof.
  eexists. split; [reflexivity|]. split; [auto|]. split; [auto|]. cbn [s_rule stroud_cn_3_6].
  apply mesh_exact; auto. intros a Ha.
  do 4 (destruct a as [|a]; [unfold wpow, cube_moment; cbn; lra|]). lia.
Qed.
Theorem stroud_cn_5_9_exact n : cube_scheme n 5 (stroud_cn_5_9 n).
Proof.
  unfold stroud_cn_5_9. apply bind_sqrt; [lra|]. intros s Hs E.
  eexists. split; [reflexivity|]. split; [auto|]. split; [auto|]. cbn [s_rule].
  apply mesh_exact; auto. intros a Ha.
  do 6 (destruct a as [|a]; [unfold wpow, cube_moment; cbn [List.combine map fst snd Rsum Rprod Nat.even pow]; inr_lits;
    ring_simplify; repeat (replace (s ^ 4) with ((s * s) * (s * s)) by ring || replace (s ^ 2) with (s * s) by ring);
    rewrite ?E; lra|]).
  lia.
Qed.

(* ------------------------------------------------------------------ stroud_1966_b *)
Definition spart (e : list nat) : R := if existsb Nat.odd e then 0 else (1/3) ^ (tdeg e / 2).
Definition face_mom (k : R) (e : list nat) : R :=
  if existsb Nat.odd e then 0 else
  match tdeg e with
  | 0 => 4 / (5 * k - 1)
  | 2 => 4/3 / (5 * k - 1)
  | 4 => if existsb (Nat.eqb 4) e then 4 * (5 * k + 4) / (45 * (5 * k - 1)) else 4/9 / (5 * k - 1)
  | _ => 0
  end.
Lemma tdeg_cons a k : tdeg (a :: k) = (a + tdeg k)%nat.
Proof. reflexivity. Qed.
Lemma even_tdeg e : existsb Nat.odd e = false -> Nat.even (tdeg e) = true.
Proof.
  induction e as [|a e IH]; [auto|]. cbn [existsb]. intros H. apply orb_false_iff in H. destruct H as [H1 H2].
  rewrite tdeg_cons, Nat.even_add. rewrite IH by auto. rewrite <- Nat.negb_odd, H1. auto.
Qed.
Lemma has4_tdeg e : existsb (Nat.eqb 4) e = true -> (4 <= tdeg e)%nat.
Proof.
  intros H. apply existsb_exists in H. destruct H as [x [Hx E]]. apply Nat.eqb_eq in E. subst x.
  induction e; [destruct Hx|]. rewrite tdeg_cons. destruct Hx as [-> |Hx]; [lia|]. specialize (IHe Hx). lia.
Qed.

Lemma face_mom_step k a e : (a + tdeg e <= 5)%nat -> 5 * k - 1 <> 0 -> 5 * k + 4 <> 0 ->
  20 / ((5 * k - 1) * (5 * k + 4)) * (if Nat.even a then ((5 * k + 4) / 15) ^ (a / 2) else 0) * spart e +
    0 ^ a * face_mom (k + 1) e = face_mom k (a :: e).
Proof.
  intros Ha N1 N2. assert (N3 : 5 * (k + 1) - 1 <> 0) by lra.
  unfold face_mom, spart. cbn [existsb]. rewrite tdeg_cons.
  destruct (existsb Nat.odd e) eqn:Ho.
  { rewrite orb_true_r. ring. }
  rewrite orb_false_r. assert (Hev := even_tdeg e Ho).
  assert (H4 : existsb (Nat.eqb 4) e = true -> (4 <= tdeg e)%nat) by apply has4_tdeg.
  assert (Ht : tdeg e = 0%nat \/ tdeg e = 2%nat \/ tdeg e = 4%nat).
  { destruct (tdeg e) as [|[|[|[|[|[|t]]]]]]; auto; simpl in Hev; try discriminate. lia. }
  destruct (existsb (Nat.eqb 4) e); [specialize (H4 eq_refl)|clear H4].
  all: do 6 (destruct a as [|a]; [destruct Ht as [E | [E | E]]; rewrite E in *; try lia; cbn; field; auto|]); lia.
Qed.

Lemma cube_moment_cons a e : cube_moment (a :: e) = (if Nat.even a then 1 / INR (S a) else 0) * cube_moment e.
Proof. reflexivity. Qed.
Lemma face_mom_1 e : (tdeg e <= 5)%nat -> face_mom 1 e = cube_moment e.
Proof.
  intros H. unfold face_mom. destruct (existsb Nat.odd e) eqn:Ho.
  { rewrite cube_moment_odd; auto. }
  revert H Ho. assert (Z : forall e, tdeg e = 0%nat -> cube_moment e = 1).
  { induction e0 as [|a e0 IH]; intros Hz; [reflexivity|]. rewrite tdeg_cons in Hz.
    rewrite cube_moment_cons, IH by lia. replace a with 0%nat by lia. cbn. lra. }
  assert (T : forall e, tdeg e = 2%nat -> existsb Nat.odd e = false -> cube_moment e = 1/3).
  { induction e0 as [|a e0 IH]; intros Hz Ho; [discriminate|]. rewrite tdeg_cons in Hz. cbn [existsb] in Ho.
    apply orb_false_iff in Ho. destruct Ho as [Ha Ho]. rewrite cube_moment_cons.
    destruct a as [|[|[|a]]]; try lia; try discriminate.
    - rewrite IH by (auto; lia). cbn. lra.
    - rewrite Z by lia. cbn. lra. }
  induction e as [|a e IH]; intros H Ho.
  { cbn. lra. }
  cbn [existsb] in *. rewrite tdeg_cons in *. apply orb_false_iff in Ho. destruct Ho as [Ha Ho].
  rewrite cube_moment_cons.
  assert (Hev := even_tdeg e Ho).
  destruct a as [|[|[|[|[|[|a]]]]]]; try discriminate; try lia; cbn [Nat.even Nat.add Nat.eqb orb].
  - rewrite <- IH by (auto; lia). cbn. lra.
  - assert (Ht : tdeg e = 0%nat \/ tdeg e = 2%nat).
    { destruct (tdeg e) as [|[|[|[|t]]]]; auto; simpl in Hev; try discriminate. lia. }
    destruct Ht as [E|E]; rewrite E.
    + rewrite Z by auto. cbn. lra.
    + rewrite T by auto. destruct (existsb (Nat.eqb 4) e) eqn:E4; [apply has4_tdeg in E4; lia|]. cbn in E4 |- *. rewrite E4. lra.
  - assert (Ht : tdeg e = 0%nat) by (destruct (tdeg e) as [|[|t]]; auto; simpl in Hev; try discriminate; lia).
    rewrite Ht. rewrite Z by auto. cbn. lra.
Qed.

Lemma two_sign r a : r ^ a + (- r) ^ a = 2 * (if Nat.even a then (r * r) ^ (a / 2) else 0).
Proof.
  destruct (Nat.Even_Odd_dec a) as [[b ->]|[b ->]].
  - replace (Nat.even (2 * b)) with true by (symmetry; apply Nat.even_spec; exists b; auto).
    rewrite Nat.mul_comm, Nat.div_mul by lia. rewrite Nat.mul_comm, !pow_mult. replace ((- r) ^ 2) with (r ^ 2) by ring.
    replace (r * r) with (r ^ 2) by ring. ring.
  - replace (Nat.even (2 * b + 1)) with false.
    2: { rewrite <- Nat.negb_odd. replace (Nat.odd (2 * b + 1)) with true; auto. symmetry. apply Nat.odd_spec. exists b. auto. }
    rewrite !pow_add, !pow_mult. replace ((- r) ^ 2) with (r ^ 2) by ring. ring.
Qed.

Lemma sign_prod s e : s * s = 1/3 -> Rprod (map (fun b => s ^ b + (- s) ^ b) e) = 2 ^ length e * spart e.
Proof.
  intros Hs. induction e as [|a e IH].
  { unfold spart. cbn. lra. }
  cbn [map Rprod length]. rewrite IH, two_sign, Hs. unfold spart. cbn [existsb]. rewrite tdeg_cons.
  rewrite <- (Nat.negb_odd a). destruct (Nat.odd a) eqn:Ha; cbn [negb orb].
  { ring. }
  destruct (existsb Nat.odd e) eqn:Ho; cbn [pow]; [ring|].
  assert (Hev := even_tdeg e Ho). rewrite <- Nat.negb_even in Ha. apply negb_false_iff in Ha.
  apply Nat.even_spec in Ha. destruct Ha as [b ->]. apply Nat.even_spec in Hev. destruct Hev as [c E]. rewrite E.
  replace (2 * b + 2 * c)%nat with ((b + c) * 2)%nat by lia. rewrite (Nat.mul_comm 2 b), (Nat.mul_comm 2 c).
  rewrite !Nat.div_mul by lia. rewrite pow_add. ring.
Qed.

Lemma face_rows_sum n k r s e0 a e : (1 <= k)%nat -> length e0 = (k - 1)%nat -> (length e + k)%nat = n ->
  Rsum (map (mono (e0 ++ a :: e)) (stroud_1966_b_rows n k r s)) =
  0 ^ tdeg e0 * ((r ^ a + (- r) ^ a) * Rprod (map (fun b => s ^ b + (- s) ^ b) e)).
Proof.
  intros Hk H0 He. unfold stroud_1966_b_rows. rewrite map_map. replace (n - k + 1)%nat with (S (length e)) by lia.
  unfold Rpm, pm. rewrite map_rep, Reqz_false by lra.
  rewrite (Rsum_map_ext _ (fun t => 0 ^ tdeg e0 *
    zipprod ((fun x => (x * r) ^ a) :: map (fun b x => (x * s) ^ b) e) t)).
  2: { intros t Ht. apply in_product in Ht. apply Forall2_len in Ht. rewrite repeat_length in Ht.
       rewrite mono_app by (rewrite repeat_length; auto). rewrite mono_repeat by auto. f_equal.
       destruct t as [|x t]; [discriminate|]. simpl in Ht. cbn [mono zipprod]. f_equal.
       assert (L : length e = length t) by lia. clear -L. revert t L.
       induction e as [|b e IH]; intros [|y t] L; simpl in *; try discriminate; auto. rewrite IH by lia. auto. }
  rewrite Rsum_map_scal. f_equal.
  replace (S (length e)) with (length ((fun x => (x * r) ^ a) :: map (fun b x => (x * s) ^ b) e))
    by (simpl; rewrite map_length; auto).
  rewrite tensor_sum. cbn [map Rsum Rprod]. rewrite map_map. f_equal.
  { replace (1 * r) with r by ring. replace (- (1) * r) with (- r) by ring. ring. }
  f_equal. apply map_ext. intros b. cbn [map Rsum].
  replace (1 * s) with s by ring. replace (- (1) * s) with (- s) by ring. ring.
Qed.

Definition data_sum (data : list (R * list point)) (f : point -> R) : R :=
  Rsum (map (fun g => fst g * Rsum (map f (snd g))) data).
Lemma apply_untangle data f : apply (mk_rule (untangle data)) f = data_sum data f.
Proof.
  rewrite mk_rule_untangle. unfold apply, data_sum. rewrite Rsum_map_flat_map. apply Rsum_map_ext.
  intros g _. rewrite map_map. cbn [fst snd]. rewrite Rsum_map_scal. auto.
Qed.

Lemma face_data n s m : s * s = 1/3 -> forall k e0 e, (1 <= k)%nat -> (k + m = n + 1)%nat ->
  exists data, stroud_1966_b_data n s (seq k m) = Some data /\
  Forall (fun g => Forall (fun p => length p = n) (snd g)) data /\
  (length e = m -> length e0 = (k - 1)%nat -> (tdeg e <= 5)%nat ->
   data_sum data (mono (e0 ++ e)) + 4 / (5 * INR n + 4) * 0 ^ tdeg (e0 ++ e) = 0 ^ tdeg e0 * face_mom (INR k) e).
Proof.
  intros Hs. induction m as [|m IH]; intros k e0 e Hk1 Hkm.
  { exists []. split; auto. split; auto. intros He H0 _. destruct e; [|discriminate]. rewrite app_nil_r.
    unfold data_sum, face_mom. cbn [map Rsum existsb tdeg list_sum fold_right].
    replace k with (n + 1)%nat by lia. rewrite plus_INR. cbn [INR].
    replace (5 * (INR n + 1) - 1) with (5 * INR n + 4) by ring.
    change (match tdeg [] with 0%nat => 4 / (5 * INR n + 4) | _ => 0 end) with (4 / (5 * INR n + 4)).
    cbn. ring. }
  cbn [seq stroud_1966_b_data].
  assert (Pk : 1 <= INR k) by (apply (le_INR 1); auto).
  destruct e as [|a e].
  { destruct (IH (S k) [] [] ltac:(lia) ltac:(lia)) as [rest [E [F _]]].
    rewrite rsqrt_ok by lra. rewrite E. cbn [bind]. eexists. split; [reflexivity|]. split; [|discriminate].
    constructor; [|exact F]. cbn [snd]. unfold stroud_1966_b_rows. apply Forall_map, Forall_forall. intros row Hr.
    unfold Rpm, pm in Hr. apply in_product in Hr. apply Forall2_len in Hr. rewrite map_length, repeat_length in Hr.
    destruct row as [|h t]; simpl in Hr; [lia|]. rewrite app_length, repeat_length. cbn [length]. rewrite map_length. lia. }
  destruct (IH (S k) (e0 ++ [a]) e ltac:(lia) ltac:(lia)) as [rest [E [F G]]].
  assert (Pq : 0 <= (5 * INR k + 4) / 15) by lra.
  rewrite rsqrt_ok by auto. assert (Qr := sqrt_sqrt _ Pq). set (r := sqrt ((5 * INR k + 4) / 15)) in *.
  rewrite E. cbn [bind]. eexists. split; [reflexivity|]. split.
  { constructor; [|exact F]. cbn [snd]. unfold stroud_1966_b_rows. apply Forall_map, Forall_forall. intros row Hr.
    unfold Rpm, pm in Hr. apply in_product in Hr. apply Forall2_len in Hr. rewrite map_length, repeat_length in Hr.
    destruct row as [|h t]; simpl in Hr; [lia|]. rewrite app_length, repeat_length. cbn [length]. rewrite map_length. lia. }
  intros He H0 Hd. cbn [length] in He. rewrite tdeg_cons in Hd.
  rewrite app_length in G. cbn [length] in G. specialize (G ltac:(lia) ltac:(lia) ltac:(lia)).
  rewrite <- app_assoc in G. cbn [app] in G.
  unfold data_sum in *. cbn [map Rsum fst snd]. rewrite face_rows_sum by lia.
  rewrite Rplus_assoc, G. rewrite two_sign, sign_prod, Qr by auto.
  rewrite tdeg_app. change (tdeg [a]) with (a + 0)%nat. rewrite Nat.add_0_r, pow_add.
  rewrite <- face_mom_step by (auto; lra). rewrite S_INR.
  assert (P2 : 2 ^ n = 2 ^ length e * 2 ^ k) by (rewrite <- pow_add; f_equal; lia).
  rewrite P2, pow_add. assert (2 ^ k <> 0) by apply pow2_nz. assert (2 ^ length e <> 0) by apply pow2_nz.
  field. split; [lra|]. split; [lra|]. split; auto.
Qed.

Theorem stroud_1966_b_exact n : (1 <= n)%nat -> cube_scheme n 5 (stroud_1966_b n).
Proof.
  intros Hn. unfold stroud_1966_b. apply bind_sqrt; [lra|]. intros s3 Hs3 E3.
  assert (Hs : (1 / s3) * (1 / s3) = 1/3).
  { assert (s3 <> 0) by (intros ->; lra). replace (1 / s3 * (1 / s3)) with (1 / (s3 * s3)) by (field; auto). rewrite E3. auto. }
  set (s := 1 / s3) in *.
  destruct (face_data n s n Hs 1 [] [] ltac:(lia) ltac:(lia)) as [data [E [F _]]].
  rewrite E. cbn [bind]. eexists. split; [reflexivity|]. cbn [s_dim s_degree s_rule from_data].
  split; auto. split; auto. split.
  - unfold points_in_dim. rewrite mk_rule_untangle. apply Forall_forall. intros wp Hw.
    apply in_flat_map in Hw. destruct Hw as [g [Hg Hw]]. apply in_map_iff in Hw. destruct Hw as [p [<- Hp]]. cbn [snd].
    destruct Hg as [<-|Hg].
    + cbn in Hp. destruct Hp as [<-|[]]. apply repeat_length.
    + rewrite Forall_forall in F. specialize (F g Hg). rewrite Forall_forall in F. auto.
  - intros k Hk Hd. rewrite apply_untangle.
    destruct (face_data n s n Hs 1 [] k ltac:(lia) ltac:(lia)) as [data' [E' [_ G]]].
    rewrite E in E'. injection E' as <-. specialize (G Hk eq_refl Hd). cbn [app] in G.
    unfold data_sum in *. cbn [map Rsum fst snd Rz z]. rewrite mono_repeat by auto. rewrite Rplus_0_r.
    rewrite Rplus_comm, G. unfold tdeg at 1. cbn [list_sum fold_right pow]. rewrite Rmult_1_l. cbn [INR].
    rewrite face_mom_1 by auto. unfold cubeI. rewrite cube_mean_mono; auto.
Qed.
