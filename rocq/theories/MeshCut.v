(** The integral over a simplex is the sum of those over the parts into which it is cut (C91), continued. *)
From Coq Require Import Reals List Arith ZArith Lia Lra Permutation.
From Coquelicot Require Import Coquelicot.
From Verif Require Import Spec Spec1 RsumLemmas IntegralSpec IntegralProofs IntegralProofs2 IntegralPoly PyBase OrbitModel
  GeomModel GeomProofs SimplexVol SimplexInt RoundProofs TnModel2 PolyFun ConvSpec ConvNdSpec Weier WeierNd IterInt ConvNdExt ConvNdProofs ConvNdGeom PropConvNd MeshSpec MeshProofs MeshSimplex.
Import ListNotations.
Set Bullet Behavior "Strict Subproofs".
Open Scope R_scope.
Local Notation length := List.length.

(** the barycentric coordinates, with respect to the whole simplex, of a point of the part at the first and of the part at the last vertex *)
Definition TA (t : R) (l : point) : point := (hd 0 l + (1 - t) * last l 0) :: addlast 0 t (tl l).
Definition TB (t : R) (l : point) : point := ((1 - t) * hd 0 l) :: addlast (t * hd 0 l) 1 (tl l).
Lemma Rsum_addlast c s x : x <> [] -> Rsum (addlast c s x) = Rsum x + (s - 1) * last x 0 + c.
Proof. induction x as [|y [|z x] IH]; intros H; [congruence|cbn; ring|]. rewrite addlast_cons by discriminate. cbn [Rsum]. rewrite IH by discriminate. change (last (y :: z :: x) 0) with (last (z :: x) 0). cbn [Rsum]. ring. Qed.
Lemma Forall_addlast c s x : 0 <= c -> 0 <= s -> List.Forall (fun t => 0 <= t) x -> List.Forall (fun t => 0 <= t) (addlast c s x).
Proof. intros Hc Hs F. induction F as [|y x Hy F IH]; [constructor|]. destruct x as [|z x]; [constructor; [pose proof (Rmult_le_pos s y Hs Hy); lra|constructor]|]. rewrite addlast_cons by discriminate. constructor; auto. Qed.
Lemma last_ge0 x : List.Forall (fun t => 0 <= t) x -> 0 <= last x 0.
Proof. intros F. induction F as [|y [|z x] Hy F IH]; cbn [last] in *; try lra; auto. Qed.
Lemma TA_bary t n l : 0 <= t <= 1 -> in_bary (S n) l -> in_bary (S n) (TA t l).
Proof.
  intros Ht (L & F & S). destruct l as [|a [|b l]]; try discriminate. inversion F as [|? ? Ha F']; subst. unfold TA. cbn [hd tl]. change (last (a :: b :: l) 0) with (last (b :: l) 0). pose proof (last_ge0 _ F'). split; [|split].
  - cbn [length]. rewrite addlast_len. cbn in *. lia.
  - constructor; [|apply Forall_addlast; auto; lra]. apply Rplus_le_le_0_compat; [exact Ha|apply Rmult_le_pos; lra].
  - cbn [Rsum] in S |- *. rewrite Rsum_addlast by discriminate. cbn [Rsum]. lra.
Qed.
Lemma TB_bary t n l : 0 <= t <= 1 -> in_bary (S n) l -> in_bary (S n) (TB t l).
Proof.
  intros Ht (L & F & S). destruct l as [|a [|b l]]; try discriminate. inversion F as [|? ? Ha F']; subst. unfold TB. cbn [hd tl]. split; [|split].
  - cbn [length]. rewrite addlast_len. cbn in *. lia.
  - constructor; [apply Rmult_le_pos; lra|apply Forall_addlast; auto; [apply Rmult_le_pos; lra|lra]].
  - cbn [Rsum] in S |- *. rewrite Rsum_addlast by discriminate. cbn [Rsum]. lra.
Qed.
Lemma last_nth (x : list R) : forall n, length x = S n -> last x 0 = nth n x 0.
Proof. induction x as [|y [|z x] IH]; intros [|n] H; try discriminate; auto. change (last (y :: z :: x) 0) with (last (z :: x) 0). cbn [nth]. apply IH. cbn in H |- *. lia. Qed.
Lemma polyfun_cons n d p (c : point -> R) (T : point -> point) (L : list (point -> R)) : polyfun n 1 c -> length L = pred n -> List.Forall (polyfun n 1) L -> (forall x, length x = n -> T x = map (fun l => l x) L) -> (1 <= n)%nat ->
  polyfun n d p -> polyfun n d (fun x => p (c x :: T x)).
Proof.
  intros Hc HL FL E Hn Hp. apply (polyfun_ext _ _ (fun x => p (map (fun l => l x) (c :: L)))); [intros x Hx; cbn [map]; rewrite E by exact Hx; reflexivity|]. apply (polyfun_comp _ n); [cbn; lia|constructor; auto|exact Hp].
Qed.
Definition coords (n : nat) (s : R) (c : point -> R) : list (point -> R) := map (fun i x => if (S (S i) =? n)%nat then s * nth (S i) x 0 + c x else nth (S i) x 0) (seq 0 (pred n)).
Lemma coords_ok n s c : polyfun n 1 c -> length (coords n s c) = pred n /\ List.Forall (polyfun n 1) (coords n s c) /\ (forall x, length x = n -> addlast (c x) s (tl x) = map (fun l => l x) (coords n s c)).
Proof.
  intros Hc. unfold coords. split; [rewrite map_length, seq_length; reflexivity|]. split.
  - apply List.Forall_forall. intros g Hg. apply in_map_iff in Hg. destruct Hg as (i & <- & Hi). apply in_seq in Hi. destruct (S (S i) =? n)%nat; [apply polyfun_add; [apply polyfun_scal|exact Hc]|]; apply polyfun_coord; lia.
  - intros x Hx. rewrite map_map. generalize (c x). intros r. clear - Hx. destruct x as [|a x]; [subst; reflexivity|]. cbn [tl nth] in *. subst n. cbn [length pred]. induction x as [|y x IH]; [reflexivity|]. cbn [length seq map].
    rewrite <- seq_shift, map_map. destruct x as [|z x]; [reflexivity|]. rewrite addlast_cons by discriminate. rewrite IH. reflexivity.
Qed.
Lemma polyfun_TA t n d p : polyfun (S (S n)) d p -> polyfun (S (S n)) d (fun x => p (TA t x)).
Proof.
  intros Hp. assert (Hc : polyfun (S (S n)) 1 (fun _ => 0)) by apply polyfun_const. destruct (coords_ok (S (S n)) t (fun _ => 0) Hc) as (A & B & C). unfold TA.
  apply (polyfun_cons (S (S n)) d p (fun x => hd 0 x + (1 - t) * last x 0) (fun x => addlast 0 t (tl x)) (coords (S (S n)) t (fun _ => 0))); [|exact A|exact B|exact C|lia|exact Hp].
  apply (polyfun_ext _ _ (fun x => nth 0 x 0 + (1 - t) * nth (S n) x 0)); [intros x Hx; rewrite (last_nth x (S n) Hx); destruct x; reflexivity|]. apply polyfun_add; [|apply polyfun_scal]; apply polyfun_coord; lia.
Qed.
Lemma polyfun_hd n t : polyfun (S n) 1 (fun x => t * hd 0 x).
Proof. apply polyfun_scal. apply (polyfun_ext _ _ (fun x => nth 0 x 0)); [intros [|a x] _; reflexivity|]. apply polyfun_coord. lia. Qed.
Lemma polyfun_TB t n d p : polyfun (S (S n)) d p -> polyfun (S (S n)) d (fun x => p (TB t x)).
Proof.
  intros Hp. destruct (coords_ok (S (S n)) 1 (fun x => t * hd 0 x) (polyfun_hd _ _)) as (A & B & C). unfold TB.
  apply (polyfun_cons (S (S n)) d p (fun x => (1 - t) * hd 0 x) (fun x => addlast (t * hd 0 x) 1 (tl x)) (coords (S (S n)) 1 (fun x => t * hd 0 x))); [apply polyfun_hd|exact A|exact B|exact C|lia|exact Hp].
Qed.
Lemma close_addlast d e c c' s y x : 0 <= s <= 1 -> 0 < e -> Rabs (c - c') < e -> close d y x -> close (d + e) (addlast c s y) (addlast c' s x).
Proof.
  intros Hs He Hc H. induction H as [|a b y x Hab H IH]; [constructor|]. pose proof (Rabs_pos (a - b)). inversion H; subst.
  - cbn [addlast]. constructor; [|constructor]. replace (s * a + c - (s * b + c')) with (s * (a - b) + (c - c')) by ring. eapply Rle_lt_trans; [apply Rabs_triang|]. rewrite Rabs_mult, (Rabs_right s) by lra. nra.
  - rewrite !addlast_cons by discriminate. constructor; [lra|exact IH].
Qed.
Lemma close_last d y x : 0 < d -> close d y x -> Rabs (last y 0 - last x 0) < d.
Proof. intros Hd H. induction H as [|a b y x Hab H IH]; [cbn; rewrite Rminus_0_r, Rabs_R0; exact Hd|]. inversion H; subst; [exact Hab|exact IH]. Qed.
Lemma close_hd d y x : 0 < d -> close d y x -> Rabs (hd 0 y - hd 0 x) < d.
Proof. intros Hd H. inversion H; subst; [cbn; rewrite Rminus_0_r, Rabs_R0; exact Hd|assumption]. Qed.
Lemma close_tl d y x : close d y x -> close d (tl y) (tl x).
Proof. intros H. inversion H; subst; [constructor|assumption]. Qed.
Lemma map_cont_TA t D : 0 <= t <= 1 -> map_cont D (TA t).
Proof.
  intros Ht x _ eps He. exists (eps / 2). split; [lra|]. intros y _ Hc. pose proof (close_hd (eps / 2) y x ltac:(lra) Hc). pose proof (close_last (eps / 2) y x ltac:(lra) Hc) as K. unfold TA. constructor.
  - replace (hd 0 y + (1 - t) * last y 0 - (hd 0 x + (1 - t) * last x 0)) with ((hd 0 y - hd 0 x) + (1 - t) * (last y 0 - last x 0)) by ring. eapply Rle_lt_trans; [apply Rabs_triang|]. rewrite Rabs_mult, (Rabs_right (1 - t)) by lra. pose proof (Rabs_pos (last y 0 - last x 0)). nra.
  - replace eps with (eps / 2 + eps / 2) by field. apply close_addlast; [exact Ht|lra|rewrite Rminus_eq_0, Rabs_R0; lra|apply close_tl; exact Hc].
Qed.
Lemma map_cont_TB t D : 0 <= t <= 1 -> map_cont D (TB t).
Proof.
  intros Ht x _ eps He. exists (eps / 2). split; [lra|]. intros y _ Hc. pose proof (close_hd (eps / 2) y x ltac:(lra) Hc) as K. pose proof (Rabs_pos (hd 0 y - hd 0 x)). unfold TB. constructor.
  - rewrite <- Rmult_minus_distr_l, Rabs_mult, (Rabs_right (1 - t)) by lra. assert ((1 - t) * Rabs (hd 0 y - hd 0 x) <= 1 * Rabs (hd 0 y - hd 0 x)) by (apply Rmult_le_compat_r; lra). lra.
  - replace eps with (eps / 2 + eps / 2) by field. apply close_addlast; [lra|lra| |apply close_tl; exact Hc]. rewrite <- Rmult_minus_distr_l, Rabs_mult, (Rabs_right t) by lra. assert (t * Rabs (hd 0 y - hd 0 x) <= 1 * Rabs (hd 0 y - hd 0 x)) by (apply Rmult_le_compat_r; lra). lra.
Qed.
Lemma simplex_mean_cut t n f : 0 <= t <= 1 -> continuous_in (in_bary (S n)) f ->
  simplex_mean (S n) f = t * simplex_mean (S n) (fun l => f (TA t l)) + (1 - t) * simplex_mean (S n) (fun l => f (TB t l)).
Proof.
  intros Ht C. rewrite (mean_combination (in_bary (S n)) (S (S n)) (simplex_mean (S n)) [(t, TA t); (1 - t, TB t)] (simplex_mean_on (S n))) with (f := f); [cbn [map Rsum fst snd]; ring| | |exact C].
  - intros c T [E|[E|[]]]; injection E as <- <-; (split; [lra|]).
    + split; [intros x; apply TA_bary; exact Ht|]. split; [apply map_cont_TA; exact Ht|apply polyfun_TA].
    + split; [intros x; apply TB_bary; exact Ht|]. split; [apply map_cont_TB; exact Ht|apply polyfun_TB].
  - intros d p Pp. cbn [map Rsum fst snd]. unfold simplex_mean.
    rewrite (simplex_int_cut t n Ht 1 d (fun x => p ((1 - Rsum x) :: x)) ltac:(lra) (polyfun_bary (S n) d p Pp)).
    match goal with |- _ * (t * ?a + (1 - t) * ?b) = t * (_ * ?c) + ((1 - t) * (_ * ?e) + 0) => replace a with c; [replace b with e; [ring|]|] end.
    + apply simplex_int_ext. intros x Hx. f_equal. unfold TB. cbn [hd tl]. f_equal. destruct x; [discriminate|]. rewrite Rsum_addlast by discriminate. ring.
    + apply simplex_int_ext. intros x Hx. f_equal. unfold TA. cbn [hd tl]. f_equal. destruct x as [|y x]; [discriminate|]. rewrite Rsum_addlast by discriminate. change (last ((1 - Rsum (y :: x)) :: y :: x) 0) with (last (y :: x) 0). ring.
Qed.

(* ------------------------------------------------------------------ the geometry of a cut *)
Lemma between_len t u v : length u = length v -> length (between t u v) = length v.
Proof. intros H. unfold between. rewrite map_length, combine_length. lia. Qed.
Lemma nth_between t u : forall v k, length u = length v -> nth k (between t u v) 0 = (1 - t) * nth k u 0 + t * nth k v 0.
Proof. unfold between. induction u as [|a u IH]; intros [|b v] [|k] H; try discriminate; cbn [List.combine map nth fst snd]; try ring. apply IH. cbn in H. lia. Qed.
Lemma addlast_app c s x y : addlast c s (x ++ [y]) = x ++ [s * y + c].
Proof. induction x as [|z x IH]; [reflexivity|]. cbn [app]. rewrite addlast_cons by (destruct x; discriminate). rewrite IH. reflexivity. Qed.
Lemma split_bary n (l : point) : length l = S (S n) -> exists a mid b, l = a :: mid ++ [b] /\ length mid = n.
Proof.
  intros H. destruct l as [|a l]; [discriminate|]. destruct (exists_last (l := l)) as (mid & b & ->); [destruct l; discriminate|]. exists a, mid, b. split; [reflexivity|]. cbn in H. rewrite app_length in H. cbn in H. lia.
Qed.
Lemma combine_app1 {A B} (x : list A) (y : list B) a b : length x = length y -> List.combine (x ++ [a]) (y ++ [b]) = List.combine x y ++ [(a, b)].
Proof. revert y. induction x as [|c x IH]; intros [|d y] H; try discriminate; [reflexivity|]. cbn. rewrite IH by (cbn in H; lia). reflexivity. Qed.
Lemma last_app1 (x : list R) a : last (x ++ [a]) 0 = a.
Proof. induction x as [|b x IH]; [reflexivity|]. cbn [app]. destruct (x ++ [a]) eqn:E; [destruct x; discriminate|]. rewrite <- E in *. change (last (b :: x ++ [a]) 0) with (match x ++ [a] with [] => b | _ => last (x ++ [a]) 0 end). rewrite E in *. exact IH. Qed.
Lemma bary_map_TA n t u v rest l : simplex_ok (S n) (u :: rest ++ [v]) -> length l = S (S n) -> bary_map (u :: rest ++ [between t u v]) l = bary_map (u :: rest ++ [v]) (TA t l).
Proof.
  intros [LV FV] Hl. destruct (split_bary n l Hl) as (a & mid & b & -> & Hm). assert (Hr : length rest = n) by (cbn in LV; rewrite app_length in LV; cbn in LV; lia).
  inversion FV as [|? ? Hu F']; subst. apply Forall_app in F'. destruct F' as [_ Fv]. inversion Fv; subst. unfold bary_map. cbn [hd]. apply map_ext. intros k. unfold TA. cbn [hd tl]. change (last (a :: mid ++ [b]) 0) with (last ((a :: mid) ++ [b]) 0). rewrite last_app1, addlast_app. cbn [List.combine].
  rewrite !combine_app1 by lia. cbn [map Rsum]. rewrite !map_app, !Rsum_app. cbn [map Rsum fst snd]. rewrite nth_between by congruence. ring.
Qed.
Lemma bary_map_TB n t u v rest l : simplex_ok (S n) (u :: rest ++ [v]) -> length l = S (S n) -> bary_map (between t u v :: rest ++ [v]) l = bary_map (u :: rest ++ [v]) (TB t l).
Proof.
  intros [LV FV] Hl. destruct (split_bary n l Hl) as (a & mid & b & -> & Hm). assert (Hr : length rest = n) by (cbn in LV; rewrite app_length in LV; cbn in LV; lia).
  inversion FV as [|? ? Hu F']; subst. apply Forall_app in F'. destruct F' as [_ Fv]. inversion Fv; subst. unfold bary_map. cbn [hd]. rewrite between_len by congruence. replace (length v) with (length u) by congruence. apply map_ext. intros k. unfold TB. cbn [hd tl]. rewrite addlast_app. cbn [List.combine].
  rewrite !combine_app1 by lia. cbn [map Rsum]. rewrite !map_app, !Rsum_app. cbn [map Rsum fst snd]. rewrite nth_between by congruence. ring.
Qed.
Lemma det_scale_first n r r' rows c : (1 <= n)%nat -> (forall j, nth j r' 0 = c * nth j r 0) -> det n (r' :: rows) = c * det n (r :: rows).
Proof. intros Hn H. destruct n as [|n]; [lia|]. cbn [det]. rewrite <- Rsum_map_scal. apply Rsum_map_ext. intros j _. rewrite H. ring. Qed.
Lemma simplex_vol_A n t u v rest : simplex_ok (S n) (u :: v :: rest) -> 0 <= t -> simplex_vol (S n) (u :: between t u v :: rest) = t * simplex_vol (S n) (u :: v :: rest).
Proof.
  intros [LV FV] Ht. inversion FV as [|? ? Hu F']; subst. inversion F' as [|? ? Hv F2]; subst. unfold simplex_vol, edges. cbn [hd tl map]. rewrite (det_scale_first (S n) (vsub v u) (vsub (between t u v) u) _ t); [rewrite Rabs_mult, (Rabs_right t) by lra; unfold Rdiv; apply Rmult_assoc|lia|].
  intros j. rewrite !nth_vsub by (rewrite ?between_len by congruence; congruence). change R0 with 0. rewrite nth_between by congruence. ring.
Qed.
Lemma between_sym t u v : length u = length v -> between t u v = between (1 - t) v u.
Proof. unfold between. revert v. induction u as [|a u IH]; intros [|b v] H; try discriminate; [reflexivity|]. cbn. f_equal; [ring|]. apply IH. cbn in H. lia. Qed.
Lemma ok_cut n t u v rest : simplex_ok n (u :: v :: rest) -> simplex_ok n (u :: between t u v :: rest) /\ simplex_ok n (between t u v :: v :: rest).
Proof.
  intros [LV FV]. inversion FV as [|? ? Hu F']; subst. inversion F' as [|? ? Hv F2]; subst. assert (length (between t u v) = length u) by (rewrite between_len; congruence). split; (split; [exact LV|]); repeat constructor; auto; congruence.
Qed.
Lemma simplex_vol_B n t u v rest : simplex_ok (S n) (u :: v :: rest) -> t <= 1 -> simplex_vol (S n) (between t u v :: v :: rest) = (1 - t) * simplex_vol (S n) (u :: v :: rest).
Proof.
  intros O Ht. destruct (ok_cut (S n) t u v rest O) as [_ OB]. assert (Luv : length u = length v) by (destruct O as [_ F]; inversion F as [|? ? Hu F']; subst; inversion F'; subst; congruence).
  assert (O' : simplex_ok (S n) (v :: u :: rest)) by (apply (simplex_ok_perm _ (u :: v :: rest)); [apply perm_swap|exact O]).
  rewrite (simplex_vol_perm (S n) _ (v :: between t u v :: rest) (perm_swap _ _ _) OB), (between_sym t u v Luv), simplex_vol_A by (auto; lra). f_equal. apply simplex_vol_perm; [apply perm_swap|exact O'].
Qed.
Lemma to_end {A} (u v : A) rest : Permutation (u :: v :: rest) (u :: rest ++ [v]).
Proof. constructor. apply Permutation_cons_append. Qed.
Lemma in_simplex_map n V x : simplex_ok n V -> (in_simplex n V x <-> exists l, in_bary n l /\ x = bary_map V l).
Proof. intros O. unfold in_simplex, bary_map. rewrite (hd_len n V O). reflexivity. Qed.
Lemma in_simplex_cut n t u v rest x : simplex_ok n (u :: v :: rest) -> 0 <= t <= 1 -> in_simplex n (u :: between t u v :: rest) x \/ in_simplex n (between t u v :: v :: rest) x -> in_simplex n (u :: v :: rest) x.
Proof.
  intros O Ht. assert (exists m, n = S m) as [m ->] by (destruct O as [L _]; cbn in L; exists (n - 1)%nat; lia). destruct (ok_cut _ t u v rest O) as [OA OB]. intros H.
  apply (in_simplex_perm (S m) (u :: rest ++ [v])); [apply Permutation_sym, to_end|apply (simplex_ok_perm _ _ _ (to_end u v rest) O)|].
  pose proof (simplex_ok_perm _ _ _ (to_end u v rest) O) as O'. apply (in_simplex_map (S m)); [exact O'|]. destruct H as [H|H].
  - apply (in_simplex_perm _ _ _ x (to_end _ _ _) OA) in H. apply in_simplex_map in H; [|apply (simplex_ok_perm _ _ _ (to_end _ _ _) OA)]. destruct H as (l & B & ->). exists (TA t l). split; [apply TA_bary; auto|apply bary_map_TA with (n := m); auto]. apply B.
  - apply (in_simplex_perm _ _ _ x (to_end _ _ _) OB) in H. apply in_simplex_map in H; [|apply (simplex_ok_perm _ _ _ (to_end _ _ _) OB)]. destruct H as (l & B & ->). exists (TB t l). split; [apply TB_bary; auto|apply bary_map_TB with (n := m); auto]. apply B.
Qed.
Lemma simplex_integral_cut n t u v rest f : simplex_ok n (u :: v :: rest) -> 0 <= t <= 1 -> continuous_in (in_simplex n (u :: v :: rest)) f ->
  simplex_integral n (u :: v :: rest) f = simplex_integral n (u :: between t u v :: rest) f + simplex_integral n (between t u v :: v :: rest) f.
Proof.
  intros O Ht C. assert (exists m, n = S m) as [m ->] by (destruct O as [L _]; cbn in L; exists (n - 1)%nat; lia). destruct (ok_cut _ t u v rest O) as [OA OB].
  assert (CA : continuous_in (in_simplex (S m) (u :: between t u v :: rest)) f) by (apply (continuous_sub _ (in_simplex (S m) (u :: v :: rest))); [intros x Hx; eapply in_simplex_cut; eauto|exact C]).
  assert (CB : continuous_in (in_simplex (S m) (between t u v :: v :: rest)) f) by (apply (continuous_sub _ (in_simplex (S m) (u :: v :: rest))); [intros x Hx; eapply in_simplex_cut; eauto|exact C]).
  pose proof (simplex_ok_perm _ _ _ (to_end u v rest) O) as O'. pose proof (simplex_ok_perm _ _ _ (to_end _ _ _) OA) as OA'. pose proof (simplex_ok_perm _ _ _ (to_end _ _ _) OB) as OB'.
  rewrite (simplex_integral_perm _ _ _ f (to_end u v rest) O C), (simplex_integral_perm _ _ _ f (to_end _ _ _) OA CA), (simplex_integral_perm _ _ _ f (to_end _ _ _) OB CB).
  rewrite !simplex_change by (apply O' || apply OA' || apply OB').
  change (Rabs (det (S m) (edges (u :: rest ++ [v]))) / INR (fact (S m))) with (simplex_vol (S m) (u :: rest ++ [v])).
  change (Rabs (det (S m) (edges (u :: rest ++ [between t u v]))) / INR (fact (S m))) with (simplex_vol (S m) (u :: rest ++ [between t u v])).
  change (Rabs (det (S m) (edges (between t u v :: rest ++ [v]))) / INR (fact (S m))) with (simplex_vol (S m) (between t u v :: rest ++ [v])).
  rewrite <- (simplex_vol_perm _ _ _ (to_end u v rest) O), <- (simplex_vol_perm _ _ _ (to_end _ _ _) OA), <- (simplex_vol_perm _ _ _ (to_end _ _ _) OB), simplex_vol_A, simplex_vol_B by (auto; lra).
  rewrite (simplex_mean_cut t m (fun l => f (bary_map (u :: rest ++ [v]) l)) Ht).
  - match goal with |- ?w * (t * ?a + (1 - t) * ?b) = t * ?w * ?a' + (1 - t) * ?w * ?b' => replace a' with a; [replace b' with b; [ring|]|] end.
    + apply simplex_mean_fext. intros l Hl. rewrite (bary_map_TB m) by auto. reflexivity.
    + apply simplex_mean_fext. intros l Hl. rewrite (bary_map_TA m) by auto. reflexivity.
  - apply simplex_cont; [apply O'|apply O'|]. apply (continuous_sub _ (in_simplex (S m) (u :: v :: rest))); [|exact C]. intros x. apply in_simplex_perm; [apply Permutation_sym, to_end|exact O'].
Qed.
(** *** meshes *)
Lemma mesh_simplices n V m : simplices_of V m -> simplex_ok n V ->
  Rsum (map (simplex_vol n) m) = simplex_vol n V /\ List.Forall (fun c => simplex_ok n c /\ forall x, in_simplex n c x -> in_simplex n V x) m /\
  forall f, continuous_in (in_simplex n V) f -> Rsum (map (fun c => simplex_integral n c f) m) = simplex_integral n V f.
Proof.
  intros S. induction S as [V|V V' m P S IH|u v rest t m1 m2 Ht S1 IH1 S2 IH2]; intros O.
  - split; [cbn; ring|]. split; [constructor; [auto|constructor]|]. intros f _. cbn. ring.
  - pose proof (simplex_ok_perm _ _ _ P O) as O'. destruct (IH O') as (A & B & I). split; [rewrite A; symmetry; apply simplex_vol_perm; auto|]. split.
    + eapply Forall_impl; [|exact B]. intros c [Oc Ic]. split; [exact Oc|]. intros x Hx. apply (in_simplex_perm n V'); [apply Permutation_sym; exact P|exact O'|auto].
    + intros f C. rewrite I; [symmetry; apply simplex_integral_perm; auto|]. apply (continuous_sub _ (in_simplex n V)); [|exact C]. intros x. apply in_simplex_perm; [apply Permutation_sym; exact P|exact O'].
  - destruct (ok_cut n t u v rest O) as [OA OB]. destruct (IH1 OA) as (A1 & B1 & I1), (IH2 OB) as (A2 & B2 & I2). assert (exists k, n = S k) as [k ->] by (destruct O as [L _]; cbn in L; exists (n - 1)%nat; lia). split; [|split].
    + rewrite map_app, Rsum_app, A1, A2, simplex_vol_A, simplex_vol_B by (auto; lra). ring.
    + apply Forall_app. split; (eapply Forall_impl; [|eassumption]); intros c [Oc Ic]; (split; [exact Oc|]); intros x Hx; eapply in_simplex_cut; eauto.
    + intros f C. rewrite map_app, Rsum_app, I1, I2; [symmetry; apply simplex_integral_cut; auto| |]; (apply (continuous_sub _ (in_simplex (S k) (u :: v :: rest))); [intros x Hx; eapply in_simplex_cut; eauto|exact C]).
Qed.
