(** C87: schemes built from symmetry data have the symmetry, for all data.
    [fixes g q]: the map g permutes the points of the rule q and keeps their weights.  [flip ss (permute sigma p)] (OrbitSpec.v) changes the
    signs of the coordinates where ss is true after permuting them. *)
From Coq Require Import Reals List Arith Lia Lra Permutation Bool String.
From Verif Require Import Spec OrbitSpec RsumLemmas CombModel PyBase SymmModel OrbitModel SchemeTools SymmProofs OrbitProofs OrbitProofs2.
From Verif Require Import C2Model C3Model S2Model S3Model T2Model T3Model U3Model E23Model.
Import ListNotations.
Set Bullet Behavior "Strict Subproofs".
Local Notation length := List.length.
Open Scope R_scope.
Local Open Scope string_scope.

Definition fixes (g : point -> point) (q : rule) : Prop := Permutation (map (fun wp => (fst wp, g (snd wp))) q) q.
Definition symm_data := list (string * (list R * list (list R))).
(** all keys of the dictionary are among [keys] *)
Definition uses (keys : list string) (data : symm_data) : Prop := forall e, In e data -> In (fst e) keys.

(** A symmetric rule does not see the symmetry; functions that change their sign under it are integrated to 0. *)
Theorem C87_invariance : forall g q f, fixes g q -> apply q (fun p => f (g p)) = apply q f.
Proof.
  intros g q f H. unfold apply. transitivity (Rsum (map (fun wp => fst wp * f (snd wp)) (map (fun wp : R * point => (fst wp, g (snd wp))) q))).
  - rewrite map_map. reflexivity.
  - apply Rsum_perm, Permutation_map, H.
Qed.
Print Assumptions C87_invariance.
Theorem C87_odd : forall g q f, fixes g q -> (forall wp, In wp q -> f (g (snd wp)) = - f (snd wp)) -> apply q f = 0.
Proof.
  intros g q f H O. pose proof (C87_invariance g q f H) as E. assert (E' : apply q (fun p => f (g p)) = - apply q f).
  { unfold apply. clear E H. induction q as [|[w p] q IH]; cbn [map Rsum]; [lra|]. rewrite IH by (intros; apply O; right; auto). cbn [fst snd]. pose proof (O (w, p) (or_introl eq_refl)) as O1. cbn [snd] in O1. rewrite O1. lra. }
  lra.
Qed.
Print Assumptions C87_odd.

Section Gen.
  Context {K : Type} (cols_of : K -> list (list R) -> option (list (list R))) (orb : K -> list R -> list point) (tbl : list (string * K)).
  Context (hlen : forall k c, length (orb k c) = length (orb k [])).
  (** one weight for each column of parameters *)
  Definition aligned (data : symm_data) : Prop :=
    forall e k cols, In e data -> lookup tbl (fst e) = Some k -> cols_of k (snd (snd e)) = Some cols -> length (fst (snd e)) = length cols.
  Lemma resolve_in (data : symm_data) d : resolve tbl data = Some d -> forall e, In e d -> exists e', In e' data /\ lookup tbl (fst e') = Some (fst e) /\ snd e' = snd e.
  Proof.
    revert d. induction data as [|[n v] data IH]; cbn [resolve]; intros d E e He; [injection E as <-; destruct He|].
    destruct (lookup tbl n) as [k|] eqn:L; [|discriminate]. cbn [bind] in E. destruct (resolve tbl data) as [d'|]; [|discriminate]. cbn [bind] in E. injection E as <-. destruct He as [<-|He].
    - exists (n, v). cbn. auto.
    - destruct (IH d' eq_refl e He) as (e' & I & A & B). exists e'. cbn. auto.
  Qed.
  Lemma gen_rule (data : symm_data) pw : (let! d := resolve tbl data in gen_expand cols_of orb d) = Some pw -> aligned data ->
    exists d, resolve tbl data = Some d /\ Permutation (mk_rule pw) (flat_map (fun e => match cols_of (fst e) (snd (snd e)) with
       | None => [] | Some cols => flat_map (fun wc => map (fun p => (fst wc, p)) (orb (fst e) (snd wc))) (List.combine (fst (snd e)) cols) end) d).
  Proof.
    intros H A. destruct (resolve tbl data) as [d|] eqn:E; [|discriminate]. cbn [bind] in H. exists d. split; auto.
    apply (gen_expand_spec cols_of orb hlen d pw H). apply List.Forall_forall. intros e He cols Hc. destruct (resolve_in data d E e He) as (e' & I & L & S'). rewrite <- S' in *. apply (A e' (fst e)); auto.
  Qed.
  Lemma gen_fixes g (data : symm_data) pw : (let! d := resolve tbl data in gen_expand cols_of orb d) = Some pw -> aligned data ->
    (forall e k c, In e data -> lookup tbl (fst e) = Some k -> invariant g (orb k c)) -> fixes g (mk_rule pw).
  Proof.
    intros H A I. destruct (gen_rule data pw H A) as (d & E & P). unfold fixes. apply perm_trans with (2 := Permutation_sym P).
    assert (In_d : forall e c, In e d -> invariant g (orb (fst e) c)). { intros e c He. destruct (resolve_in data d E e He) as (e' & I' & L & _). apply (I e'); auto. }
    clear E H A I. rewrite (Permutation_map _ P). clear P.
    induction d as [|e d IH]; cbn [flat_map]; [constructor|]. rewrite map_app. apply Permutation_app; [|apply IH; intros; apply In_d; right; auto].
    destruct (cols_of (fst e) (snd (snd e))) as [cols|]; [|constructor]. specialize (In_d e). induction (List.combine (fst (snd e)) cols) as [|[w c] l IHl]; cbn [flat_map]; [constructor|].
    rewrite map_app. apply Permutation_app; auto. rewrite map_map. cbn [fst snd]. rewrite <- (map_map g (fun p => (w, p))). apply Permutation_map. apply In_d. left. auto.
  Qed.
  Lemma gen_points (P : point -> Prop) (data : symm_data) pw : (let! d := resolve tbl data in gen_expand cols_of orb d) = Some pw -> aligned data ->
    (forall e k cols c p, In e data -> lookup tbl (fst e) = Some k -> cols_of k (snd (snd e)) = Some cols -> In c cols -> In p (orb k c) -> P p) -> List.Forall (fun wp => P (snd wp)) (mk_rule pw).
  Proof.
    intros H A I. destruct (gen_rule data pw H A) as (d & E & Pm). apply List.Forall_forall. intros wp Hwp. apply (Permutation_in _ Pm) in Hwp. apply in_flat_map in Hwp. destruct Hwp as (e & He & Hwp).
    destruct (cols_of (fst e) (snd (snd e))) as [cols|] eqn:Ec; [|destruct Hwp]. apply in_flat_map in Hwp. destruct Hwp as ([w c] & Hc & Hwp). apply in_map_iff in Hwp. destruct Hwp as (p & <- & Hp). cbn [snd] in *.
    destruct (resolve_in data d E e He) as (e' & I' & L & S'). rewrite <- S' in Ec. apply (I e' (fst e) cols c p); auto. apply in_combine_r in Hc. auto.
  Qed.
End Gen.

(** *** The square, the disk and the plane *)
Definition square_keys := ["zero2"; "0"; "a"; "a0"; "d4_aa"; "d4_a0"; "d4_ab"].
Definition mirror2_keys := (square_keys ++ ["sxy"; "c2_a0"; "c2_0a"])%list.
Definition central2_keys := (mirror2_keys ++ ["c2"; "c4"; "d4.0"; "d4.1"; "d6.0"; "d6.1"; "d8.0"; "d8.1"; "d10.0"; "d10.1"])%list.
Definition plane_keys := (central2_keys ++ ["sx"; "d5.0"; "plain"])%list.
(** C2Scheme, S2Scheme, E2rScheme, E2r2Scheme with these symmetry data *)
Definition plane_scheme (data : symm_data) (degree : nat) (s : scheme) : Prop :=
  c2_scheme data degree = Some s \/ s2_scheme data degree = Some s \/ e2_scheme data degree = Some s.
Definition aligned_dim (dim : nat) := aligned (fun k => key_cols k dim) key_table.
Lemma plane_inv data degree s : plane_scheme data degree s -> exists pw, expand_symmetries_str data 2 = Some pw /\ s = mk_scheme 2 (mk_rule pw) degree.
Proof. unfold plane_scheme, c2_scheme, s2_scheme, e2_scheme. destruct (expand_symmetries_str data 2) as [pw|]; cbn [bind]; intros [H|[H|H]]; try discriminate; injection H as <-; eauto. Qed.
Ltac each_key H :=
  match type of H with
  | In _ _ => cbn in H; repeat (destruct H as [H|H]; [rewrite <- H in *|]); [..|destruct H]
  end.
Ltac keys := match goal with U : uses _ ?data, He : In ?e ?data, L : lookup _ (fst ?e) = Some ?k |- _ =>
  let N := fresh in pose proof (U e He) as N; each_key N; cbn in L; injection L as <- end.
Lemma columns_length nv rows c : In c (columns nv rows) -> length c = length rows.
Proof. unfold columns. intros H. apply in_map_iff in H. destruct H as (j & <- & _). apply map_length. Qed.
Lemma plain_length dim rows cols c : key_cols Kplain dim rows = Some cols -> In c cols -> dim <> 0%nat -> length c = dim.
Proof.
  unfold key_cols. cbn [arity]. destruct dim as [|d]; [lia|]. destruct (Nat.eqb_spec (length rows) (S d)) as [E|E]; cbn [andb]; [|discriminate]. destruct (forallb _ rows); cbn [andb]; [|discriminate]. intros H Hc _. injection H as <-. rewrite (columns_length _ _ _ Hc). auto.
Qed.
Lemma ngon_points n offset c p : In p (orbit (Kd n offset) 2 c) -> length p = 2%nat.
Proof. cbn [orbit]. intros H. apply in_map_iff in H. destruct H as (i & <- & _). reflexivity. Qed.
Lemma a0_points n c p : In p (orbit Ka0 n c) -> length p = n.
Proof.
  cbn [orbit]. intros H. apply in_flat_map in H. destruct H as (i & Hi & H). apply in_seq in Hi. destruct H as [<-|[<-|[]]]; rewrite !app_length, !repeat_length; cbn; lia.
Qed.
Lemma a_points n c p : In p (orbit Ka n c) -> length p = n.
Proof.
  cbn [orbit]. revert p. induction n as [|n IH]; intros p H; cbn [repeat product] in H; [destruct H as [<-|[]]; auto|].
  apply in_flat_map in H. destruct H as (x & _ & H). apply in_map_iff in H. destruct H as (p' & <- & H). cbn. rewrite IH; auto.
Qed.

Lemma plane_points e k cols c p (data : symm_data) : uses plane_keys data -> In e data -> lookup key_table (fst e) = Some k -> key_cols k 2 (snd (snd e)) = Some cols -> In c cols -> In p (orbit k 2 c) -> length p = 2%nat.
Proof.
  intros U He L C Hc Hp. keys; try (eapply ngon_points; eauto; fail); try (eapply a_points; eauto; fail); try (eapply a0_points; eauto; fail);
    try (cbn in Hp; repeat (destruct Hp as [<-|Hp]; [reflexivity|]); destruct Hp; fail).
  cbn [orbit] in Hp. destruct Hp as [<-|[]]. apply (plain_length 2 _ _ _ C Hc). lia.
Qed.
Lemma flip2 p : length p = 2%nat -> rotate PI p = flip [true; true] p.
Proof. destruct p as [|x [|y [|z p]]]; intros H; try discriminate. unfold rotate. cbn. rewrite cos_PI, sin_PI. f_equal; [ring|f_equal; ring]. Qed.
Lemma even_gon n offset c : (1 <= n)%nat -> invariant (flip [true; true]) (orbit (Kd (2 * n) offset) 2 c).
Proof.
  intros Hn. unfold invariant. pose proof (ngon_rot (2 * n) offset c n ltac:(lia)) as H. unfold invariant in H. rewrite (map_ext_in _ (rotate (2 * PI * INR n / INR (2 * n)))); auto.
  intros p Hp. replace (2 * PI * INR n / INR (2 * n)) with PI; [symmetry; apply flip2; eapply ngon_points; eauto|]. rewrite mult_INR. cbn [INR]. field. apply not_0_INR. lia.
Qed.
Lemma flip_is_id_perm n (ss : list bool) p : length p = n -> flip ss (permute (seq 0 n) p) = flip ss p.
Proof. intros <-. f_equal. unfold permute. induction p as [|x p IH]; auto. cbn [length seq map nth]. f_equal. rewrite <- seq_shift, map_map. exact IH. Qed.
Lemma cube_sign n O : cube_symmetric n O -> (forall p, In p O -> length p = n) -> sign_symmetric n O.
Proof.
  intros H L ss Hs. unfold invariant. pose proof (H (seq 0 n) ss (Permutation_refl _) Hs) as I. unfold invariant in I. rewrite (map_ext_in _ (fun p => flip ss (permute (seq 0 n) p))); auto.
  intros p Hp. symmetry. apply flip_is_id_perm. auto.
Qed.
Lemma c4_central c : invariant (flip [true; true]) (orbit Kc4 2 c).
Proof. unfold invariant. cbn. rewrite !Ropp_involutive. apply perm_trans with (2 := perm_swap _ _ _). apply perm_skip, perm_skip, perm_swap. Qed.
Lemma square_symm e k c (data : symm_data) : uses square_keys data -> In e data -> lookup key_table (fst e) = Some k -> cube_symmetric 2 (orbit k 2 c).
Proof. intros U He L. keys; first [apply K0_cube_symmetric|apply Ka_cube_symmetric|apply Ka0_cube_symmetric; lia|apply d4_aa_sym|apply d4_a0_sym|apply d4_ab_sym]. Qed.
Lemma mirror2_symm e k c (data : symm_data) : uses mirror2_keys data -> In e data -> lookup key_table (fst e) = Some k -> sign_symmetric 2 (orbit k 2 c).
Proof.
  intros U He L. keys; try (apply sxy_sym || apply c2_a0_sym || apply c2_0a_sym);
   (apply cube_sign; [first [apply K0_cube_symmetric|apply Ka_cube_symmetric|apply Ka0_cube_symmetric; lia|apply d4_aa_sym|apply d4_a0_sym|apply d4_ab_sym]|]);
   intros p Hp; first [eapply a_points; eauto; fail|eapply a0_points; eauto; fail|(cbn in Hp; repeat (destruct Hp as [<-|Hp]; [reflexivity|]); destruct Hp)].
Qed.
Lemma central2_symm e k c (data : symm_data) : uses central2_keys data -> In e data -> lookup key_table (fst e) = Some k -> invariant (flip [true; true]) (orbit k 2 c).
Proof.
  intros U He L. assert (D : uses mirror2_keys [e] \/ In (fst e) ["c2"; "c4"; "d4.0"; "d4.1"; "d6.0"; "d6.1"; "d8.0"; "d8.1"; "d10.0"; "d10.1"]).
  { pose proof (U e He) as N. unfold central2_keys in N. apply in_app_or in N. destruct N as [N|N]; [left; intros e' [<-|[]]; auto|right; auto]. }
  destruct D as [D|D].
  - apply (mirror2_symm e k c [e] D (or_introl eq_refl) L). reflexivity.
  - each_key D; cbn in L; injection L as <-; first [apply c2_sym|apply c4_central|apply (even_gon 2); lia|apply (even_gon 3); lia|apply (even_gon 4); lia|apply (even_gon 5); lia].
Qed.
Theorem C87_planar : forall data degree s, plane_scheme data degree s -> aligned_dim 2 data ->
  s_dim s = 2%nat /\ s_degree s = degree /\
  (uses plane_keys data -> List.Forall (fun wp => length (snd wp) = 2%nat) (s_rule s)) /\
  (uses square_keys data -> forall sigma ss, is_perm 2 sigma -> length ss = 2%nat -> fixes (fun p => flip ss (permute sigma p)) (s_rule s)) /\
  (uses mirror2_keys data -> forall ss, length ss = 2%nat -> fixes (flip ss) (s_rule s)) /\
  (uses central2_keys data -> fixes (flip [true; true]) (s_rule s)).
Proof.
  intros data degree s H A. destruct (plane_inv _ _ _ H) as (pw & E & ->). cbn [s_dim s_degree s_rule]. split; auto. split; auto. unfold expand_symmetries_str in E. split; [|split; [|split]].
  - intros U. eapply (gen_points _ _ _ (orbit_length 2) (fun p => length p = 2%nat)); eauto. intros. eapply plane_points; eauto.
  - intros U sigma ss Hs Hl. eapply (gen_fixes _ _ _ (orbit_length 2)); eauto. intros e k c He L. apply (square_symm e k c data U He L); auto.
  - intros U ss Hl. eapply (gen_fixes _ _ _ (orbit_length 2)); eauto. intros e k c He L. apply (mirror2_symm e k c data U He L); auto.
  - intros U. eapply (gen_fixes _ _ _ (orbit_length 2)); eauto. intros e k c He L. apply (central2_symm e k c data U He L); auto.
Qed.
Print Assumptions C87_planar.
(** Regular polygons: schemes with the keys dN.0, dN.1 and the centre are invariant under all rotations by multiples of 2 pi / N. *)
Theorem C87_polygons : forall n keys data degree s, plane_scheme data degree s -> aligned_dim 2 data ->
  In (n, keys) [(4%nat, ["d4.0"; "d4.1"]); (5%nat, ["d5.0"]); (6%nat, ["d6.0"; "d6.1"]); (8%nat, ["d8.0"; "d8.1"]); (10%nat, ["d10.0"; "d10.1"])] ->
  uses ("zero2" :: keys) data -> forall j, fixes (rotate (2 * PI * INR j / INR n)) (s_rule s).
Proof.
  intros n keys data degree s H A I U j. destruct (plane_inv _ _ _ H) as (pw & E & ->). cbn [s_rule]. unfold expand_symmetries_str in E. eapply (gen_fixes _ _ _ (orbit_length 2)); eauto.
  intros e k c He L. cbn in I. repeat (destruct I as [I|I]; [injection I as <- <-; keys; first [apply ngon_rot; lia|unfold invariant; cbn; unfold rotate; cbn; rewrite !Rmult_0_r, Rminus_0_r, Rplus_0_r; apply Permutation_refl]|]). destruct I.
Qed.
Print Assumptions C87_polygons.

(** *** The hexahedron, the ball and the space *)
Definition octahedral_keys := ["zero3"; "0"; "a"; "a0"; "symm_r00"; "symm_rr0"; "symm_rrr"; "symm_rrs"].
Definition mirror3_keys := (octahedral_keys ++ ["symm_rs0_roll"])%list.
Definition central3_keys := (mirror3_keys ++ ["symm_rss_pm"])%list.
Definition space_keys := (central3_keys ++ ["plain"])%list.
Definition space_scheme (data : symm_data) (degree : nat) (s : scheme) : Prop :=
  c3_scheme data degree = Some s \/ s3_scheme data degree = Some s \/ e3_scheme data degree = Some s.
Lemma space_inv data degree s : space_scheme data degree s -> exists pw, expand_symmetries_str data 3 = Some pw /\ s = mk_scheme 3 (mk_rule pw) degree.
Proof. unfold space_scheme, c3_scheme, s3_scheme, e3_scheme. destruct (expand_symmetries_str data 3) as [pw|]; cbn [bind]; intros [H|[H|H]]; try discriminate; injection H as <-; eauto. Qed.
Lemma space_points e k cols c p (data : symm_data) : uses space_keys data -> In e data -> lookup key_table (fst e) = Some k -> key_cols k 3 (snd (snd e)) = Some cols -> In c cols -> In p (orbit k 3 c) -> length p = 3%nat.
Proof.
  intros U He L C Hc Hp. keys; try (eapply a_points; eauto; fail); try (eapply a0_points; eauto; fail);
    try (cbn in Hp; repeat (destruct Hp as [<-|Hp]; [reflexivity|]); destruct Hp; fail).
  cbn [orbit] in Hp. destruct Hp as [<-|[]]. apply (plain_length 3 _ _ _ C Hc). lia.
Qed.
Lemma octahedral_symm e k c (data : symm_data) : uses octahedral_keys data -> In e data -> lookup key_table (fst e) = Some k -> cube_symmetric 3 (orbit k 3 c).
Proof. intros U He L. keys; first [apply K0_cube_symmetric|apply Ka_cube_symmetric|apply Ka0_cube_symmetric; lia|apply symm_r00_sym|apply symm_rr0_sym|apply symm_rrr_sym|apply symm_rrs_sym]. Qed.
Lemma mirror3_symm e k c (data : symm_data) : uses mirror3_keys data -> In e data -> lookup key_table (fst e) = Some k -> sign_symmetric 3 (orbit k 3 c).
Proof.
  intros U He L. keys; try (apply symm_rs0_roll_sym);
   (apply cube_sign; [first [apply K0_cube_symmetric|apply Ka_cube_symmetric|apply Ka0_cube_symmetric; lia|apply symm_r00_sym|apply symm_rr0_sym|apply symm_rrr_sym|apply symm_rrs_sym]|]);
   intros p Hp; first [eapply a_points; eauto; fail|eapply a0_points; eauto; fail|(cbn in Hp; repeat (destruct Hp as [<-|Hp]; [reflexivity|]); destruct Hp)].
Qed.
Lemma central3_symm e k c (data : symm_data) : uses central3_keys data -> In e data -> lookup key_table (fst e) = Some k -> invariant (flip [true; true; true]) (orbit k 3 c).
Proof.
  intros U He L. assert (D : uses mirror3_keys [e] \/ In (fst e) ["symm_rss_pm"]).
  { pose proof (U e He) as N. unfold central3_keys in N. apply in_app_or in N. destruct N as [N|N]; [left; intros e' [<-|[]]; auto|right; auto]. }
  destruct D as [D|D].
  - apply (mirror3_symm e k c [e] D (or_introl eq_refl) L). reflexivity.
  - each_key D; cbn in L; injection L as <-. apply symm_rss_pm_sym.
Qed.
Theorem C87_spatial : forall data degree s, space_scheme data degree s -> aligned_dim 3 data ->
  s_dim s = 3%nat /\ s_degree s = degree /\
  (uses space_keys data -> List.Forall (fun wp => length (snd wp) = 3%nat) (s_rule s)) /\
  (uses octahedral_keys data -> forall sigma ss, is_perm 3 sigma -> length ss = 3%nat -> fixes (fun p => flip ss (permute sigma p)) (s_rule s)) /\
  (uses mirror3_keys data -> forall ss, length ss = 3%nat -> fixes (flip ss) (s_rule s)) /\
  (uses central3_keys data -> fixes (flip [true; true; true]) (s_rule s)).
Proof.
  intros data degree s H A. destruct (space_inv _ _ _ H) as (pw & E & ->). cbn [s_dim s_degree s_rule]. split; auto. split; auto. unfold expand_symmetries_str in E. split; [|split; [|split]].
  - intros U. eapply (gen_points _ _ _ (orbit_length 3) (fun p => length p = 3%nat)); eauto. intros. eapply space_points; eauto.
  - intros U sigma ss Hs Hl. eapply (gen_fixes _ _ _ (orbit_length 3)); eauto. intros e k c He L. apply (octahedral_symm e k c data U He L); auto.
  - intros U ss Hl. eapply (gen_fixes _ _ _ (orbit_length 3)); eauto. intros e k c He L. apply (mirror3_symm e k c data U He L); auto.
  - intros U. eapply (gen_fixes _ _ _ (orbit_length 3)); eauto. intros e k c He L. apply (central3_symm e k c data U He L); auto.
Qed.
Print Assumptions C87_spatial.

(** *** The triangle and the tetrahedron: barycentric coordinates that add up to 1 *)
Definition triangle_keys := ["centroid"; "vertex"; "d3_ab"; "d3_aa"].
Definition turn_keys := (triangle_keys ++ ["c3_ab"])%list.
Definition bary_keys := (turn_keys ++ ["swap_ab"; "s2_static"])%list.
Theorem C87_triangle : forall data degree s, t2_scheme data degree = Some s -> aligned_dim 3 data ->
  s_dim s = 2%nat /\ s_degree s = degree /\
  (uses bary_keys data -> List.Forall (fun wp => length (snd wp) = 3%nat /\ Rsum (snd wp) = 1) (s_rule s)) /\
  (uses triangle_keys data -> forall sigma, is_perm 3 sigma -> fixes (permute sigma) (s_rule s)) /\
  (uses turn_keys data -> fixes (permute [1; 2; 0]%nat) (s_rule s)) /\
  (uses ("swap_ab" :: "s2_static" :: triangle_keys) data -> fixes (permute [1; 0; 2]%nat) (s_rule s)).
Proof.
  intros data degree s H A. unfold t2_scheme in H. destruct (expand_symmetries_str data 3) as [pw|] eqn:E; [|discriminate]. cbn [bind] in H. injection H as <-. cbn [s_dim s_degree s_rule]. split; auto. split; auto. unfold expand_symmetries_str in E. split; [|split; [|split]].
  - intros U. eapply (gen_points _ _ _ (orbit_length 3) (fun p => length p = 3%nat /\ Rsum p = 1)); eauto. intros e k cols c p He L C Hc Hp. assert (B : barycentric 2 (orbit k 3 c)); [|apply B; auto]. apply tri_bary. keys; cbn; tauto.
  - intros U sigma Hs. eapply (gen_fixes _ _ _ (orbit_length 3)); eauto. intros e k c He L. keys; first [apply centroid_sym; auto; fail|apply vertex_sym; auto; fail|apply d3_ab_sym; auto; fail|apply d3_aa_sym; auto; fail].
  - intros U. assert (P : is_perm 3 [1; 2; 0]%nat) by (apply Permutation_sym; cbn; apply perm_trans with [1; 0; 2]%nat; [apply perm_swap|apply perm_skip, perm_swap]).
    eapply (gen_fixes _ _ _ (orbit_length 3)); eauto. intros e k c He L. keys; first [apply centroid_sym; auto; fail|apply vertex_sym; auto; fail|apply d3_ab_sym; auto; fail|apply d3_aa_sym; auto; fail|apply c3_ab_sym; cbn; auto; fail].
  - intros U. assert (P : is_perm 3 [1; 0; 2]%nat) by (apply perm_swap).
    eapply (gen_fixes _ _ _ (orbit_length 3)); eauto. intros e k c He L. keys; first [apply swap_ab_sym; fail|apply s2_static_sym; fail|apply centroid_sym; auto; fail|apply vertex_sym; auto; fail|apply d3_ab_sym; auto; fail|apply d3_aa_sym; auto; fail].
Qed.
Print Assumptions C87_triangle.
Definition tetrahedron_keys := ["s4"; "s31"; "s22"; "s211"; "s1111"].
Theorem C87_tetrahedron : forall data degree s, t3_scheme data degree = Some s -> aligned t3_cols t3_table data ->
  s_dim s = 3%nat /\ s_degree s = degree /\
  (uses tetrahedron_keys data -> List.Forall (fun wp => length (snd wp) = 4%nat /\ Rsum (snd wp) = 1) (s_rule s) /\
     forall sigma, is_perm 4 sigma -> fixes (permute sigma) (s_rule s)).
Proof.
  intros data degree s H A. unfold t3_scheme in H. destruct (t3_expand_str data) as [pw|] eqn:E; [|discriminate]. cbn [bind] in H. injection H as <-. cbn [s_dim s_degree s_rule]. split; auto. split; auto. unfold t3_expand_str in E. intros U.
  assert (N : forall e k, In e data -> lookup t3_table (fst e) = Some k -> k <> T_plain) by (intros e k He L; keys; discriminate). split.
  - eapply (gen_points _ _ _ t3_orbit_length (fun p => length p = 4%nat /\ Rsum p = 1)); eauto. intros e k cols c p He L C Hc Hp. apply (t3_bary k c); eauto.
  - intros sigma Hs. eapply (gen_fixes _ _ _ t3_orbit_length); eauto. intros e k c He L. apply t3_sym; eauto.
Qed.
Print Assumptions C87_tetrahedron.

(** *** The sphere *)
Definition sphere_keys := ["a1"; "a2"; "a3"; "llm"; "llm2"; "pq0"; "pq02"; "rsw"; "rsw2"].
Definition sphere_mirror_keys := (sphere_keys ++ ["rs0"; "rst"])%list.
Definition sphere_turn_keys := (sphere_keys ++ ["rst_weird"])%list.
Lemma sphere_symm e k c (data : symm_data) : uses sphere_keys data -> In e data -> lookup u3_table (fst e) = Some k -> cube_symmetric 3 (u3_orbit k c).
Proof. intros U He L. keys; first [apply u3_a1_sym|apply u3_a2_sym|apply u3_a3_sym|apply u3_llm2_sym|apply u3_pq02_sym|apply u3_rsw2_sym]. Qed.
Lemma is_perm_turn : is_perm 3 [1; 2; 0]%nat.
Proof. apply Permutation_sym. cbn. apply perm_trans with [1; 0; 2]%nat; [apply perm_swap|apply perm_skip, perm_swap]. Qed.
Lemma flip_none p : flip [false; false; false] p = p.
Proof. destruct p as [|x [|y [|z p]]]; reflexivity. Qed.
Lemma u3_lengths k c p : k <> U_plain -> In p (u3_orbit k c) -> length p = 3%nat.
Proof. intros N Hp. destruct k; try (exfalso; apply N; reflexivity); cbn in Hp; repeat (destruct Hp as [<-|Hp]; [reflexivity|]); destruct Hp. Qed.
Theorem C87_sphere : forall data degree s, u3_scheme data degree = Some s -> aligned u3_cols u3_table data ->
  s_dim s = 3%nat /\ s_degree s = degree /\
  (uses ("plain" :: "rst_weird" :: sphere_mirror_keys) data -> List.Forall (fun wp => length (snd wp) = 3%nat) (s_rule s)) /\
  (uses sphere_keys data -> forall sigma ss, is_perm 3 sigma -> length ss = 3%nat -> fixes (fun p => flip ss (permute sigma p)) (s_rule s)) /\
  (uses sphere_mirror_keys data -> fixes (permute [1; 2; 0]%nat) (s_rule s) /\ forall ss, length ss = 3%nat -> fixes (flip ss) (s_rule s)) /\
  (uses sphere_turn_keys data -> forall sigma ss, length ss = 3%nat ->
     (In sigma even_perms3 /\ odd_flips ss = false) \/ (In sigma odd_perms3 /\ odd_flips ss = true) -> fixes (fun p => flip ss (permute sigma p)) (s_rule s)).
Proof.
  intros data degree s H A. unfold u3_scheme in H. destruct (u3_expand_str data) as [pw|] eqn:E; [|discriminate]. cbn [bind] in H. injection H as <-. cbn [s_dim s_degree s_rule]. split; auto. split; auto. unfold u3_expand_str in E. split; [|split; [|split]].
  - intros U. eapply (gen_points _ _ _ u3_orbit_length (fun p => length p = 3%nat)); eauto. intros e k cols c p He L C Hc Hp. keys; try (eapply u3_lengths; eauto; discriminate).
    cbn [u3_orbit] in Hp. destruct Hp as [<-|[]]. unfold u3_cols in C. destruct (forallb _ _); [|discriminate]. revert cols C Hc. generalize (columns (match snd (snd e) with [] => 1%nat | r :: _ => length r end) (snd (snd e))). intros l. induction l as [|x l IH]; cbn [mapM]; intros cols C Hc; [injection C as <-; destruct Hc|].
    destruct (u3_params U_plain x) as [y|] eqn:Y; [|discriminate]. cbn [bind] in C. destruct (mapM _ l) as [ys|]; [|discriminate]. cbn [bind] in C. injection C as <-. destruct Hc as [<-|Hc]; [|eapply IH; eauto].
    cbn in Y. destruct x as [|x1 [|x2 [|x3 [|x4 x]]]]; try discriminate. injection Y as <-. reflexivity.
  - intros U sigma ss Hs Hl. eapply (gen_fixes _ _ _ u3_orbit_length); eauto. intros e k c He L. apply (sphere_symm e k c data U He L); auto.
  - intros U. assert (D : forall e k c, In e data -> lookup u3_table (fst e) = Some k -> invariant (permute [1; 2; 0]%nat) (u3_orbit k c) /\ sign_symmetric 3 (u3_orbit k c)).
    { intros e k c He L. assert (D : uses sphere_keys [e] \/ In (fst e) ["rs0"; "rst"]).
      { pose proof (U e He) as N. unfold sphere_mirror_keys in N. apply in_app_or in N. destruct N as [N|N]; [left; intros e' [<-|[]]; auto|right; auto]. }
      destruct D as [D|D].
      - assert (Q : cube_symmetric 3 (u3_orbit k c)) by (apply (sphere_symm e k c [e] D (or_introl eq_refl) L)). split.
        + pose proof (Q [1; 2; 0]%nat [false; false; false] is_perm_turn eq_refl) as I. unfold invariant in *. rewrite (map_ext _ (fun p => flip [false; false; false] (permute [1; 2; 0]%nat p))); auto.
        + apply cube_sign; auto. intros p Hp. apply (u3_lengths k c p); auto. intros ->. assert (N := D e (or_introl eq_refl)). each_key N; cbn in L; discriminate.
      - each_key D; cbn in L; injection L as <-; [destruct (u3_rs0_sym c) as [X Y]|destruct (u3_rst_sym c) as [X Y]]; (split; [apply X; cbn; auto|auto]). }
    split; [|intros ss Hs]; (eapply (gen_fixes _ _ _ u3_orbit_length); eauto; intros e k c He L; destruct (D e k c He L); auto).
  - intros U sigma ss Hl Hs. eapply (gen_fixes _ _ _ u3_orbit_length); eauto. intros e k c He L. 
    assert (D : uses sphere_keys [e] \/ In (fst e) ["rst_weird"]).
    { pose proof (U e He) as N. unfold sphere_turn_keys in N. apply in_app_or in N. destruct N as [N|N]; [left; intros e' [<-|[]]; auto|right; auto]. }
    destruct D as [D|D].
    + apply (sphere_symm e k c [e] D (or_introl eq_refl) L); auto. destruct Hs as [[Hs _]|[Hs _]]; cbn in Hs; destruct Hs as [<-|[<-|[<-|[]]]]; unfold is_perm; cbn;
        try apply Permutation_refl; try apply is_perm_turn; try apply perm_swap; try (apply perm_skip, perm_swap).
      * apply perm_trans with [0; 2; 1]%nat; [apply perm_swap|apply perm_skip, perm_swap].
      * apply perm_trans with [1; 2; 0]%nat; [apply perm_swap|]. apply is_perm_turn.
    + each_key D; cbn in L; injection L as <-. apply u3_rst_weird_sym; auto.
Qed.
Print Assumptions C87_sphere.

(** *** Cases *)
(** albrecht_collatz_3 of the sphere *)
Example C87_sphere_case : exists s, u3_albrecht_collatz_3 = Some s /\ forall f, apply (s_rule s) (fun p => f (flip [true; true; true] p)) = apply (s_rule s) f.
Proof.
  destruct u3_albrecht_collatz_3 as [s|] eqn:E; [|cbn in E; discriminate]. exists s. split; auto. intros f. apply (C87_invariance (flip [true; true; true])).
  destruct (C87_sphere _ _ _ E) as (_ & _ & _ & _ & M & _).
  - intros e k cols [<-|[<-|[]]] L C; cbn in L; injection L as <-; cbn in C; injection C as <-; reflexivity.
  - apply M; [|reflexivity]. intros e [<-|[<-|[]]]; cbn; auto 12.
Qed.
(** every rule with the keys d4_aa and d4_a0, whatever the weights and parameters, gives 0 for x y^2 *)
Example C87_square_case : forall w1 w2 a b, exists s, c2_scheme [("d4_aa", ([w1], [[a]])); ("d4_a0", ([w2], [[b]]))] 3 = Some s /\
  apply (s_rule s) (fun p => nth 0 p 0 * nth 1 p 0 ^ 2) = 0.
Proof.
  intros w1 w2 a b. destruct (c2_scheme [("d4_aa", ([w1], [[a]])); ("d4_a0", ([w2], [[b]]))] 3) as [s|] eqn:E; [|cbn in E; discriminate]. exists s. split; auto.
  destruct (C87_planar [("d4_aa", ([w1], [[a]])); ("d4_a0", ([w2], [[b]]))] 3 s) as (_ & _ & P & _ & M & _).
  - left. exact E.
  - intros e k cols [<-|[<-|[]]] L C; cbn in L; injection L as <-; cbn in C; injection C as <-; reflexivity.
  - apply (C87_odd (flip [true; false])); [apply M; [|reflexivity]; intros e [<-|[<-|[]]]; cbn; auto 12|]. intros wp Hwp.
    assert (Q : List.Forall (fun wp => length (snd wp) = 2%nat) (s_rule s)) by (apply P; intros e [<-|[<-|[]]]; cbn; auto 12).
    rewrite List.Forall_forall in Q. specialize (Q wp Hwp). destruct wp as [w p]. cbn [snd] in *. destruct p as [|x [|y [|z p]]]; cbn in Q; [lia|lia|cbn; ring|lia].
Qed.
