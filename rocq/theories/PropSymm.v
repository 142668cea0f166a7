(** C07-C10: symmetry expansion and symmetry orbits. *)
From Coq Require Import Reals List Arith Lia Lra Permutation Bool String.
From Verif Require Import Spec OrbitSpec RsumLemmas CombModel PyBase SymmModel OrbitModel SchemeTools SymmProofs OrbitProofs OrbitProofs2.
Import ListNotations.
Local Notation length := List.length.
Open Scope R_scope.

(* ------------------------------------------------------------------ C07 *)
(** A dictionary entry is (key, (weights, parameter rows)); it denotes the parameter columns
    [key_cols key dim rows], one weight per column.  The result has as many points as weights, and as a multiset
    of (weight, point) pairs it consists of, for every entry and column, the points of the column's orbit paired
    with the column's weight. *)
Theorem C07_expand_symmetries : forall data dim points weights,
  expand_symmetries data dim = Some (points, weights) ->
  Forall (fun e => forall cols, key_cols (fst e) dim (snd (snd e)) = Some cols ->
                   length (fst (snd e)) = length cols) data ->
  length points = length weights /\
  Permutation (List.combine weights points)
    (flat_map (fun e =>
       match key_cols (fst e) dim (snd (snd e)) with
       | None => []
       | Some cols => flat_map (fun wc => map (fun p => (fst wc, p)) (orbit (fst e) dim (snd wc)))
                               (List.combine (fst (snd e)) cols)
       end) data).
Proof.
  intros data dim points weights H Hf.
  exact (gen_expand_spec _ _ (orbit_length dim) data (points, weights) H Hf).
Qed.
Print Assumptions C07_expand_symmetries.

Theorem C07_t3_expand : forall data points weights,
  t3_expand data = Some (points, weights) ->
  Forall (fun e => forall cols, t3_cols (fst e) (snd (snd e)) = Some cols ->
                   length (fst (snd e)) = length cols) data ->
  length points = length weights /\
  Permutation (List.combine weights points)
    (flat_map (fun e =>
       match t3_cols (fst e) (snd (snd e)) with
       | None => []
       | Some cols => flat_map (fun wc => map (fun p => (fst wc, p)) (t3_orbit (fst e) (snd wc)))
                               (List.combine (fst (snd e)) cols)
       end) data).
Proof.
  intros data points weights H Hf.
  exact (gen_expand_spec _ _ t3_orbit_length data (points, weights) H Hf).
Qed.
Print Assumptions C07_t3_expand.

Theorem C07_u3_expand : forall data points weights,
  u3_expand data = Some (points, weights) ->
  Forall (fun e => forall cols, u3_cols (fst e) (snd (snd e)) = Some cols ->
                   length (fst (snd e)) = length cols) data ->
  length points = length weights /\
  Permutation (List.combine weights points)
    (flat_map (fun e =>
       match u3_cols (fst e) (snd (snd e)) with
       | None => []
       | Some cols => flat_map (fun wc => map (fun p => (fst wc, p)) (u3_orbit (fst e) (snd wc)))
                               (List.combine (fst (snd e)) cols)
       end) data).
Proof.
  intros data points weights H Hf.
  exact (gen_expand_spec _ _ u3_orbit_length data (points, weights) H Hf).
Qed.
Print Assumptions C07_u3_expand.

(** The call fails exactly for an unknown key (KeyError) or for badly shaped parameter rows. *)
Theorem C07_unknown_key : forall data dim,
  (exists e, In e data /\ ~ In (fst e) (map fst key_table)) -> expand_symmetries_str data dim = None.
Proof.
  intros data dim [e [He Hk]]. unfold expand_symmetries_str.
  replace (resolve key_table data) with (@None (list (key * (list R * list (list R))))); [reflexivity|].
  symmetry. apply resolve_None. apply Exists_exists. exists e. split; auto. apply lookup_None. auto.
Qed.
Print Assumptions C07_unknown_key.

Theorem C07_defined : forall data dim,
  (exists pw, expand_symmetries data dim = Some pw) <->
  Forall (fun e => key_cols (fst e) dim (snd (snd e)) <> None) data.
Proof. intros. exact (gen_expand_Some (fun k => key_cols k dim) (fun k => orbit k dim) data). Qed.
Print Assumptions C07_defined.

Example C07_ex : forall v w a b,
  expand_symmetries [(K0, ([v], [])); (Kd4_a0, ([w; w + 1], [[a; b]]))] 2 =
  Some ([[0; 0]; [a; 0]; [b; 0]; [- a; 0]; [- b; 0]; [0; a]; [0; b]; [0; - a]; [0; - b]],
        [v; w; w + 1; w; w + 1; w; w + 1; w; w + 1]).
Proof. reflexivity. Qed.
Example C07_ex_key : expand_symmetries_str [("d7"%string, ([1], [[2]]))] 2 = None.
Proof. reflexivity. Qed.

(* ------------------------------------------------------------------ C08 *)
(** Planar keys: each orbit is mapped onto itself (with multiplicities) by its symmetry group. *)
Theorem C08_dihedral4 : forall c,
  cube_symmetric 2 (orbit Kd4_ab 2 c) /\ cube_symmetric 2 (orbit Kd4_aa 2 c) /\ cube_symmetric 2 (orbit Kd4_a0 2 c).
Proof. intros c. split; [|split]; [apply d4_ab_sym|apply d4_aa_sym|apply d4_a0_sym]. Qed.
Print Assumptions C08_dihedral4.
Theorem C08_c4 : forall c, invariant (fun p => [- nth 1 p 0; nth 0 p 0]) (orbit Kc4 2 c).
Proof. apply c4_sym. Qed.
Print Assumptions C08_c4.
Theorem C08_reflections : forall c,
  sign_symmetric 2 (orbit Ksxy 2 c) /\ invariant (flip [true; false]) (orbit Ksx 2 c) /\
  invariant (flip [true; true]) (orbit Kc2 2 c) /\
  sign_symmetric 2 (orbit Kc2_a0 2 c) /\ sign_symmetric 2 (orbit Kc2_0a 2 c).
Proof.
  intros c. repeat (match goal with |- _ /\ _ => split end);
    [apply sxy_sym|apply sx_sym|apply c2_sym|apply c2_a0_sym|apply c2_0a_sym].
Qed.
Print Assumptions C08_reflections.
(** Keys dN.offset: all rotations by multiples of 2 pi / N, and the reflection about the x-axis. *)
Theorem C08_ngon : forall n offset c, (1 <= n)%nat ->
  (forall j, invariant (rotate (2 * PI * INR j / INR n)) (orbit (Kd n offset) 2 c)) /\
  ((offset <= 1)%nat -> invariant (fun p => [nth 0 p 0; - nth 1 p 0]) (orbit (Kd n offset) 2 c)).
Proof. intros n offset c H. split; [intros j; apply ngon_rot; auto|apply ngon_mirror; auto]. Qed.
Print Assumptions C08_ngon.
(** So the value of the rule is unchanged when the integrand is composed with a symmetry. *)
Theorem C08_orientation : forall w g O f, invariant g O ->
  apply (map (fun p => (w, p)) O) (fun p => f (g p)) = apply (map (fun p => (w, p)) O) f.
Proof.
  intros w g O f H. unfold apply. rewrite !map_map. cbn [fst snd].
  rewrite <- (map_map g (fun p => w * f p)). apply Rsum_perm. apply Permutation_map. exact H.
Qed.
Print Assumptions C08_orientation.
Example C08_ex : orbit Kd4_ab 2 [1; 2] =
  [[1; 2]; [- (1); 2]; [1; - (2)]; [- (1); - (2)]; [2; 1]; [- (2); 1]; [2; - (1)]; [- (2); - (1)]].
Proof. reflexivity. Qed.

(* ------------------------------------------------------------------ C09 *)
Theorem C09_triangle_barycentric : forall k dim c,
  In k [Kcentroid; Kvertex; Kd3_ab; Kd3_aa; Kc3_ab; Kswap_ab; Ks2_static] -> barycentric 2 (orbit k dim c).
Proof.
  intros k dim c H. apply tri_bary. simpl in H. repeat (destruct H as [<-|H]; [simpl; auto|]). destruct H.
Qed.
Print Assumptions C09_triangle_barycentric.
Theorem C09_triangle_symmetric : forall dim c,
  perm_symmetric 3 (orbit Kcentroid dim c) /\ perm_symmetric 3 (orbit Kvertex dim c) /\
  perm_symmetric 3 (orbit Kd3_ab dim c) /\ perm_symmetric 3 (orbit Kd3_aa dim c) /\
  cyclic3_symmetric (orbit Kc3_ab dim c) /\
  invariant (permute [1; 0; 2]%nat) (orbit Kswap_ab dim c) /\
  invariant (permute [1; 0; 2]%nat) (orbit Ks2_static dim c).
Proof.
  intros dim c. repeat (match goal with |- _ /\ _ => split end);
    [apply centroid_sym|apply vertex_sym|apply d3_ab_sym|apply d3_aa_sym|apply c3_ab_sym|apply swap_ab_sym|apply s2_static_sym].
Qed.
Print Assumptions C09_triangle_symmetric.
Theorem C09_tetrahedron : forall k c, k <> T_plain ->
  barycentric 3 (t3_orbit k c) /\ perm_symmetric 4 (t3_orbit k c).
Proof. intros k c H. split; [apply t3_bary; auto|apply t3_sym; auto]. Qed.
Print Assumptions C09_tetrahedron.
Example C09_ex : length (t3_orbit T_s1111 [1/2; 1/4; 1/8]) = 24%nat /\
  nth 23 (t3_orbit T_s1111 [1/2; 1/4; 1/8]) [] = [1 - 1/2 - 1/4 - 1/8; 1/8; 1/4; 1/2].
Proof. split; reflexivity. Qed.

(* ------------------------------------------------------------------ C10 *)
Theorem C10_octahedral : forall dim c,
  cube_symmetric 3 (orbit Ksymm_r00 dim c) /\ cube_symmetric 3 (orbit Ksymm_rr0 dim c) /\
  cube_symmetric 3 (orbit Ksymm_rrr dim c) /\ cube_symmetric 3 (orbit Ksymm_rrs dim c) /\
  (cyclic3_symmetric (orbit Ksymm_rs0_roll dim c) /\ sign_symmetric 3 (orbit Ksymm_rs0_roll dim c)) /\
  (perm_symmetric 3 (orbit Ksymm_rss_pm dim c) /\ invariant (flip [true; true; true]) (orbit Ksymm_rss_pm dim c)).
Proof.
  intros dim c. split; [apply symm_r00_sym|]. split; [apply symm_rr0_sym|]. split; [apply symm_rrr_sym|].
  split; [apply symm_rrs_sym|]. split; [apply symm_rs0_roll_sym|apply symm_rss_pm_sym].
Qed.
Print Assumptions C10_octahedral.
(** Keys "0", "a", "a0" in every dimension. *)
Theorem C10_ncube : forall n c,
  cube_symmetric n (orbit K0 n c) /\ cube_symmetric n (orbit Ka n c) /\ ((1 <= n)%nat -> cube_symmetric n (orbit Ka0 n c)).
Proof.
  intros n c. split; [apply K0_cube_symmetric|]. split; [apply Ka_cube_symmetric|apply Ka0_cube_symmetric].
Qed.
Print Assumptions C10_ncube.
Theorem C10_sphere_symmetric : forall c,
  cube_symmetric 3 (u3_orbit U_a1 c) /\ cube_symmetric 3 (u3_orbit U_a2 c) /\ cube_symmetric 3 (u3_orbit U_a3 c) /\
  (forall k, In k [U_llm; U_llm2; U_pq0; U_pq02; U_rsw; U_rsw2] -> cube_symmetric 3 (u3_orbit k c)) /\
  (forall k, In k [U_rs0; U_rst] -> cyclic3_symmetric (u3_orbit k c) /\ sign_symmetric 3 (u3_orbit k c)) /\
  rotation3_symmetric (u3_orbit U_rst_weird c).
Proof.
  intros c. split; [apply u3_a1_sym|]. split; [apply u3_a2_sym|]. split; [apply u3_a3_sym|].
  split; [|split; [|apply u3_rst_weird_sym]].
  - intros k H. simpl in H.
    destruct H as [<-|[<-|[<-|[<-|[<-|[<-|[]]]]]]];
      [apply u3_llm2_sym|apply u3_llm2_sym|apply u3_pq02_sym|apply u3_pq02_sym|apply u3_rsw2_sym|apply u3_rsw2_sym].
  - intros k H. simpl in H. destruct H as [<-|[<-|[]]]; [apply u3_rs0_sym|apply u3_rst_sym].
Qed.
Print Assumptions C10_sphere_symmetric.
(** All generated points lie on the unit sphere; [u3_consistent] only constrains data rows that list all the
    coordinates explicitly. *)
Theorem C10_sphere_points : forall k col c,
  u3_params k col = Some c -> u3_consistent k col -> on_sphere 3 (u3_orbit k c).
Proof. apply u3_sphere. Qed.
Print Assumptions C10_sphere_points.
Example C10_ex : exists c, u3_params U_rs0 [3/5] = Some c /\ u3_consistent U_rs0 [3/5].
Proof. eexists. split; [|exact I]. simpl. rewrite rsqrt_ok by lra. reflexivity. Qed.
