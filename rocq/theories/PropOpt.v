(** C52: quadpy-optimize keeps the structure of a data file, writes a scheme of the same degree with a smaller residual together
    with that residual, and touches nothing else; otherwise it leaves the file alone. *)
From Coq Require Import Reals List Arith Lia Lra Bool String.
From Verif Require Import Spec RsumLemmas PyBase SymmModel OrbitModel SchemeTools SymmProofs T2Model GoodModel GoodProofs OptModel OptSpec OptProofs OptProofs2.
Import ListNotations.
Set Bullet Behavior "Strict Subproofs".
Local Notation length := List.length.
Local Notation concat := List.concat.
Local Notation combine := List.combine.
Open Scope R_scope.
Open Scope string_scope.
Open Scope list_scope.

Lemma scaled_with_weights w (d : list (string * (list R * list (list R)))) :
  scaled w d = with_weights d (map (fun kv => map (fun v => v * w) (fst (snd kv))) d) /\
  weights_like d (map (fun kv => map (fun v => v * w) (fst (snd kv))) d).
Proof.
  split.
  - unfold scaled, with_weights. induction d as [|[k [u r]] d IH]; [reflexivity|]. cbn [map List.combine fst snd]. rewrite IH. reflexivity.
  - unfold weights_like. induction d; cbn; constructor; auto. rewrite map_length. reflexivity.
Qed.
Lemma same_with_weights (d : list (string * (list R * list (list R)))) :
  d = with_weights d (map (fun kv => fst (snd kv)) d) /\ weights_like d (map (fun kv => fst (snd kv)) d).
Proof.
  split.
  - unfold with_weights. induction d as [|[k [u r]] d IH]; [reflexivity|]. cbn [map List.combine fst snd]. rewrite <- IH. reflexivity.
  - unfold weights_like. induction d; cbn; constructor; auto.
Qed.
Lemma content_of_get c co : content_of c = Some co -> get c "degree" = Some (Integer (c_degree co)) /\ get c "data" = Some (Data (c_data co)) /\
  get c "weight factor" = match c_factor co with Some w => Some (Number w) | None => None end.
Proof.
  unfold content_of. destruct (get c "degree") as [[| |n| |]|]; try discriminate. destruct (get c "data") as [[d| | | |]|]; try discriminate.
  destruct (get c "weight factor") as [[|w| | |]|]; try discriminate; intros H; injection H as <-; auto.
Qed.
Lemma read_t2_weights co s : read_t2 co = Some s -> exists ws, weights_like (c_data co) ws /\
  t2_scheme (with_weights (c_data co) ws) (c_degree co) = Some s.
Proof.
  unfold read_t2. destruct (c_factor co) as [w|]; intros H.
  - destruct (scaled_with_weights w (c_data co)) as [E L]. eexists. split; [exact L|]. rewrite <- E, t2_scheme_scaled. exact H.
  - destruct (same_with_weights (c_data co)) as [E L]. eexists. split; [exact L|]. rewrite <- E. destruct (t2_scheme _ _) as [s0|]; [|discriminate]. exact H.
Qed.
Lemma t2_scheme_expand d n s : t2_scheme d n = Some s -> exists pw, gen_expand t2_cols t2_orb d = Some pw /\ s_rule s = mk_rule pw /\ s_degree s = n.
Proof. unfold t2_scheme. rewrite <- t2_expand. destruct (gen_expand t2_cols t2_orb d) as [pw|]; [|discriminate]. intros H; injection H as <-. eauto. Qed.

(** The optimized data have the same keys and sizes, give a scheme, the number reported is the residual of that scheme, and, if the
    points of the given scheme determine its weights, it is smaller than the residual of the given scheme. *)
Theorem C52_optimize : forall lstsq minimize polys int_p0 content co s data' v,
  least_squares lstsq -> reports_value minimize -> (forall n, polys n <> []) ->
  content_of content = Some co -> read_t2 co = Some s -> regular t2_cols (c_data co) ->
  optimize lstsq minimize polys int_p0 content = Improved data' v ->
  same_structure (c_data co) data' /\
  exists s', t2_scheme data' (c_degree co) = Some s' /\ s_degree s' = s_degree s /\
    v = residual (polys (c_degree co)) int_p0 (s_rule s') /\
    (determined t2_cols t2_orb (polys (c_degree co)) (c_data co) -> v < residual (polys (c_degree co)) int_p0 (s_rule s)).
Proof.
  intros lstsq minimize polys int_p0 content co s data' v HL HM HP HC HS HR. destruct (content_of_get _ _ HC) as [Gn [Gd _]].
  unfold optimize. destruct (get content "domain") as [[| | |dom|]|]; try discriminate.
  destruct (existsb _ ["t2"; "s2"; "c2"; "u3"]); [|discriminate]. destruct (negb (existsb _ _)); [discriminate|]. destruct (negb (takes_dim _)); [discriminate|].
  rewrite Gn, Gd. intros H.
  destruct (optimize_improved t2_cols t2_orb t2_orb_length t2_cols_length lstsq minimize (polys (c_degree co)) int_p0 (c_data co) data' v HL HM (HP _) HR H)
    as (St & _ & (pw' & Ep & Ev) & Hd).
  destruct (read_t2_weights _ _ HS) as [ws [Lw Es]]. destruct (t2_scheme_expand _ _ _ Es) as (pw & Epw & Er & Edg).
  split; auto. exists (mk_scheme 2 (mk_rule pw') (c_degree co)). split; [unfold t2_scheme; rewrite <- t2_expand, Ep; reflexivity|].
  split; [rewrite Edg; reflexivity|]. split; auto. intros HD. destruct (Hd HD ws Lw) as [pw2 [E2 Lt]]. rewrite Epw in E2. injection E2 as <-. rewrite Er. exact Lt.
Qed.
Print Assumptions C52_optimize.

(** What is written: every entry but data, test_tolerance and comments is as before, the note has been added to the comments unless
    it was there, data is the last entry, the tolerance is the number reported, and reading the file gives the optimized scheme. *)
Theorem C52_written : forall lstsq minimize polys int_p0 content co c',
  content_of content = Some co -> cli_main lstsq minimize polys int_p0 content = Written c' ->
  exists data' v, optimize lstsq minimize polys int_p0 content = Improved data' v /\
    (forall k, k <> "data" -> k <> "test_tolerance" -> k <> "comments" -> get c' k = get content k) /\
    get c' "test_tolerance" = Some (Number v) /\ last (map fst c') "" = "data" /\
    (exists l, get c' "comments" = Some (Texts l) /\ In note l /\
       match get content "comments" with None => l = [note] | Some old => old = Texts l \/ exists l0, old = Texts l0 /\ ~ In note l0 /\ l = l0 ++ [note] end) /\
    exists co', content_of c' = Some co' /\ c_degree co' = c_degree co /\ read_t2 co' = t2_scheme data' (c_degree co).
Proof.
  intros lstsq minimize polys int_p0 content co c' HC. destruct (content_of_get _ _ HC) as [Gn [Gd Gw]]. unfold cli_main.
  destruct (get content "name") as [nm|]; [|discriminate]. destruct (optimize _ _ _ _ content) as [data' v| |]; try discriminate.
  destruct (unscale content data') as [d2|] eqn:Eu; [|discriminate]. cbn [bind].
  destruct (add_comment content) as [c1|] eqn:Ec; [|discriminate]. cbn [bind]. destruct (get c1 "test_tolerance"); [|discriminate]. cbn [bind].
  destruct (data_last _) as [c2|] eqn:El; [|discriminate]. intros H. injection H as <-. exists data', v. split; [reflexivity|].
  destruct (data_last_get _ _ El) as [Gl Ll]. destruct (add_comment_get _ _ Ec) as [Gc (l & Cl & Nl & Ol)].
  assert (G : forall k, get c2 k = if String.eqb "test_tolerance" k then Some (Number v) else if String.eqb "data" k then Some (Data d2) else get c1 k).
  { intros k. rewrite Gl, !get_put. reflexivity. }
  split; [|split; [|split; [|split]]].
  - intros k N1 N2 N3. rewrite G. destruct (String.eqb_spec "test_tolerance" k); [congruence|]. destruct (String.eqb_spec "data" k); [congruence|]. apply Gc. auto.
  - rewrite G. reflexivity.
  - exact Ll.
  - exists l. rewrite G. cbn [String.eqb Ascii.eqb Bool.eqb]. split; auto. split; auto.
    destruct Ol as [[Ho _]|[[Ho E]|(l0 & Ho & N & E)]]; rewrite Ho; auto. right. exists l0. auto.
  - unfold content_of. rewrite !G. cbn [String.eqb Ascii.eqb Bool.eqb]. rewrite !Gc by discriminate. rewrite Gn, Gw.
    destruct (c_factor co) as [w|]; eexists; (split; [reflexivity|]); (split; [reflexivity|]); unfold read_t2; cbn [c_data c_degree c_factor].
    + rewrite <- t2_scheme_scaled. f_equal. symmetry. eapply unscale_scaled; eauto.
    + unfold unscale in Eu. rewrite Gw in Eu. injection Eu as ->. destruct (t2_scheme _ _); reflexivity.
Qed.
Print Assumptions C52_written.

(** Reading the file before and after. *)
Theorem C52_file : forall lstsq minimize polys int_p0 content co s c',
  least_squares lstsq -> reports_value minimize -> (forall n, polys n <> []) ->
  content_of content = Some co -> read_t2 co = Some s -> regular t2_cols (c_data co) ->
  determined t2_cols t2_orb (polys (c_degree co)) (c_data co) ->
  cli_main lstsq minimize polys int_p0 content = Written c' ->
  exists co' s', content_of c' = Some co' /\ read_t2 co' = Some s' /\ s_degree s' = s_degree s /\
    residual (polys (c_degree co)) int_p0 (s_rule s') < residual (polys (c_degree co)) int_p0 (s_rule s) /\
    get c' "test_tolerance" = Some (Number (residual (polys (c_degree co)) int_p0 (s_rule s'))).
Proof.
  intros lstsq minimize polys int_p0 content co s c' HL HM HP HC HS HR HD HW.
  destruct (C52_written _ _ _ _ _ _ _ HC HW) as (data' & v & Eo & _ & Gt & _ & _ & co' & Hc' & Ed & Er).
  destruct (C52_optimize _ _ _ _ _ _ _ _ _ HL HM HP HC HS HR Eo) as (_ & s' & Es & Eg & Ev & Hlt).
  exists co', s'. split; auto. split; [congruence|]. split; auto. rewrite <- Ev. auto.
Qed.
Print Assumptions C52_file.

(** Without an improvement the file is left as it was. *)
Theorem C52_no_improvement : forall lstsq minimize polys int_p0 content,
  get content "name" <> None -> optimize lstsq minimize polys int_p0 content = NotImproved -> cli_main lstsq minimize polys int_p0 content = Unchanged.
Proof. intros lstsq minimize polys int_p0 content Hn E. unfold cli_main. rewrite E. destruct (get content "name"); [reflexivity|congruence]. Qed.
Print Assumptions C52_no_improvement.

(** A file of any other domain is never optimized, although S2, C2 and U3 are accepted by name. *)
Theorem C52_other_domains_refuted : forall lstsq minimize polys int_p0 content domain,
  get content "domain" = Some (Text domain) -> lower domain <> "t2" -> cli_main lstsq minimize polys int_p0 content = Failed.
Proof.
  intros lstsq minimize polys int_p0 content domain G N. unfold cli_main, optimize. rewrite G. destruct (get content "name"); [|reflexivity]. cbv zeta. set (d := lower domain) in *.
  cbn [existsb]. rewrite (proj2 (String.eqb_neq d "t2") N). cbn [orb].
  destruct (String.eqb_spec d "s2") as [->|]; [reflexivity|]. destruct (String.eqb_spec d "c2") as [->|]; [reflexivity|].
  destruct (String.eqb_spec d "u3") as [->|]; reflexivity.
Qed.
Print Assumptions C52_other_domains_refuted.

(* ------------------------------------------------------------------ runs *)
Definition e2 (x : point) : R := nth 0 x 0 * nth 1 x 0 + nth 1 x 0 * nth 2 x 0 + nth 0 x 0 * nth 2 x 0.
Definition e3 (x : point) : R := nth 0 x 0 * nth 1 x 0 * nth 2 x 0.
(** Polynomials with mean zero on the triangle behind the constant: two for the run, three for the counterexample. *)
Definition ex_polys (n : nat) : list (point -> R) := [(fun _ => 1); (fun x => e2 x - 1/4)].
Definition ex_polys3 (n : nat) : list (point -> R) := [(fun _ => 1); (fun x => e2 x - 1/4); (fun x => e3 x - 1/60)].

Ltac run := lazy -[Rplus Rmult Rminus Ropp Rdiv Rinv IZR pow sqrt e2 e3 sq_dist Rle_dec].
Lemma goal_one lstsq a : least_squares lstsq -> exists w r,
  get_w_from_x t2_cols t2_orb lstsq (ex_polys 2) 1 [("d3_aa", Grid 1 1)] [1%nat] [a] = Some (Some [w], sqrt r) /\
  r = (3 * w - 1) ^ 2 + (3 * (2 * a - 3 * a ^ 2 - 1/4) * w) ^ 2 /\
  forall w', r <= (3 * w' - 1) ^ 2 + (3 * (2 * a - 3 * a ^ 2 - 1/4) * w') ^ 2.
Proof.
  intros HL. set (A := [[1 + (1 + (1 + 0))]; [(e2 [a; a; 1 - 2 * a] - 1/4) + ((e2 [a; 1 - 2 * a; a] - 1/4) + ((e2 [1 - 2 * a; a; a] - 1/4) + 0))]]).
  destruct (HL A [1; 0] 1%nat) as (w & res & rank & E & Lw & Lr & Ir & Fr & _).
  { discriminate. } { intros row [<-|[<-|[]]]; reflexivity. } { reflexivity. }
  assert (I : independent A 1).
  { intros [|c [|]] Lc H; try discriminate. specialize (H _ (or_introl eq_refl)). unfold dot in H. cbn in H. constructor; [lra|constructor]. }
  apply Ir in I. destruct Fr as (r & Er & Vr & Mr); [exact I|cbn; lia|]. destruct w as [|w [|]]; try discriminate.
  assert (SD : forall w', sq_dist A [w'] [1; 0] = (3 * w' - 1) ^ 2 + (3 * (2 * a - 3 * a ^ 2 - 1/4) * w') ^ 2).
  { intros w'. unfold sq_dist, dot, A, e2. cbn. ring. }
  exists w, r. split; [|split].
  - run. unfold A in E. rewrite E, I, Er. reflexivity.
  - rewrite Vr. apply SD.
  - intros w'. rewrite <- SD. apply Mr. reflexivity.
Qed.
Definition sum3 (p : point -> R) (a : R) : R := p [a; a; 1 - 2 * a] + (p [a; 1 - 2 * a; a] + (p [1 - 2 * a; a; a] + 0)).
Definition matrix3 (a b : R) : list (list R) := map (fun p => [sum3 p a; sum3 p b]) (ex_polys3 2).
Definition dist3 (a b w u : R) : R := (3 * w + 3 * u - 1) ^ 2 + (3 * (2 * a - 3 * a ^ 2 - 1/4) * w + 3 * (2 * b - 3 * b ^ 2 - 1/4) * u) ^ 2
  + (3 * (a ^ 2 * (1 - 2 * a) - 1/60) * w + 3 * (b ^ 2 * (1 - 2 * b) - 1/60) * u) ^ 2.
Lemma dist3_ok a b w u : sq_dist (matrix3 a b) [w; u] [1; 0; 0] = dist3 a b w u.
Proof. unfold sq_dist, dot, matrix3, sum3, dist3, e2, e3, ex_polys3. cbn. unfold e2, e3. cbn. ring. Qed.
Lemma goal_two lstsq a b : least_squares lstsq ->
  (independent (matrix3 a b) 2 -> exists w u r, get_w_from_x t2_cols t2_orb lstsq (ex_polys3 2) 1 [("d3_aa", Grid 1 2)] [2%nat] [a; b] = Some (Some [w; u], sqrt r) /\
    r = dist3 a b w u /\ forall w' u', r <= dist3 a b w' u') /\
  (~ independent (matrix3 a b) 2 -> get_w_from_x t2_cols t2_orb lstsq (ex_polys3 2) 1 [("d3_aa", Grid 1 2)] [2%nat] [a; b] = Some (None, 1)).
Proof.
  intros HL. destruct (HL (matrix3 a b) [1; 0; 0] 2%nat) as (w & res & rank & E & Lw & Lr & Ir & Fr & _).
  { discriminate. } { intros row [<-|[<-|[<-|[]]]]; reflexivity. } { reflexivity. }
  split; intros I.
  - apply Ir in I. destruct Fr as (r & Er & Vr & Mr); [exact I|cbn; lia|]. destruct w as [|w [|u [|]]]; try discriminate.
    exists w, u, r. split; [|split].
    + run. unfold matrix3, ex_polys3, sum3 in E. cbn [map] in E. rewrite E, I, Er. reflexivity.
    + rewrite Vr. apply dist3_ok.
    + intros w' u'. rewrite <- dist3_ok. apply Mr. reflexivity.
  - assert (R1 : (rank <= 1)%nat) by (destruct (Nat.eq_dec rank 2) as [X|X]; [exfalso; apply I, Ir, X|lia]).
    run. unfold matrix3, ex_polys3, sum3 in E. cbn [map] in E. rewrite E. destruct rank as [|[|rank]]; [reflexivity|reflexivity|lia].
Qed.

(** A file with a weight factor, improved in one step to a rule without error, and its text afterwards. *)
Definition ex_file : dict :=
  [("name", Text "example"); ("domain", Text "T2"); ("degree", Integer 2); ("data", Data [("d3_aa", ([1/6], [[1/4]]))]);
   ("weight factor", Number 2); ("test_tolerance", Number 1)].
Definition ex_content : content := mk_content 2 (Some 2) [("d3_aa", ([1/6], [[1/4]]))].
Example C52_ex : exists lstsq minimize s c', least_squares lstsq /\ reports_value minimize /\ (forall n, ex_polys n <> []) /\
  content_of ex_file = Some ex_content /\ read_t2 ex_content = Some s /\ regular t2_cols (c_data ex_content) /\
  determined t2_cols t2_orb (ex_polys 2) (c_data ex_content) /\
  cli_main lstsq minimize ex_polys 1 ex_file = Written c' /\ get c' "test_tolerance" = Some (Number 0) /\ map fst c' = ["name"; "domain"; "degree"; "weight factor"; "test_tolerance"; "comments"; "data"].
Proof.
  destruct least_squares_exists as [lstsq HL]. exists lstsq, (try_point [1/2]).
  destruct (goal_one lstsq (1/4) HL) as (w0 & r0 & E0 & V0 & _). destruct (goal_one lstsq (1/2) HL) as (w1 & r1 & E1 & V1 & M1).
  assert (R1 : r1 = 0). { specialize (M1 (1/3)). assert (P := pow2_ge_0 (3 * w1 - 1)). assert (Q := pow2_ge_0 (3 * (2 * (1/2) - 3 * (1/2) ^ 2 - 1/4) * w1)). lra. }
  assert (R0 : 0 < r0). { rewrite V0. assert (P := pow2_ge_0 (3 * w0 - 1)). nra. }
  assert (S0 := sqrt_lt_R0 _ R0). assert (S1 : sqrt r1 = 0) by (rewrite R1; apply sqrt_0). rewrite S1 in E1.
  assert (OP : optimize lstsq (try_point [1/2]) ex_polys 1 ex_file = Improved [("d3_aa", ([w1], [[1/2]]))] 0).
  { change (optimize lstsq (try_point [1/2]) ex_polys 1 ex_file) with (optimize_data t2_cols t2_orb lstsq (try_point [1/2]) (ex_polys 2) 1 [("d3_aa", ([1/6], [[1/4]]))]).
    unfold optimize_data. change (mapM _ _) with (Some [("d3_aa", Grid 1 1)]). cbv beta iota zeta. cbn [concat map snd app fst List.length].
    rewrite E0. cbn [bind snd]. unfold try_point at 1. rewrite E0, E1. cbn [bind snd]. destruct (Rle_dec 0 (sqrt r0)) as [|N]; [|lra].
    destruct (Rle_dec (sqrt r0) 0) as [|_]; [lra|]. rewrite E1. reflexivity. }
  eexists. eexists. split; [exact HL|]. split; [apply try_point_reports|]. split; [intros n; discriminate|]. split; [reflexivity|]. split; [reflexivity|].
  split; [|split; [|split]].
  - constructor; [|constructor]. split; [|reflexivity]. intros cols. cbn. intros H. injection H as <-. reflexivity.
  - intros ws pw L Ew Hz. inversion L as [|? ws0 ? ws1 L0 L1]; subst. inversion L1; subst. cbn in L0. destruct ws0 as [|x [|]]; try discriminate.
    specialize (Hz _ (or_introl eq_refl)). revert Ew. run. intros Ew. injection Ew as <-. revert Hz. run. intros Hz. constructor; [constructor; [lra|constructor]|constructor].
  - unfold cli_main. rewrite OP. change (get ex_file "name") with (Some (Text "example")). cbv iota. unfold unscale. change (get ex_file "weight factor") with (Some (Number 2)).
    cbn [mapM fst snd bind]. unfold rdiv. destruct (Req_EM_T 2 0) as [|_]; [lra|]. cbn [bind]. reflexivity.
  - split; reflexivity.
Qed.

(** If the points of the given scheme do not determine its weights, a worse scheme can be written over it: the residual of the start
    is then taken to be 1, whatever the weights in the file are. *)
Theorem C52_rank_deficient_refuted : exists lstsq minimize data data' v s s', least_squares lstsq /\ reports_value minimize /\ regular t2_cols data /\
  optimize lstsq minimize ex_polys3 1 [("domain", Text "T2"); ("degree", Integer 2); ("data", Data data)] = Improved data' v /\
  t2_scheme data 2 = Some s /\ t2_scheme data' 2 = Some s' /\
  residual (ex_polys3 2) 1 (s_rule s) = 1/60 /\ v = residual (ex_polys3 2) 1 (s_rule s') /\ 35/37 <= v.
Proof.
  destruct least_squares_exists as [lstsq HL]. set (data := [("d3_aa", ([1/6; 1/6], [[1/2; 1/2]]))]).
  destruct (goal_two lstsq (1/2) (1/2) HL) as [_ E0]. destruct (goal_two lstsq (4/3) (-(2/3)) HL) as [E1 _].
  assert (N0 : ~ independent (matrix3 (1/2) (1/2)) 2).
  { intros I. assert (F := I [1; -1] eq_refl). assert (Forall (fun t => t = 0) [1; -1]) as X; [|inversion X; lra].
    apply F. intros row [<-|[<-|[<-|[]]]]; unfold dot; cbn; ring. }
  assert (I1 : independent (matrix3 (4/3) (-(2/3))) 2).
  { intros [|c [|d [|]]] Lc H; try discriminate. assert (H1 := H _ (or_introl eq_refl)). assert (H2 := H _ (or_intror (or_intror (or_introl eq_refl)))).
    unfold dot, sum3, e3 in H1, H2. cbn in H1, H2. constructor; [lra|constructor; [lra|constructor]]. }
  specialize (E0 N0). destruct (E1 I1) as (w & u & r & Ew & Vr & Mr). clear E1.
  assert (Rl : 1225/1369 <= r).
  { rewrite Vr. unfold dist3. match goal with |- _ <= _ + _ + ?x ^ 2 => assert (P := pow2_ge_0 x) end. set (s := 3 * w + 3 * u).
    replace (3 * (2 * (4/3) - 3 * (4/3) ^ 2 - 1/4) * w + 3 * (2 * (-(2/3)) - 3 * (-(2/3)) ^ 2 - 1/4) * u) with (-(35/12) * s) by (unfold s; field).
    apply Rle_trans with ((s - 1) ^ 2 + (-(35/12) * s) ^ 2); [|lra]. assert (Q := pow2_ge_0 (37/12 * s - 12/37)). nra. }
  assert (Ru : r < 1).
  { eapply Rle_lt_trans; [apply (Mr (144/1369/12 * (28/27 - 1/60)) (144/1369/12 * (80/27 + 1/60)))|]. unfold dist3. lra. }
  assert (Sl : 35/37 <= sqrt r). { replace (35/37) with (sqrt (1225/1369)); [apply sqrt_le_1_alt; exact Rl|]. replace (1225/1369) with ((35/37) * (35/37)) by field. apply sqrt_square. lra. }
  assert (Su : sqrt r < 1). { rewrite <- sqrt_1. apply sqrt_lt_1_alt. lra. }
  assert (OP : optimize lstsq (try_point [4/3; -(2/3)]) ex_polys3 1 [("domain", Text "T2"); ("degree", Integer 2); ("data", Data data)] =
    Improved [("d3_aa", ([w; u], [[4/3; -(2/3)]]))] (sqrt r)).
  { change (optimize lstsq (try_point [4/3; -(2/3)]) ex_polys3 1 _) with (optimize_data t2_cols t2_orb lstsq (try_point [4/3; -(2/3)]) (ex_polys3 2) 1 data).
    unfold optimize_data, data. change (mapM _ _) with (Some [("d3_aa", Grid 1 2)]). cbv beta iota zeta. cbn [concat map snd app fst List.length].
    rewrite E0. cbn [bind snd]. unfold try_point at 1. rewrite E0, Ew. cbn [bind snd]. destruct (Rle_dec (sqrt r) 1) as [|N]; [|lra].
    destruct (Rle_dec 1 (sqrt r)) as [|_]; [lra|]. rewrite Ew. reflexivity. }
  assert (RG : regular t2_cols data).
  { constructor; [|constructor]. split; [|reflexivity]. intros cols. cbn. intros H. injection H as <-. reflexivity. }
  destruct (t2_scheme data 2) as [s|] eqn:Es; [|discriminate].
  set (content := [("domain", Text "T2"); ("degree", Integer 2); ("data", Data data)]) in *.
  destruct (C52_optimize lstsq (try_point [4/3; -(2/3)]) ex_polys3 1 content (mk_content 2 None data) s _ _ HL (try_point_reports _) ltac:(intros; discriminate) eq_refl
    ltac:(unfold read_t2; cbn [c_data c_degree]; rewrite Es; reflexivity) RG OP) as (_ & s' & Es' & _ & Ev & _).
  exists lstsq, (try_point [4/3; -(2/3)]), data, [("d3_aa", ([w; u], [[4/3; -(2/3)]]))], (sqrt r), s, s'.
  split; [exact HL|]. split; [apply try_point_reports|]. split; [exact RG|]. split; [exact OP|]. split; [exact Es|]. split; [exact Es'|].
  split; [|split; [exact Ev|exact Sl]].
  revert Es. run. intros Es. injection Es as <-. unfold residual. transitivity (sqrt ((1/60) * (1/60))); [|apply sqrt_square; lra]. f_equal. cbn. unfold e2, e3. cbn. field.
Qed.
Print Assumptions C52_rank_deficient_refuted.
