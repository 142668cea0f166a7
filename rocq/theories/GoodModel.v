(** Model of the functions get_good_scheme and of the readers of the data files.  Names, sources, comments, tolerances and
    warnings are omitted. *)
From Coq Require Import Reals List Arith ZArith String.
From Verif Require Import Spec CombModel PyBase SymmModel OrbitModel C2Model C3Model S2Model S3Model T2Model T3Model U3Model E23Model.
Import ListNotations.
Local Notation length := List.length.
Open Scope R_scope.
Open Scope string_scope.

(** The entries of a JSON file that are used (c2/_helpers.py:59-66). *)
Record content := mk_content { c_degree : nat; c_factor : option R; c_data : list (string * (list R * list (list R))) }.

(** weights *= weight_factor (t2/_helpers.py:31-32) *)
Definition scale_rule (w : R) (q : rule) : rule := map (fun wp => (fst wp * w, snd wp)) q.
Definition scale_scheme (w : option R) (s : scheme) : scheme :=
  match w with None => s | Some w => mk_scheme (s_dim s) (scale_rule w (s_rule s)) (s_degree s) end.
(** value[0] = [val * w for val in value[0]] (c2/_helpers.py:67-70) *)
Definition scale_data (w : option R) (data : list (string * (list R * list (list R)))) : list (string * (list R * list (list R))) :=
  match w with
  | None => data
  | Some w => map (fun kv => (fst kv, (map (fun v => v * w) (fst (snd kv)), snd (snd kv)))) data
  end.
(** c2/_helpers.py:58-72 *)
Definition read_c2 (c : content) : option scheme := c2_scheme (scale_data (c_factor c) (c_data c)) (c_degree c).
(** t2/_helpers.py:64-73, 28-36 *)
Definition read_t2 (c : content) : option scheme :=
  let! s := t2_scheme (c_data c) (c_degree c) in Some (scale_scheme (c_factor c) s).
(** s2/_helpers.py:68-84, 28-36 *)
Definition read_s2 (c : content) : option scheme :=
  let! s := s2_scheme (c_data c) (c_degree c) in Some (scale_scheme (c_factor c) s).
(** t3/_helpers.py:182-191, 21-27 *)
Definition read_t3 (c : content) : option scheme :=
  let! s := t3_scheme (c_data c) (c_degree c) in Some (scale_scheme (c_factor c) s).
(** u3/_helpers.py:567-587 *)
Definition read_u3 (c : content) : option scheme := u3_scheme (scale_data (c_factor c) (c_data c)) (c_degree c).
(** e2r/_helpers.py:47-58, 20-26 and e2r2/_helpers.py:46-57, 20-26 *)
Definition read_e2 (c : content) : option scheme :=
  let! s := e2_scheme (c_data c) (c_degree c) in Some (scale_scheme (c_factor c) s).

(** c3/_witherden_vincent/__init__.py:48-74 *)
Definition c3_witherden_vincent_09 :=
  c3_scheme
    [("symm_r00", ([0.43327499574965454300983079319432200813 / 8], [[0.61368146959170899383488488974055688452]]));
     ("symm_rr0", ([0.091789806136177642171244588919646331302 / 8], [[0.87768712325767828648677575899433236264]]));
     ("symm_rrr", ([0.050148795299349029867451487724661687604 / 8; 0.19885983814402350032086871858560920797 / 8],
                   [[0.87009978466197591761506380886392483306; 0.56411080702003005426661899866307283066]]));
     ("symm_rrs", ([0.09611680351337336643247993847150603379 / 8],
                   [[0.43226790263086216441602486151694383909]; [0.93853042186467174532897686960307879508]]))] 9.
(** c3/_witherden_vincent/__init__.py:77-116 *)
Definition c3_witherden_vincent_11 :=
  c3_scheme
    [("symm_r00", ([0.2024770736128001905853371309670196589 / 8], [[0.81261433409962649639237559737974432611]]));
     ("symm_rr0", ([0.14519934586011569829250580079425982305 / 8], [[0.73466828699700801734638476986754918792]]));
     ("symm_rrr", ([0.11753834795645628038993180401068212711 / 8; 0.044643912078829241641001154282130043664 / 8;
                    0.21599204525496912931346666638444131361 / 8],
                   [[0.60167526419826270163441300578531749659; 0.85545576101775998467509147069034657598;
                     0.31339340451605472104577323055795129941]]));
     ("symm_rrs", ([0.061441994097835335202750044633046200824 / 8; 0.022614296138821884223196230668984478131 / 8],
                   [[0.45079993511450943037788434573026952398; 0.94124485721060326391115015763113464139];
                    [0.96509966551271026293028182312534456821; 0.35390281459663013491031287081289167626]]))] 11.
(** t2/_strang_fix_cowper/__init__.py:45-48; [roots] stands for numpy's polyroots (all roots in increasing order), given the
    coefficients from the highest power down (the code lists them from the lowest up). *)
Definition t2_strang_fix_cowper_04 (roots : list R -> list R) :=
  let r := roots [60; -60; 15; -1] in
  t2_scheme [("d3_ab", ([1/6], [[nth 2 r 0]; [nth 1 r 0]]))] 3.
(** t2/_lyness_jespersen.py:145-163 *)
Definition t2_lyness_jespersen_15 :=
  t2_scheme
    [("centroid", ([1.443156076777862e-01], []));
     ("d3_aa", ([2.852749028018549e-01 / 3; 9.737549286959440e-02 / 3; 3.096521116041552e-01 / 3],
                [[4.592925882927229e-01; 5.054722831703103e-02; 1.705693077517601e-01]]));
     ("d3_ab", ([1.633818850466092e-01 / 6], [[8.394777409957211e-03]; [7.284923929554041e-01]]))] 8.
(** t2/_lyness_jespersen.py:202-225 *)
Definition t2_lyness_jespersen_18 :=
  t2_scheme
    [("centroid", ([9.713579628279610e-02], []));
     ("d3_aa", ([9.400410068141950e-02 / 3; 2.334826230143263e-01 / 3; 2.389432167816271e-01 / 3; 7.673302697609430e-02 / 3],
                [[4.896825191987370e-01; 4.370895914929355e-01; 1.882035356190322e-01; 4.472951339445297e-02]]));
     ("d3_ab", ([2.597012362637364e-01 / 6], [[3.683841205473626e-02]; [7.411985987844980e-01]]))] 9.
(** t3/_keast/__init__.py:25-29 *)
Definition t3_keast_0 := t3_scheme [("s4", ([1], []))] 1.
(** s3/_stroud.py:80-140; [u3_14_1] is the rule of u3.stroud_u3_14_1() *)
Definition s3_stroud_14_1 (u3_14_1 : rule) :=
  let r := [3.242534234038097e-01; 6.133714327005908e-01; 8.360311073266362e-01; 9.681602395076261e-01] in
  let A := [3.284025994586210e-02; 9.804813271549834e-02; 1.262636728646019e-01; 7.618126780737085e-02] in
  let data := flat_map (fun i => map (fun j => (nth i A 0 * fst (nth j u3_14_1 (0, [])),
                                                map (fun x => nth i r 0 * x) (snd (nth j u3_14_1 (0, []))))) (seq 0 72)) (seq 0 4) in
  Some (mk_scheme 3 (scale_rule 3 data) 14).

(* ------------------------------------------------------------------ the selection *)
(** What get_good_scheme(degree) does: return a scheme, return None, or raise. *)
Inductive answer := Scheme (s : scheme) | NoScheme | Error.
(** The dictionary [schemes] of a module: the registered constructors, called without arguments ([None] in the inner
    option: the call raises); [None] for a name that is not registered. *)
Definition registry := string -> option (option scheme).
Definition registered (closed : list (string * option scheme)) (files : list string) (read : string -> option scheme) : registry :=
  fun name => match lookup closed name with
              | Some r => Some r
              | None => if existsb (String.eqb name) files then Some (read name) else None
              end.
(** if degree <= bound: return { ... }[degree](); return None.  All the names are looked up when the dictionary display is
    evaluated; an absent degree is a KeyError. *)
Definition good_lazy (bound : Z) (table : list (Z * string)) (schemes : registry) (degree : Z) : answer :=
  if (degree <=? bound)%Z then
    match mapM (fun e => let! c := schemes (snd e) in Some (fst e, c)) table with
    | None => Error
    | Some t => match find (fun e => (fst e =? degree)%Z) t with
                | Some (_, Some s) => Scheme s
                | _ => Error
                end
    end
  else NoScheme.
(** The variant of c3 and e3r2, in which every constructor of the table is called: { 0: schemes[...](), ... }[degree] *)
Definition good_eager (bound : Z) (table : list (Z * string)) (schemes : registry) (degree : Z) : answer :=
  if (degree <=? bound)%Z then
    match mapM (fun e => let! c := schemes (snd e) in let! s := c in Some (fst e, s)) table with
    | None => Error
    | Some t => match find (fun e => (fst e =? degree)%Z) t with
                | Some (_, s) => Scheme s
                | None => Error
                end
    end
  else NoScheme.

(* ------------------------------------------------------------------ c2 *)
(** The constructors registered under the names in the table (dunavant_00: c2/_dunavant/__init__.py:26, hammer_stroud_1_2:
    c2/_hammer_stroud.py:19, burnside: c2/_burnside.py:17, tyler_2: c2/_tyler.py:27; the others call _read on a data file).
    *)
Definition c2_closed : list (string * option scheme) :=
  [("dunavant_00", c2_dunavant_00); ("hammer_stroud_1_2", c2_hammer_stroud_1_2); ("burnside", c2_burnside);
   ("tyler_2", c2_tyler_2)].
Definition c2_files : list string :=
  ["rabinowitz_richter_1"; "witherden_vincent_11"; "witherden_vincent_13"; "rabinowitz_richter_6";
   "witherden_vincent_17"; "witherden_vincent_19"; "witherden_vincent_21"].
(** c2/_helpers.py:92-119 *)
Definition c2_table : list (Z * string) :=
  [(0, "dunavant_00"); (1, "dunavant_00"); (2, "hammer_stroud_1_2"); (3, "hammer_stroud_1_2");
   (4, "burnside"); (5, "burnside"); (6, "tyler_2"); (7, "tyler_2"); (8, "rabinowitz_richter_1");
   (9, "rabinowitz_richter_1"); (10, "witherden_vincent_11"); (11, "witherden_vincent_11");
   (12, "witherden_vincent_13"); (13, "witherden_vincent_13"); (14, "rabinowitz_richter_6");
   (15, "rabinowitz_richter_6"); (16, "witherden_vincent_17"); (17, "witherden_vincent_17");
   (18, "witherden_vincent_19"); (19, "witherden_vincent_19"); (20, "witherden_vincent_21");
   (21, "witherden_vincent_21")]%Z.
Definition c2_schemes (files : string -> content) : registry := registered c2_closed c2_files (fun name => read_c2 (files name)).
Definition c2_get_good_scheme (files : string -> content) (degree : Z) : answer :=
  good_lazy 22 c2_table (c2_schemes files) degree.

(* ------------------------------------------------------------------ c3 *)
(** The constructors registered under the names in the table (midpoint: c3/_classical.py:6, face_midpoint:
    c3/_classical.py:16, hammer_stroud_4_3: c3/_hammer_stroud.py:33, hammer_wymore: c3/_hammer_wymore.py:21,
    witherden_vincent_09: c3/_witherden_vincent/__init__.py:48, witherden_vincent_11: c3/_witherden_vincent/__init__.py:77).
    hammer_wymore is only called with 27/20 here. *)
Definition c3_closed : list (string * option scheme) :=
  [("midpoint", c3_midpoint); ("face_midpoint", c3_face_midpoint);
   ("hammer_stroud_4_3", c3_hammer_stroud_4_3); ("hammer_wymore", c3_hammer_wymore (27/20));
   ("witherden_vincent_09", c3_witherden_vincent_09); ("witherden_vincent_11", c3_witherden_vincent_11)].
(** c3/_helpers.py:55-72 *)
Definition c3_table : list (Z * string) :=
  [(0, "midpoint"); (1, "midpoint"); (2, "face_midpoint"); (3, "face_midpoint"); (4, "hammer_stroud_4_3");
   (5, "hammer_stroud_4_3"); (6, "hammer_wymore"); (7, "hammer_wymore"); (8, "witherden_vincent_09");
   (9, "witherden_vincent_09"); (10, "witherden_vincent_11"); (11, "witherden_vincent_11")]%Z.
Definition c3_schemes : registry := registered c3_closed [] (fun _ => None).
Definition c3_get_good_scheme (degree : Z) : answer :=
  good_eager 11 c3_table c3_schemes degree.

(* ------------------------------------------------------------------ t2 *)
(** The constructors registered under the names in the table (centroid: t2/_classical.py:6, hammer_marlowe_stroud_3:
    t2/_hammer_marlowe_stroud.py:39, strang_fix_cowper_04: t2/_strang_fix_cowper/__init__.py:45, hammer_marlowe_stroud_5:
    t2/_hammer_marlowe_stroud.py:49, lyness_jespersen_15: t2/_lyness_jespersen.py:145, lyness_jespersen_18:
    t2/_lyness_jespersen.py:202; the others call _read on a data file). *)
Definition t2_closed (roots : list R -> list R) : list (string * option scheme) :=
  [("centroid", t2_centroid); ("hammer_marlowe_stroud_3", t2_hammer_marlowe_stroud_3);
   ("strang_fix_cowper_04", t2_strang_fix_cowper_04 roots);
   ("hammer_marlowe_stroud_5", t2_hammer_marlowe_stroud_5); ("lyness_jespersen_15", t2_lyness_jespersen_15);
   ("lyness_jespersen_18", t2_lyness_jespersen_18)].
Definition t2_files : list string :=
  ["williams_shunn_jameson_3"; "strang_fix_cowper_09"; "laursen_gellert_11"; "witherden_vincent_10";
   "xiao_gimbutas_11"; "xiao_gimbutas_12"; "xiao_gimbutas_13"; "xiao_gimbutas_14"; "witherden_vincent_15";
   "xiao_gimbutas_16"; "xiao_gimbutas_17"; "witherden_vincent_18"; "dunavant_19"; "xiao_gimbutas_20";
   "xiao_gimbutas_21"; "xiao_gimbutas_22"; "xiao_gimbutas_23"; "xiao_gimbutas_24"; "xiao_gimbutas_25";
   "xiao_gimbutas_26"; "xiao_gimbutas_27"; "xiao_gimbutas_28"; "xiao_gimbutas_29"; "xiao_gimbutas_30";
   "xiao_gimbutas_31"; "xiao_gimbutas_32"; "xiao_gimbutas_33"; "xiao_gimbutas_34"; "xiao_gimbutas_35";
   "xiao_gimbutas_36"; "xiao_gimbutas_37"; "xiao_gimbutas_38"; "xiao_gimbutas_39"; "xiao_gimbutas_40";
   "xiao_gimbutas_41"; "xiao_gimbutas_42"; "xiao_gimbutas_43"; "xiao_gimbutas_44"; "xiao_gimbutas_45";
   "xiao_gimbutas_46"; "xiao_gimbutas_47"; "xiao_gimbutas_48"; "xiao_gimbutas_49"; "xiao_gimbutas_50"].
(** t2/_helpers.py:93-150 *)
Definition t2_table : list (Z * string) :=
  [(0, "centroid"); (1, "centroid"); (2, "hammer_marlowe_stroud_3"); (3, "strang_fix_cowper_04");
   (4, "williams_shunn_jameson_3"); (5, "hammer_marlowe_stroud_5"); (6, "strang_fix_cowper_09");
   (7, "laursen_gellert_11"); (8, "lyness_jespersen_15"); (9, "lyness_jespersen_18");
   (10, "witherden_vincent_10"); (11, "xiao_gimbutas_11"); (12, "xiao_gimbutas_12");
   (13, "xiao_gimbutas_13"); (14, "xiao_gimbutas_14"); (15, "witherden_vincent_15");
   (16, "xiao_gimbutas_16"); (17, "xiao_gimbutas_17"); (18, "witherden_vincent_18"); (19, "dunavant_19");
   (20, "xiao_gimbutas_20"); (21, "xiao_gimbutas_21"); (22, "xiao_gimbutas_22"); (23, "xiao_gimbutas_23");
   (24, "xiao_gimbutas_24"); (25, "xiao_gimbutas_25"); (26, "xiao_gimbutas_26"); (27, "xiao_gimbutas_27");
   (28, "xiao_gimbutas_28"); (29, "xiao_gimbutas_29"); (30, "xiao_gimbutas_30"); (31, "xiao_gimbutas_31");
   (32, "xiao_gimbutas_32"); (33, "xiao_gimbutas_33"); (34, "xiao_gimbutas_34"); (35, "xiao_gimbutas_35");
   (36, "xiao_gimbutas_36"); (37, "xiao_gimbutas_37"); (38, "xiao_gimbutas_38"); (39, "xiao_gimbutas_39");
   (40, "xiao_gimbutas_40"); (41, "xiao_gimbutas_41"); (42, "xiao_gimbutas_42"); (43, "xiao_gimbutas_43");
   (44, "xiao_gimbutas_44"); (45, "xiao_gimbutas_45"); (46, "xiao_gimbutas_46"); (47, "xiao_gimbutas_47");
   (48, "xiao_gimbutas_48"); (49, "xiao_gimbutas_49"); (50, "xiao_gimbutas_50")]%Z.
Definition t2_schemes (roots : list R -> list R) (files : string -> content) : registry := registered (t2_closed roots) t2_files (fun name => read_t2 (files name)).
Definition t2_get_good_scheme (roots : list R -> list R) (files : string -> content) (degree : Z) : answer :=
  good_lazy 50 t2_table (t2_schemes roots files) degree.

(* ------------------------------------------------------------------ t3 *)
(** The constructors registered under the names in the table (keast_0: t3/_keast/__init__.py:25, hammer_marlowe_stroud_1:
    t3/_hammer_marlowe_stroud.py:38, liu_vinokur_12: t3/_liu_vinokur.py:123; the others call _read on a data file). *)
Definition t3_closed : list (string * option scheme) :=
  [("keast_0", t3_keast_0); ("hammer_marlowe_stroud_1", t3_hammer_marlowe_stroud_1);
   ("liu_vinokur_12", t3_liu_vinokur_12)].
Definition t3_files : list string :=
  ["witherden_vincent_03"; "keast_7"; "witherden_vincent_07"; "witherden_vincent_08"; "witherden_vincent_09";
   "witherden_vincent_10"; "vioreanu_rokhlin_8"; "vioreanu_rokhlin_9"; "zhang_cui_liu_2"].
(** t3/_get_good_scheme.py:1-23 *)
Definition t3_table : list (Z * string) :=
  [(0, "keast_0"); (1, "keast_0"); (2, "hammer_marlowe_stroud_1"); (3, "witherden_vincent_03");
   (4, "liu_vinokur_12"); (5, "liu_vinokur_12"); (6, "keast_7"); (7, "witherden_vincent_07");
   (8, "witherden_vincent_08"); (9, "witherden_vincent_09"); (10, "witherden_vincent_10");
   (11, "vioreanu_rokhlin_8"); (12, "vioreanu_rokhlin_9"); (13, "vioreanu_rokhlin_9"); (14, "zhang_cui_liu_2")]%Z.
Definition t3_schemes (files : string -> content) : registry := registered t3_closed t3_files (fun name => read_t3 (files name)).
Definition t3_get_good_scheme (files : string -> content) (degree : Z) : answer :=
  good_lazy 14 t3_table (t3_schemes files) degree.

(* ------------------------------------------------------------------ s2 *)
(** The constructors registered under the names in the table (midpoint: s2/_classical.py:4, albrecht_collatz:
    s2/_albrecht_collatz.py:21, mysovskih_1: s2/_mysovskih.py:24, radon: s2/_radon.py:23, mysovskih_2: s2/_mysovskih.py:37;
    the others call _read on a data file).  mysovskih_1 and radon have the default alpha = 0. *)
Definition s2_closed : list (string * option scheme) :=
  [("midpoint", s2_midpoint); ("albrecht_collatz", s2_albrecht_collatz); ("mysovskih_1", s2_mysovskih_1 0);
   ("radon", s2_radon 0); ("mysovskih_2", s2_mysovskih_2)].
Definition s2_files : list string :=
  ["kim_song_6"; "luo_meng_2"; "cools_haegemans_13_1"; "kim_song_11"; "cools_kim_1"; "kim_song_15"].
(** s2/_helpers.py:103-128 *)
Definition s2_table : list (Z * string) :=
  [(0, "midpoint"); (1, "midpoint"); (2, "albrecht_collatz"); (3, "albrecht_collatz"); (4, "mysovskih_1");
   (5, "radon"); (6, "kim_song_6"); (7, "kim_song_6"); (8, "luo_meng_2"); (9, "luo_meng_2");
   (10, "mysovskih_2"); (11, "mysovskih_2"); (12, "cools_haegemans_13_1"); (13, "cools_haegemans_13_1");
   (14, "kim_song_11"); (15, "kim_song_11"); (16, "cools_kim_1"); (17, "cools_kim_1"); (18, "kim_song_15");
   (19, "kim_song_15")]%Z.
Definition s2_schemes (files : string -> content) : registry := registered s2_closed s2_files (fun name => read_s2 (files name)).
Definition s2_get_good_scheme (files : string -> content) (degree : Z) : answer :=
  good_lazy 19 s2_table (s2_schemes files) degree.

(* ------------------------------------------------------------------ s3 *)
(** The constructors registered under the names in the table (midpoint: s3/_classical.py:4, hammer_stroud_11_3:
    s3/_hammer_stroud.py:21, hammer_stroud_12_3: s3/_hammer_stroud.py:26, mysovskih: s3/_mysovskih.py:22, stroud_14_1:
    s3/_stroud.py:80). *)
Definition s3_closed (u3_14_1 : rule) : list (string * option scheme) :=
  [("midpoint", s3_midpoint); ("hammer_stroud_11_3", s3_hammer_stroud_11_3);
   ("hammer_stroud_12_3", s3_hammer_stroud_12_3); ("mysovskih", s3_mysovskih);
   ("stroud_14_1", s3_stroud_14_1 u3_14_1)].
(** s3/_helpers.py:49-68 *)
Definition s3_table : list (Z * string) :=
  [(0, "midpoint"); (1, "midpoint"); (2, "hammer_stroud_11_3"); (3, "hammer_stroud_11_3");
   (4, "hammer_stroud_12_3"); (5, "hammer_stroud_12_3"); (6, "mysovskih"); (7, "mysovskih");
   (8, "stroud_14_1"); (9, "stroud_14_1"); (10, "stroud_14_1"); (11, "stroud_14_1"); (12, "stroud_14_1");
   (13, "stroud_14_1"); (14, "stroud_14_1")]%Z.
Definition s3_schemes (u3_14_1 : rule) : registry := registered (s3_closed u3_14_1) [] (fun _ => None).
Definition s3_get_good_scheme (u3_14_1 : rule) (degree : Z) : answer :=
  good_lazy 7 s3_table (s3_schemes u3_14_1) degree.

(* ------------------------------------------------------------------ u3 *)
(** The constructors registered under the names in the table (albrecht_collatz_1: u3/_albrecht_collatz.py:19,
    albrecht_collatz_5: u3/_albrecht_collatz.py:41, mclaren_05: u3/_mclaren.py:68, mclaren_08: u3/_mclaren.py:111; the
    others call _read on a data file). *)
Definition u3_closed : list (string * option scheme) :=
  [("albrecht_collatz_1", u3_albrecht_collatz_1); ("albrecht_collatz_5", u3_albrecht_collatz_5);
   ("mclaren_05", u3_mclaren_05); ("mclaren_08", u3_mclaren_08)].
Definition u3_files : list string :=
  ["lebedev_003a"; "lebedev_015"; "lebedev_017"; "lebedev_019"; "lebedev_021"; "lebedev_023"; "heo_xu_25b";
   "lebedev_029"; "lebedev_031"; "lebedev_035"; "lebedev_041"; "lebedev_047"].
(** u3/_helpers.py:590-643 *)
Definition u3_table : list (Z * string) :=
  [(0, "lebedev_003a"); (1, "lebedev_003a"); (2, "lebedev_003a"); (3, "lebedev_003a");
   (4, "albrecht_collatz_1"); (5, "albrecht_collatz_1"); (6, "albrecht_collatz_5");
   (7, "albrecht_collatz_5"); (8, "mclaren_05"); (9, "mclaren_05"); (10, "mclaren_08"); (11, "mclaren_08");
   (12, "lebedev_015"); (13, "lebedev_015"); (14, "lebedev_015"); (15, "lebedev_015"); (16, "lebedev_017");
   (17, "lebedev_017"); (18, "lebedev_019"); (19, "lebedev_019"); (20, "lebedev_021"); (21, "lebedev_021");
   (22, "lebedev_023"); (23, "lebedev_023"); (24, "heo_xu_25b"); (25, "heo_xu_25b"); (26, "lebedev_029");
   (27, "lebedev_029"); (28, "lebedev_029"); (29, "lebedev_029"); (30, "lebedev_031"); (31, "lebedev_031");
   (32, "lebedev_035"); (33, "lebedev_035"); (34, "lebedev_035"); (35, "lebedev_035"); (36, "lebedev_041");
   (37, "lebedev_041"); (38, "lebedev_041"); (39, "lebedev_041"); (40, "lebedev_041"); (41, "lebedev_041");
   (42, "lebedev_047"); (43, "lebedev_047"); (44, "lebedev_047"); (45, "lebedev_047"); (46, "lebedev_047");
   (47, "lebedev_047")]%Z.
Definition u3_schemes (files : string -> content) : registry := registered u3_closed u3_files (fun name => read_u3 (files name)).
Definition u3_get_good_scheme (files : string -> content) (degree : Z) : answer :=
  good_lazy 47 u3_table (u3_schemes files) degree.

(* ------------------------------------------------------------------ e2r *)
(** The constructors registered under the names in the table (stroud_4_1: e2r/_stroud.py:23, stroud_secrest_5:
    e2r/_stroud_secrest.py:18, stroud_secrest_6: e2r/_stroud_secrest.py:31; the others call _read on a data file). *)
Definition e2r_closed : list (string * option scheme) :=
  [("stroud_4_1", e2r_stroud_4_1); ("stroud_secrest_5", e2r_stroud_secrest_5);
   ("stroud_secrest_6", e2r_stroud_secrest_6)].
Definition e2r_files : list string :=
  ["haegemans_piessens_b"; "rabinowitz_richter_2"; "rabinowitz_richter_5"].
(** e2r/_helpers.py:61-82 *)
Definition e2r_table : list (Z * string) :=
  [(0, "stroud_4_1"); (1, "stroud_4_1"); (2, "stroud_4_1"); (3, "stroud_4_1"); (4, "stroud_4_1");
   (5, "stroud_secrest_5"); (6, "stroud_secrest_6"); (7, "stroud_secrest_6"); (8, "haegemans_piessens_b");
   (9, "haegemans_piessens_b"); (10, "rabinowitz_richter_2"); (11, "rabinowitz_richter_2");
   (12, "rabinowitz_richter_5"); (13, "rabinowitz_richter_5"); (14, "rabinowitz_richter_5");
   (15, "rabinowitz_richter_5")]%Z.
Definition e2r_schemes (files : string -> content) : registry := registered e2r_closed e2r_files (fun name => read_e2 (files name)).
Definition e2r_get_good_scheme (files : string -> content) (degree : Z) : answer :=
  good_lazy 15 e2r_table (e2r_schemes files) degree.

(* ------------------------------------------------------------------ e2r2 *)
(** The constructors registered under the names in the table (stroud_4_1: e2r2/_stroud.py:24, stroud_secrest_5:
    e2r2/_stroud_secrest.py:18, stroud_secrest_6: e2r2/_stroud_secrest.py:29; the others call _read on a data file). *)
Definition e2r2_closed : list (string * option scheme) :=
  [("stroud_4_1", e2r2_stroud_4_1); ("stroud_secrest_5", e2r2_stroud_secrest_5);
   ("stroud_secrest_6", e2r2_stroud_secrest_6)].
Definition e2r2_files : list string :=
  ["haegemans_piessens_a"; "rabinowitz_richter_2"; "rabinowitz_richter_5"].
(** e2r2/_helpers.py:60-81 *)
Definition e2r2_table : list (Z * string) :=
  [(0, "stroud_4_1"); (1, "stroud_4_1"); (2, "stroud_4_1"); (3, "stroud_4_1"); (4, "stroud_4_1");
   (5, "stroud_secrest_5"); (6, "stroud_secrest_6"); (7, "stroud_secrest_6"); (8, "haegemans_piessens_a");
   (9, "haegemans_piessens_a"); (10, "rabinowitz_richter_2"); (11, "rabinowitz_richter_2");
   (12, "rabinowitz_richter_5"); (13, "rabinowitz_richter_5"); (14, "rabinowitz_richter_5");
   (15, "rabinowitz_richter_5")]%Z.
Definition e2r2_schemes (files : string -> content) : registry := registered e2r2_closed e2r2_files (fun name => read_e2 (files name)).
Definition e2r2_get_good_scheme (files : string -> content) (degree : Z) : answer :=
  good_lazy 15 e2r2_table (e2r2_schemes files) degree.

(* ------------------------------------------------------------------ e3r *)
(** The constructors registered under the names in the table (stroud_secrest_08: e3r/_stroud_secrest.py:30,
    stroud_secrest_10: e3r/_stroud_secrest.py:59). *)
Definition e3r_closed : list (string * option scheme) :=
  [("stroud_secrest_08", e3r_stroud_secrest_08); ("stroud_secrest_10", e3r_stroud_secrest_10)].
(** e3r/_helpers.py:34-46 *)
Definition e3r_table : list (Z * string) :=
  [(0, "stroud_secrest_08"); (1, "stroud_secrest_08"); (2, "stroud_secrest_08"); (3, "stroud_secrest_08");
   (4, "stroud_secrest_08"); (5, "stroud_secrest_08"); (6, "stroud_secrest_10"); (7, "stroud_secrest_10")]%Z.
Definition e3r_schemes : registry := registered e3r_closed [] (fun _ => None).
Definition e3r_get_good_scheme (degree : Z) : answer :=
  good_lazy 7 e3r_table e3r_schemes degree.

(* ------------------------------------------------------------------ e3r2 *)
(** The constructors registered under the names in the table (stroud_secrest_08a: e3r2/_stroud_secrest.py:34,
    stroud_secrest_10b: e3r2/_stroud_secrest.py:93). *)
Definition e3r2_closed : list (string * option scheme) :=
  [("stroud_secrest_08a", e3r2_stroud_secrest_08a); ("stroud_secrest_10b", e3r2_stroud_secrest_10b)].
(** e3r2/_helpers.py:34-46 *)
Definition e3r2_table : list (Z * string) :=
  [(0, "stroud_secrest_08a"); (1, "stroud_secrest_08a"); (2, "stroud_secrest_08a");
   (3, "stroud_secrest_08a"); (4, "stroud_secrest_08a"); (5, "stroud_secrest_08a");
   (6, "stroud_secrest_10b"); (7, "stroud_secrest_10b")]%Z.
Definition e3r2_schemes : registry := registered e3r2_closed [] (fun _ => None).
Definition e3r2_get_good_scheme (degree : Z) : answer :=
  good_eager 7 e3r2_table e3r2_schemes degree.
