(** Model of the schemes of quadpy whose data are decimal literals, written by tools/gen_dec.py from the source text, one
    definition per Python function.  A literal stands for the exact decimal number, not for the nearest double; names and
    sources are omitted.  The result is the scheme together with its [test_tolerance] (helpers/_class.py:13), 1e-14 where the
    code gives none. *)
From Coq Require Import Reals List Arith ZArith String.
From Verif Require Import Spec CombModel PyBase SymmModel T2Model T3Model C2Model C3Model S2Model FelippaModel.
Import ListNotations.
Local Notation length := List.length.
Open Scope R_scope.
Open Scope string_scope.

(** The tol argument of the scheme constructors (helpers/_class.py:7-13). *)
Definition with_tol (o : option scheme) (tol : R) : option (scheme * R) := let! s := o in Some (s, tol).
(** s2/_wissmann_becker.py: untangle, weights /= pi, {"plain": [weights, points[0], points[1]]} (lines 30-33, 47-50, 67-70). *)
Definition s2_wissmann (data : list (R * list point)) (degree : nat) : option scheme :=
  let '(points, weights) := untangle data in
  s2_scheme [("plain", (map (fun w => w / PI) weights, [map (fun p => nth 0 p 0) points; map (fun p => nth 1 p 0) points]))] degree.
(** s2/_wissmann_becker.py:74-75 *)
Definition wb_z (a : R) : list point := [[0; a]].
(** s2/_wissmann_becker.py:78-79 *)
Definition wb_m (a b : R) : list point := [[a; b]; [- a; b]].


(** *** t2 *)
(** t2/_lyness_jespersen.py:43-50 *)
Definition t2_lyness_jespersen_05 : option (scheme * R) :=
  with_tol (t2_scheme
     [("d3_aa", ([(3.298552309659655e-01 / 3); (6.701447690340345e-01 / 3)], [[9.157621350977073e-02; 4.459484909159649e-01]]))] 4) 1.0e-14.

(** t2/_lyness_jespersen.py:104-113 *)
Definition t2_lyness_jespersen_12 : option (scheme * R) :=
  with_tol (t2_scheme
     [("centroid", ([1.527089667883523e-01], []));
      ("d3_aa", ([(2.944076042366762e-01 / 3); (3.887052878418766e-01 / 3)], [[4.738308139536513e-01; 1.721176696308175e-01]]));
      ("d3_ab", ([(1.641781411330949e-01 / 6)], [[0]; [8.653073540834571e-01]]))] 6) 2.628e-15.

(** t2/_lyness_jespersen.py:116-129 *)
Definition t2_lyness_jespersen_13 : option (scheme * R) :=
  with_tol (t2_scheme
     [("centroid", ([(- 1.495700444677495e-01)], []));
      ("d3_aa", ([(5.268457722996328e-01 / 3); (1.600417068265167e-01 / 3)], [[2.603459660790466e-01; 6.513010290221623e-02]]));
      ("d3_ab", ([(4.626825653415500e-01 / 6)], [[6.384441885698096e-01]; [4.869031542531756e-02]]))] 7) 4.119e-14.

(** t2/_lyness_jespersen.py:132-142 *)
Definition t2_lyness_jespersen_14 : option (scheme * R) :=
  with_tol (t2_scheme
     [("centroid", ([1.763126156005252e-01], []));
      ("vertex", ([(1.210901532763310e-02 / 3)], []));
      ("d3_aa", ([(3.499561757697094e-01 / 3); (3.195119754425220e-01 / 3)], [[1.549360602237604e-01; 4.691507461438120e-01]]));
      ("d3_ab", ([(1.421102178595603e-01 / 6)], [[0]; [8.392991722729236e-01]]))] 7) 2.805e-13.

(** t2/_lyness_jespersen.py:145-162 *)
Definition t2_lyness_jespersen_15 : option (scheme * R) :=
  with_tol (t2_scheme
     [("centroid", ([1.443156076777862e-01], []));
      ("d3_aa", ([(2.852749028018549e-01 / 3); (9.737549286959440e-02 / 3); (3.096521116041552e-01 / 3)], [[4.592925882927229e-01; 5.054722831703103e-02; 1.705693077517601e-01]]));
      ("d3_ab", ([(1.633818850466092e-01 / 6)], [[8.394777409957211e-03]; [7.284923929554041e-01]]))] 8) 8.854e-15.

(** t2/_lyness_jespersen.py:165-179 *)
Definition t2_lyness_jespersen_16 : option (scheme * R) :=
  with_tol (t2_scheme
     [("vertex", ([(1.207273935292775e-02 / 3)], []));
      ("d3_aa", ([((- 8.491579879151455e-01) / 3); (1.042367468891334e00 / 3); (1.947229791412260e-01 / 3); (4.511852767201322e-01 / 3)], [[0.5; 4.956813941755582e-01; 9.032775751426533e-02; 2.341547497073052e-01]]));
      ("d3_ab", ([(1.488095238055238e-01 / 6)], [[0]; [7.236067977499750e-01]]))] 8) 7.282e-12.

(** t2/_lyness_jespersen.py:182-199 *)
Definition t2_lyness_jespersen_17 : option (scheme * R) :=
  with_tol (t2_scheme
     [("centroid", ([(- 2.834183851113958e-01)], []));
      ("d3_aa", ([(2.097208857979572e-01 / 3); (5.127273801480265e-02 / 3); (6.564896469913508e-01 / 3)], [[4.766654393821525e-01; 3.377184405448033e-02; 2.703478891654040e-01]]));
      ("d3_ab", ([(3.659351143072855e-01 / 6)], [[5.146433548666149e-02]; [7.458294907672514e-01]]))] 8) 1.0e-14.

(** t2/_lyness_jespersen.py:202-225 *)
Definition t2_lyness_jespersen_18 : option (scheme * R) :=
  with_tol (t2_scheme
     [("centroid", ([9.713579628279610e-02], []));
      ("d3_aa", ([(9.400410068141950e-02 / 3); (2.334826230143263e-01 / 3); (2.389432167816271e-01 / 3); (7.673302697609430e-02 / 3)], [[4.896825191987370e-01; 4.370895914929355e-01; 1.882035356190322e-01; 4.472951339445297e-02]]));
      ("d3_ab", ([(2.597012362637364e-01 / 6)], [[3.683841205473626e-02]; [7.411985987844980e-01]]))] 9) 8.604e-15.

(** t2/_lyness_jespersen.py:228-247 *)
Definition t2_lyness_jespersen_19 : option (scheme * R) :=
  with_tol (t2_scheme
     [("centroid", ([1.133624844599192e-01], []));
      ("vertex", ([(1.062573789846330e-03 / 3)], []));
      ("d3_aa", ([(4.803411513859279e-02 / 3); (2.524243006337300e-01 / 3); (7.819254371487040e-02 / 3); (2.472227459993048e-01 / 3)], [[0.5; 4.497793381870162e-01; 4.694744319909033e-02; 1.918719127374489e-01]]));
      ("d3_ab", ([(2.597012362637364e-01 / 6)], [[3.683841205473626e-02]; [7.411985987844980e-01]]))] 9) 3.733e-15.

(** t2/_lyness_jespersen.py:250-274 *)
Definition t2_lyness_jespersen_20 : option (scheme * R) :=
  with_tol (t2_scheme
     [("d3_aa", ([(4.097919300803106e-02 / 3); (1.085536215102866e-01 / 3); (2.781018986881812e-03 / 3); (1.779689321422668e-01 / 3); (2.314486047444677e-01 / 3)], [[3.236494811127173e-02; 1.193509122825931e-01; 5.346110482707572e-01; 2.033099004312816e-01; 3.989693029658558e-01]]));
      ("d3_ab", ([(3.140226717732234e-01 / 6); (1.242459578348437e-01 / 6)], [[5.017813831049474e-02; 2.102201653616613e-02]; [5.932012134282132e-01; 8.074890031597923e-01]]))] 11) 1.361e-13.

(** t2/_lyness_jespersen.py:277-302 *)
Definition t2_lyness_jespersen_21 : option (scheme * R) :=
  with_tol (t2_scheme
     [("centroid", ([8.797730116222190e-02], []));
      ("d3_aa", ([(2.623293466120857e-02 / 3); (1.142447159818060e-01 / 3); (5.656634416839376e-02 / 3); (2.164790926342230e-01 / 3); (2.079874161166116e-01 / 3)], [[2.598914092828833e-02; 9.428750264792270e-02; 4.946367750172147e-01; 2.073433826145142e-01; 4.389078057004907e-01]]));
      ("d3_ab", ([(4.417430269980344e-02 / 6); (2.463378925757316e-01 / 6)], [[0; 4.484167758913055e-02]; [8.588702812826364e-01; 6.779376548825902e-01]]))] 11) 3.543e-14.

(** t2/_strang_fix_cowper/__init__.py:55-60 *)
Definition t2_strang_fix_cowper_06 : option (scheme * R) :=
  with_tol (t2_scheme
     [("centroid", ([(3 / 8)], []));
      ("d3_ab", ([(5 / 48)], [[0.736712498968435]; [0.237932366472434]]))] 4) 5.440e-15.

(** t2/_strang_fix_cowper/__init__.py:63-71 *)
Definition t2_strang_fix_cowper_07 : option (scheme * R) :=
  with_tol (t2_scheme
     [("centroid", ([(9 / 40)], []));
      ("d3_aa", ([0.12593918054482717; 0.13239415278850616], [[0.10128650732345633; 0.47014206410511505]]))] 5) 5.551e-16.

(** t2/_laursen_gellert/__init__.py:36-41 *)
Definition t2_laursen_gellert_06 : option (scheme * R) :=
  with_tol (t2_scheme
     [("centroid", ([(3 / 8)], []));
      ("d3_ab", ([(5 / 48)], [[0.736712498968435]; [0.237932366472434]]))] 4) 1.0e-14.

(** t2/_laursen_gellert/__init__.py:44-52 *)
Definition t2_laursen_gellert_07 : option (scheme * R) :=
  with_tol (t2_scheme
     [("centroid", ([(9 / 40)], []));
      ("d3_aa", ([0.125939180544827; 0.132394152788506], [[0.101286507323456; 0.470142064105115]]))] 5) 1.0e-14.

(** t2/_franke.py:17-59 *)
Definition t2_franke_09 : option (scheme * R) :=
  let a1 := 0.646341098016171e-1 in
  let a2 := 0.250478764260821 in
  let a3 := 0.405288113134598 in
  let a4 := 0.483428507060240 in
  let b1 := 0.490241549057468e-1 in
  let c1 := 0.312418129002285 in
  let b2 := 0.272654917225016e-1 in
  let c2 := 0.649829918830148 in
  let b3 := 0.748092005042521e-2 in
  let c3 := 0.922929224698637 in
  let b4 := 0.166718687651425 in
  let c4 := 0.775796880494268 in
  let b5 := 0.151969575382297 in
  let c5 := 0.569101341800312 in
  let points0 := [a1; a2; a3; a4; b1; c1; b2; c2; b3; c3; b4; c4; b5; c5] in
  let points1 := [a1; a2; a3; a4; c1; b1; c2; b2; c3; b3; c4; b4; c5; b5] in
  let weights := map (fun w => 2 * w) [0.263321501360460e-1; 0.666750609902085e-1; 0.598398472297514e-1; 0.302244308027287e-1; 0.387139102462897e-1; 0.387139102462897e-1; 0.223103130816147e-1; 0.223103130816147e-1; 0.930956404694027e-2; 0.930956404694027e-2; 0.365382927009296e-1; 0.365382927009296e-1; 0.515921753448585e-1; 0.515921753448585e-1] in
  with_tol (t2_scheme [("plain", (weights, [points0; points1; map (fun xy => 1 - fst xy - snd xy) (List.combine points0 points1)]))] 7) 1.0e-14.

(** t2/_franke.py:62-104 *)
Definition t2_franke_10 : option (scheme * R) :=
  let a1 := 0.643211570115959e-1 in
  let a2 := 0.252998331385515 in
  let a3 := 0.409747314294030 in
  let a4 := 0.485462287928209 in
  let b1 := 0.504085933570127e-1 in
  let c1 := 0.310554843559296 in
  let b2 := 0.279122578437840e-1 in
  let c2 := 0.647673797923676 in
  let b3 := 0.364079378827516e-1 in
  let c3 := 0.895785844039319 in
  let b4 := 0.202348915694331 in
  let c4 := 0.743375252660890 in
  let b5 := 0.160040255710345 in
  let c5 := 0.564851216876248 in
  let points0 := [a1; a2; a3; a4; b1; c1; b2; c2; b3; c3; b4; c4; b5; c5] in
  let points1 := [a1; a2; a3; a4; c1; b1; c2; b2; c3; b3; c4; b4; c5; b5] in
  let weights := map (fun w => 2 * w) [0.260816160868233e-1; 0.663602357926664e-1; 0.561731171392644e-1; 0.239526221275731e-1; 0.394576126986614e-1; 0.394576126986614e-1; 0.235501218540342e-1; 0.235501218540342e-1; 0.162658476936259e-1; 0.162658476936259e-1; 0.318232366904684e-1; 0.318232366904684e-1; 0.526193854900464e-1; 0.526193854900464e-1] in
  with_tol (t2_scheme [("plain", (weights, [points0; points1; map (fun xy => 1 - fst xy - snd xy) (List.combine points0 points1)]))] 7) 1.0e-14.


(** *** t3 *)
(** t3/_keast/__init__.py:46-53 *)
Definition t3_keast_3 : option (scheme * R) :=
  with_tol (t3_scheme
     [("s31", ([0.2177650698804054], [[0.1438564719343852]]));
      ("s22", ([0.0214899534130631], [[0.5]]))] 3) 1.0e-14.

(** t3/_keast/__init__.py:66-75 *)
Definition t3_keast_5 : option (scheme * R) :=
  with_tol (t3_scheme
     [("s22", ([(2 / 105)], [[0.5]]));
      ("s31", ([0.0885898247429807; 0.1328387466855907], [[0.1005267652252045; 0.3143728734931922]]))] 4) 1.0e-14.


(** *** c2 *)
(** c2/_hammer_stroud.py:34-40 *)
Definition c2_hammer_stroud_3_2 : option (scheme * R) :=
  let! q1 := rsqrt 583 in
  let! q2 := rsqrt ((3 / 287) * (38 - (1 * q1))) in
  let! q3 := rsqrt 583 in
  let! q4 := rsqrt ((3 / 287) * (38 - ((- 1) * q3))) in
  let! q5 := rsqrt (6 / 7) in
  with_tol (c2_scheme
     [("d4_a0", ([(98 / (4 * 405))], [[q5]]));
      ("d4_aa", ([(0.5205929166673945 / 4); (0.2374317746906302 / 4)], [[q2; q4]]))] 7) 4.441e-16.

(** c2/_franke.py:39-55 *)
Definition c2_franke_2a : option (scheme * R) :=
  let! q1 := rsqrt 30 in
  let! q2 := rsqrt ((15 + (2 * q1)) / 35) in
  let! q3 := rsqrt 30 in
  let! q4 := rsqrt ((15 - (2 * q3)) / 35) in
  let! q5 := rsqrt 30 in
  let c := (((5 * (18 + q5)) / 324) / 4) in
  let! q6 := rsqrt 30 in
  let d_ := (((2 * (18 + q6)) / 81) / 4) in
  let! q7 := rsqrt (3 / 5) in
  with_tol (c2_scheme
     [("sxy", ([0.01094603802180727; c; 0.07601767326255625], [[0.105784012371275e1; q7; 0.469253522127911]; [q2; q4; q2]]));
      ("c2_0a", ([d_], [[q4]]))] 7) 1.232e-14.

(** c2/_franke.py:58-70 *)
Definition c2_franke_2b : option (scheme * R) :=
  let! q1 := rsqrt 30 in
  let! q2 := rsqrt ((15 + (2 * q1)) / 35) in
  let! q3 := rsqrt 30 in
  let! q4 := rsqrt ((15 - (2 * q3)) / 35) in
  with_tol (c2_scheme
     [("sxy", ([0.0483131729357575; 0.0422624803047505; 0.120773808410886], [[0.774596669241483; 0.915060523380880; 0.396191039748320]; [q2; q4; q4]]));
      ("c2_0a", ([0.077301076697212], [[q2]]))] 7) 1.0e-14.

(** c2/_franke.py:73-101 *)
Definition c2_franke_3a : option (scheme * R) :=
  let! q1 := rsqrt 70 in
  let! q2 := rsqrt ((5.0 / 9.0) + ((2.0 / 63.0) * q1)) in
  let! q3 := rsqrt 70 in
  let! q4 := rsqrt ((5.0 / 9.0) - ((2.0 / 63.0) * q3)) in
  with_tol (c2_scheme
     [("sxy", ((map (fun v => v / 4) [0.705065140564012e-1; 0.721121511007611e-1; 0.971492736037507e-1; 0.368549048677049]), [[0.845927799771709; 0.628901636732253; 0.959681421214621; 0.436030596273468]; [q2; q2; q4; q4]]));
      ("c2_a0", ((map (fun v => v / 4) [0.316049382716049]), [[0.774596669241483]]));
      ("c2_0a", ((map (fun v => v / 4) [0.188616439798053; 0.258606964371341e-1]), [[q2; q4]]));
      ("zero2", ((map (fun v => v / 4) [0.505679012345679]), []))] 9) 1.0e-14.

(** c2/_franke.py:104-132 *)
Definition c2_franke_3b : option (scheme * R) :=
  let! q1 := rsqrt 70 in
  let! q2 := rsqrt ((5.0 / 9.0) + ((2.0 / 63.0) * q1)) in
  let! q3 := rsqrt 70 in
  let! q4 := rsqrt ((5.0 / 9.0) - ((2.0 / 63.0) * q3)) in
  with_tol (c2_scheme
     [("sxy", ((map (fun v => v / 4) [0.499290623065150e-1; 0.158445182284802; 0.183383788151247; 0.881476523665422e-1]), [[0.945813739519925; 0.465346624836203; 0.804253925742002; 0.681385892163677]; [q2; q2; q4; q4]]));
      ("c2_a0", ((map (fun v => v / 4) [0.114456375561331; 0.454432513327558]), [[0.963018409085396; 0.428610143223121]]));
      ("c2_0a", ((map (fun v => v / 4) [0.571052809297435e-1; 0.414194459963155]), [[q2; q4]]))] 9) 1.0e-14.

(** c2/_franke.py:135-154 *)
Definition c2_franke_3c : option (scheme * R) :=
  let! q1 := rsqrt 70 in
  let! q2 := rsqrt ((5.0 / 9.0) + ((2.0 / 63.0) * q1)) in
  let! q3 := rsqrt 70 in
  let! q4 := rsqrt ((5.0 / 9.0) - ((2.0 / 63.0) * q3)) in
  with_tol (c2_scheme
     [("sxy", ((map (fun v => v / 4) [0.494522019130682e-1; 0.163914731881061; 0.265904816944092]), [[0.949307350001342; 0.458177548931134; 0.774596669241483]; [q2; q2; q4]]));
      ("c2_a0", ((map (fun v => v / 4) [0.113041839046410; 0.479922229600720]), [[0.967776908976724; 0.417754671502987]]));
      ("c2_0a", ((map (fun v => v / 4) [0.471199025241204e-1; 0.425447707110548]), [[q2; q4]]));
      ("zero2", ((map (fun v => v / 4) [(- 0.481503595164821e-1)]), []))] 9) 1.0e-14.

(** c2/_franke.py:182-196 *)
Definition c2_franke_8 : option (scheme * R) :=
  with_tol (c2_scheme
     [("d4_a0", ((map (fun v => v / 4) [0.454163960686749]), [[0.488926856974369]]));
      ("d4_aa", ((map (fun v => v / 4) [0.214200360926862; 0.427312318657758e-1]), [[0.690880550486344; 0.939565258096838]]));
      ("d4_ab", ((map (fun v => v / 4) [0.144452223260307]), [[0.918620441056722]; [0.344872025364404]]))] 1) 1.0e-14.


(** *** c3 *)
(** c3/_hammer_stroud.py:75-85 *)
Definition c3_hammer_stroud_6_3 : option (scheme * R) :=
  let! q1 := rsqrt (6 / 7) in
  with_tol (c3_scheme
     [("symm_r00", ([((1078 / 3645) / 8)], [[q1]]));
      ("symm_rr0", ([((343 / 3645) / 8)], [[q1]]));
      ("symm_rrr", ([(0.2247031747656014 / 8); (0.4123338622714356 / 8)], [[0.7341125287521153; 0.4067031864267161]]))] 7) 1.0e-14.

(** c3/_witherden_vincent/__init__.py:24-45 *)
Definition c3_witherden_vincent_07 : option (scheme * R) :=
  with_tol (c3_scheme
     [("symm_r00", ([(0.20012989098356700695575850638756794678 / 8)], [[0.98808616118867654860459729594655654482]]));
      ("symm_rr0", ([(0.15930172375100887182052758490800036662 / 8)], [[0.84805227568403872779622085759407839383]]));
      ("symm_rrr", ([(0.45715385606985274296912190785204854361 / 8); (0.15379614006595869408326783499527494637 / 8)], [[0.40795516735831936633080916251520586856; 0.78110282100411850665136814715928740203]]))] 7) 1.0e-14.

(** c3/_witherden_vincent/__init__.py:48-74 *)
Definition c3_witherden_vincent_09 : option (scheme * R) :=
  with_tol (c3_scheme
     [("symm_r00", ([(0.43327499574965454300983079319432200813 / 8)], [[0.61368146959170899383488488974055688452]]));
      ("symm_rr0", ([(0.091789806136177642171244588919646331302 / 8)], [[0.87768712325767828648677575899433236264]]));
      ("symm_rrr", ([(0.050148795299349029867451487724661687604 / 8); (0.19885983814402350032086871858560920797 / 8)], [[0.87009978466197591761506380886392483306; 0.56411080702003005426661899866307283066]]));
      ("symm_rrs", ([(0.09611680351337336643247993847150603379 / 8)], [[0.43226790263086216441602486151694383909]; [0.93853042186467174532897686960307879508]]))] 9) 1.0e-14.

(** c3/_witherden_vincent/__init__.py:77-114 *)
Definition c3_witherden_vincent_11 : option (scheme * R) :=
  with_tol (c3_scheme
     [("symm_r00", ([(0.2024770736128001905853371309670196589 / 8)], [[0.81261433409962649639237559737974432611]]));
      ("symm_rr0", ([(0.14519934586011569829250580079425982305 / 8)], [[0.73466828699700801734638476986754918792]]));
      ("symm_rrr", ([(0.11753834795645628038993180401068212711 / 8); (0.044643912078829241641001154282130043664 / 8); (0.21599204525496912931346666638444131361 / 8)], [[0.60167526419826270163441300578531749659; 0.85545576101775998467509147069034657598; 0.31339340451605472104577323055795129941]]));
      ("symm_rrs", ([(0.061441994097835335202750044633046200824 / 8); (0.022614296138821884223196230668984478131 / 8)], [[0.45079993511450943037788434573026952398; 0.94124485721060326391115015763113464139]; [0.96509966551271026293028182312534456821; 0.35390281459663013491031287081289167626]]))] 11) 1.0e-14.


(** *** s2 *)
(** s2/_hammer_stroud.py:62-79 *)
Definition s2_hammer_stroud_19 : option (scheme * R) :=
  let! q1 := rsqrt 6 in
  let alpha1 := ((16 + q1) / 288) in
  let alpha2 := ((137 - (32 * q1)) / 1818) in
  let alpha3 := (((520 + (155 * q1)) / 3636) / 8) in
  let! q2 := rsqrt ((6 + q1) / 10) in
  with_tol (s2_scheme
     [("zero2", ([(1 / 9)], []));
      ("d4_ab", ([alpha1; alpha3], [[0.5505043204538557; 0.7932084745126058]; [0.2280263556769715; 0.4645097310495256]]));
      ("d4_a0", ([alpha2], [[q2]]))] 9) 1.0e-14.

(** s2/_hammer_stroud.py:87-117 *)
Definition s2_hammer_stroud_21 : option (scheme * R) :=
  let alpha0 := (0.0341505695624825 / PI) in
  let alpha1 := (0.0640242008621985 / PI) in
  let alpha2 := (0.0341505695624825 / PI) in
  with_tol (s2_scheme
     [("d4_ab", ([alpha0; alpha1; alpha1; alpha1; alpha1; alpha2; alpha2; alpha2], [[0.2584361661674054; 0.5634263397544869; 0.4776497869993547; 0.8028016728473508; 0.6805823955716280; 0.2190916025980981; 0.9461239423417719; 0.8020851487551318]; [0.0514061496288813; 0.1120724670846205; 0.3191553840796721; 0.1596871812824163; 0.4547506180649039; 0.1463923286035535; 0.1881957532057769; 0.5359361621905023]]))] 15) 1.0e-14.

(** s2/_wissmann_becker.py:20-33 *)
Definition s2_wissmann_becker_6_1 : option (scheme * R) :=
  with_tol (s2_wissmann [(0.192106330409167, wb_z 0.914874261544932);
      (0.642883172453235, wb_z (- 0.206355543412215));
      (0.030327815305342, wb_m 0.978839047064283 0.662952453661044);
      (0.502358408812314, wb_m 0.458236515708684 0.464889889783278);
      (0.340540094500688, wb_m 0.802017004072343 (- 0.174207378839556));
      (0.280075256745352, wb_m 0.373683864304499 (- 0.770749853148807))] 6) 1.108e-14.

(** s2/_wissmann_becker.py:36-50 *)
Definition s2_wissmann_becker_6_2 : option (scheme * R) :=
  with_tol (s2_wissmann [(0.552687596464871, wb_z 0.0);
      (0.076090439302545, wb_z 1.032546063890842);
      (0.441690572122440, wb_z (- 0.726359846042944));
      (0.076090439302545, wb_m 0.982009662438297 0.319074281217230);
      (0.076090439302545, wb_m 0.606915348667678 (- 0.835347313162651));
      (0.441690572122440, wb_m 0.426943605361474 0.587637459480312);
      (0.441690572122440, wb_m 0.690809264754287 (- 0.224457536458840))] 6) 1.0e-14.

(** s2/_wissmann_becker.py:53-70 *)
Definition s2_wissmann_becker_8_1 : option (scheme * R) :=
  with_tol (s2_wissmann [(0.334521439965580, wb_z 0.000000000000000);
      (0.087911387704639, wb_z 0.953321175521807);
      (0.167628039106469, wb_z (- 0.882458098900126));
      (0.305874815913735, wb_z 0.582334188120499);
      (0.087911387704639, wb_m 0.906662316102171 0.294592444333741);
      (0.087911387704639, wb_m 0.560348127669843 (- 0.771253032094644));
      (0.167628039106469, wb_m 0.518695856299547 0.713923598834010);
      (0.167628039106469, wb_m 0.839267525316398 (- 0.272694549383947));
      (0.305874815913735, wb_m 0.553832724273449 0.179951160534772);
      (0.305874815913735, wb_m 0.342287447682940 (- 0.471118254595022))] 8) 1.0e-14.


(** *** w3 *)
(** w3/_felippa.py:94-96 *)
Definition felippa_s3_z (z : R) : list point := [[1/3; 1/3; z]; [1/3; 1/3; - z]].
(** w3/_felippa.py:99-101 *)
Definition felippa_s21 (a : R) : list point := let b := 1 - 2 * a in [[a; b; 0]; [b; a; 0]; [a; a; 0]].
(** w3/_felippa.py:109-124 *)
Definition felippa_s111_z (a b z : R) : list point :=
  let c := 1 - a - b in
  [[b; c; z]; [a; b; z]; [c; a; z]; [c; b; z]; [a; c; z]; [b; a; z];
   [b; c; - z]; [a; b; - z]; [c; a; - z]; [c; b; - z]; [a; c; - z]; [b; a; - z]].
Definition felippa_s3 := s3.
Definition felippa_s21_z := s21_z.
Definition w3_data (data : list (R * list point)) (degree : nat) : option scheme := Some (mk3 data degree).

(** w3/_felippa.py:41-53 *)
Definition w3_felippa_4 : option (scheme * R) :=
  let! q1 := rsqrt 10 in
  let! q2 := rsqrt 10 in
  let! q3 := rsqrt (950 - (220 * q2)) in
  let a1 := (((40 - (5 * q1)) - (1 * q3)) / 90) in
  let! q4 := rsqrt 10 in
  let! q5 := rsqrt 10 in
  let! q6 := rsqrt (950 - (220 * q5)) in
  let a2 := (((40 - (5 * q4)) - ((- 1) * q6)) / 90) in
  let! q7 := rsqrt (3 / 5) in
  let! q8 := rsqrt (3 / 5) in
  with_tol (w3_data [(0.6205044157722541e-01, felippa_s21_z a2 q7);
      (0.3054215101536719e-01, felippa_s21_z a1 q8);
      (0.9928070652356065e-01, felippa_s21 a2);
      (0.4886744162458750e-01, felippa_s21 a1)] 4) 1.0e-14.

(** w3/_felippa.py:56-67 *)
Definition w3_felippa_5 : option (scheme * R) :=
  let! q1 := rsqrt 15 in
  let a1 := ((6 - (1 * q1)) / 21) in
  let! q2 := rsqrt 15 in
  let a2 := ((6 - ((- 1) * q2)) / 21) in
  let! q3 := rsqrt (3.0 / 5.0) in
  let! q4 := rsqrt (3.0 / 5.0) in
  let! q5 := rsqrt (3.0 / 5.0) in
  with_tol (w3_data [(0.3498310570689643e-01, felippa_s21_z a1 q3);
      (0.3677615355236283e-01, felippa_s21_z a2 q4);
      ((1.0 / 16.0), felippa_s3_z q5);
      (0.5597296913103428e-01, felippa_s21 a1);
      (0.5884184568378053e-01, felippa_s21 a2);
      (0.1, felippa_s3)] 5) 1.0e-14.

(** w3/_felippa.py:70-86 *)
Definition w3_felippa_6 : option (scheme * R) :=
  with_tol (w3_data [(0.8843323515718317e-02, felippa_s21_z 0.6308901449150223e-01 (- 0.8611363115940526));
      (0.2031233592848984e-01, felippa_s21_z 0.2492867451709104 (- 0.8611363115940526));
      (0.1441007403935041e-01, felippa_s111_z 0.5314504984481695e-01 0.3103524510337844 0.8611363115940526);
      (0.1657912966938509e-01, felippa_s21_z 0.6308901449150223e-01 0.3399810435848563);
      (0.3808080193469984e-01, felippa_s21_z 0.2492867451709104 0.3399810435848563);
      (0.2701546376983638e-01, felippa_s111_z 0.5314504984481695e-01 0.3103524510337844 0.3399810435848563)] 6) 1.0e-14.


(** w3/_kubatko_yeager_maggi.py: untangle, weights / 4, points[:, :2] += 1, points[:, :2] /= 2 (e.g. lines 20-24). *)
Definition kym (data : list (R * list point)) (degree : nat) : option scheme :=
  let '(points, weights) := untangle data in
  Some (mk_scheme 3 (mk_rule (map (fun p => [(nth 0 p 0 + 1) / 2; (nth 1 p 0 + 1) / 2; nth 2 p 0]) points, map (fun w => w / 4) weights)) degree).

(** w3/_kubatko_yeager_maggi.py:506-507 *)
Definition kym_zeta_pm (xi eta zeta : R) : list point := [[xi; eta; zeta]; [xi; eta; - zeta]].
(** w3/_kubatko_yeager_maggi.py:510-511 *)
Definition kym_abz (a b z : R) : list point := [[a; b; z]; [b; a; z]].
(** w3/_kubatko_yeager_maggi.py:514-515 *)
Definition kym_abz_pm (a b z : R) : list point := [[a; b; z]; [a; b; - z]; [b; a; z]; [b; a; - z]].
(** w3/_kubatko_yeager_maggi.py:518-519 *)
Definition kym_az (a z : R) : list point := [[a; a; z]; [a; a; - z]].
(** w3/_kubatko_yeager_maggi.py:522-524 *)
Definition kym_s3 : list point := [[- (1/3); - (1/3); 0]].
(** w3/_kubatko_yeager_maggi.py:527-530 *)
Definition kym_s3_z (z : R) : list point := [[- (1/3); - (1/3); z]; [- (1/3); - (1/3); - z]].
(** w3/_kubatko_yeager_maggi.py:533-535 *)
Definition kym_s21 (a : R) : list point := let b := - (1 + 2 * a) in [[a; b; 0]; [b; a; 0]; [a; a; 0]].
(** w3/_kubatko_yeager_maggi.py:538-540 *)
Definition kym_s21_z (a z : R) : list point :=
  let b := - (1 + 2 * a) in [[a; b; z]; [b; a; z]; [a; a; z]; [a; b; - z]; [b; a; - z]; [a; a; - z]].
(** w3/_kubatko_yeager_maggi.py:543-544 *)
Definition kym_s30 (a b c : R) : list point := [[a; b; 0]; [b; a; 0]; [a; c; 0]; [c; a; 0]; [b; c; 0]; [c; b; 0]].
(** w3/_kubatko_yeager_maggi.py:547-562 *)
Definition kym_s111_z (a b z : R) : list point :=
  let c := - (1 + a + b) in
  [[b; c; z]; [a; b; z]; [c; a; z]; [c; b; z]; [a; c; z]; [b; a; z];
   [b; c; - z]; [a; b; - z]; [c; a; - z]; [c; b; - z]; [a; c; - z]; [b; a; - z]].
(** w3/_kubatko_yeager_maggi.py:18-25 *)
Definition w3_kubatko_yeager_maggi_1 : option (scheme * R) :=
  with_tol (kym [(4, [[(- (1 / 3)); (- (1 / 3)); 0]])] 1) 1.0e-14.

(** w3/_kubatko_yeager_maggi.py:28-38 *)
Definition w3_kubatko_yeager_maggi_2a : option (scheme * R) :=
  with_tol (kym [(1, [[0.483163247594393; (- 0.741581623797196); 0]]);
      (1, [[(- 0.605498860309242); 0.469416096821288; 0]]);
      (1, kym_zeta_pm (- 0.605498860309242) (- 0.530583903178712) 0.816496580927726)] 2) 1.0e-14.

(** w3/_kubatko_yeager_maggi.py:41-47 *)
Definition w3_kubatko_yeager_maggi_2b : option (scheme * R) :=
  with_tol (kym [((1 / 3), kym_s21 (- 1));
      ((3 / 2), kym_s3_z (2 / 3))] 2) 1.0e-14.

(** w3/_kubatko_yeager_maggi.py:50-81 *)
Definition w3_kubatko_yeager_maggi_3a : option (scheme * R) :=
  with_tol (kym [(0.742534890852309, [[0.240692796349625; (- 0.771991660873412); 0.614747128207527]]);
      (0.375143463443327, [[(- 0.968326281451138); (- 0.568046512457875); 0.676689529541421]]);
      (0.495419047908462, [[0.467917833640195; (- 0.549342790168347); (- 0.599905857322635)]]);
      (0.523999970843238, [[(- 0.786144119530819); 0.362655041695561; (- 0.677609795694786)]]);
      (0.980905839025611, [[(- 0.484844897886675); (- 0.707931130717342); (- 0.502482717716373)]]);
      (0.881996787927053, [[(- 0.559053711932125); 0.260243325246813; 0.493010512161538]])] 3) 1.0e-14.

(** w3/_kubatko_yeager_maggi.py:84-94 *)
Definition w3_kubatko_yeager_maggi_3b : option (scheme * R) :=
  with_tol (kym [((- (43 / 12)), kym_s3);
      ((25 / 12), kym_s21 (- (3 / 5)));
      ((2 / 3), kym_s3_z 1)] 3) 1.0e-14.

(** w3/_kubatko_yeager_maggi.py:97-107 *)
Definition w3_kubatko_yeager_maggi_3c : option (scheme * R) :=
  let! q1 := rsqrt 3 in
  let alpha := ((4 * q1) / 15) in
  with_tol (kym [((- (9 / 4)), kym_s3);
      ((25 / 24), kym_s21_z (- (3 / 5)) alpha)] 3) 1.0e-14.

(** w3/_kubatko_yeager_maggi.py:110-119 *)
Definition w3_kubatko_yeager_maggi_3d : option (scheme * R) :=
  with_tol (kym [((4 / 9), kym_s30 (- 0.525248027124695) (- 0.924672547414225) 0.449920574538920);
      ((2 / 3), kym_s3_z 1)] 3) 1.0e-14.

(** w3/_kubatko_yeager_maggi.py:122-169 *)
Definition w3_kubatko_yeager_maggi_4a : option (scheme * R) :=
  with_tol (kym [(0.111155943811228, [[0.812075900047562; (- 0.986242751499303); 0.850716248413834]]);
      (0.309060899887509, [[(- 0.792166223585545); 0.687201105597868; (- 0.115214772515700)]]);
      (0.516646862442958, [[(- 0.756726179789306); (- 0.731311840596107); (- 0.451491675441927)]]);
      (0.567975205132714, [[(- 0.552495167978340); 0.015073398439985; (- 0.824457000064439)]]);
      (0.382742555939017, [[(- 0.357230019521233); 0.126888850505978; 0.855349689995606]]);
      (0.355960928492268, [[(- 0.987225392999058); 0.082647545710800; 0.452976444667786]]);
      (0.108183228294342, [[(- 0.816603728785918); (- 0.915066171481315); 0.997939285245240]]);
      (0.126355242780924, [[0.423489172633859; (- 1.112801167237130); (- 0.963298774205756)]]);
      (0.587370828592853, [[0.363041084609230; (- 0.499011410082669); (- 0.299892769705443)]]);
      (0.934548304626188, [[(- 0.175780343149613); (- 0.654971142379686); 0.367947041936472]])] 4) 1.0e-14.

(** w3/_kubatko_yeager_maggi.py:172-182 *)
Definition w3_kubatko_yeager_maggi_4b : option (scheme * R) :=
  with_tol (kym [(0.545658450421913, kym_s21 (- 0.062688380276010));
      (0.431647899262139, kym_s3_z 0.866861974009030);
      (0.249954808368331, kym_s21_z (- 0.798519188402179) 0.675639823682265)] 4) 1.0e-14.

(** w3/_kubatko_yeager_maggi.py:185-214 *)
Definition w3_kubatko_yeager_maggi_5a : option (scheme * R) :=
  with_tol (kym [(0.087576186678730, [[(- 0.955901336867574); (- 0.955901336867577); 0.000000000000286]]);
      (0.229447629454892, kym_abz (- 0.051621305926029) (- 1.017063354038640) 0.000000000000038);
      (0.833056798542985, [[(- 0.297388746460523); (- 0.297388746460521); 0.000000000000008]]);
      (0.166443428304729, kym_abz 0.774849157169622 (- 0.849021640062096) 0.000000000000080);
      (0.376993270712316, kym_az (- 0.665292008657551) 0.756615409654429);
      (0.170410864470884, kym_az (- 0.012171148087349) 0.600149379161583);
      (0.298194157223163, kym_abz_pm (- 0.734122164680096) 0.334122164680066 0.808115770496521)] 5) 2.240e-14.

(** w3/_kubatko_yeager_maggi.py:217-284 *)
Definition w3_kubatko_yeager_maggi_5b : option (scheme * R) :=
  with_tol (kym [(0.213895020288765, [[(- 0.820754415297359); 0.701020947925133; (- 0.300763696502910)]]);
      (0.141917375616806, [[0.611831616907812; (- 0.869995576950389); 0.348546607420888]]);
      (0.295568859378071, [[(- 0.951379065092975); (- 0.087091980055873); 0.150656042323906]]);
      (0.256991945593379, [[0.200535109198601; (- 0.783721735474016); (- 0.844285153176719)]]);
      (0.122121979248381, [[(- 0.909622841605196); (- 0.890218158063352); 0.477120081549168]]);
      (0.175194917962627, [[0.411514133287729; (- 0.725374126531787); 0.864653509536562]]);
      (0.284969106392719, [[(- 0.127534496411879); (- 0.953467283619037); 0.216019762875977]]);
      (0.323336131783334, [[(- 0.555217727817199); (- 0.530472194607007); 0.873409672725819]]);
      (0.159056110329063, [[0.706942532529193; (- 0.782248553944540); (- 0.390653804976705)]]);
      (0.748067388709644, [[(- 0.278092963133809); (- 0.291936530517119); (- 0.126030507204870)]]);
      (0.280551223607231, [[(- 0.057824844208300); (- 0.056757587543798); 0.539907869785112]]);
      (0.147734016552639, [[(- 0.043308436222116); 0.012890722780611; (- 0.776314479909204)]]);
      (0.259874920383688, [[(- 0.774478920734726); 0.476188541042454; 0.745875967497062]]);
      (0.235144061421191, [[(- 0.765638443571458); 0.177195164202219; (- 0.888355356215127)]]);
      (0.355576942732463, [[(- 0.732830649614460); (- 0.737447982744191); (- 0.651653242952189)]])] 5) 1.0e-14.

(** w3/_kubatko_yeager_maggi.py:287-298 *)
Definition w3_kubatko_yeager_maggi_5c : option (scheme * R) :=
  with_tol (kym [(0.711455555931488, kym_s3);
      (0.224710067228267, kym_s21 (- 0.025400070899509));
      (0.185661421316158, kym_s21_z (- 0.108803790659256) 0.871002934865444);
      (0.250074285747794, kym_s21_z (- 0.798282108034583) 0.570426980705159)] 5) 1.0e-14.

(** w3/_kubatko_yeager_maggi.py:301-317 *)
Definition w3_kubatko_yeager_maggi_6a : option (scheme * R) :=
  with_tol (kym [(0.168480079940386, kym_s30 0.513019949700545 (- 0.930094391938207) (- 0.582925557762337));
      (0.000079282874851, kym_s21 (- 1.830988812620400));
      (0.544286440652304, kym_s3);
      (0.026293733850586, kym_s3_z 1.250521622121900);
      (0.283472344926041, kym_s21_z (- 0.098283514203544) 0.685008566774710);
      (0.115195615637235, kym_s21_z (- 0.812603471654584) 0.809574716992997)] 6) 3.432e-13.

(** w3/_kubatko_yeager_maggi.py:320-336 *)
Definition w3_kubatko_yeager_maggi_6b : option (scheme * R) :=
  with_tol (kym [((- 0.515987215963885), kym_s3);
      (0.113384887025471, kym_s21 (- 0.891966687066689));
      (0.489402517688430, kym_s21 (- 0.489005016481638));
      (0.205362200002623, kym_s3_z 0.932807703184800);
      (0.048821553028563, kym_s21_z (- 0.838683160291348) (- 0.946297575072789));
      (0.166997606970463, kym_s111_z (- 0.892665383041055) (- 0.380071023770412) 0.596750920257972)] 6) 1.0e-14.

(** w3/_kubatko_yeager_maggi.py:339-357 *)
Definition w3_kubatko_yeager_maggi_6c : option (scheme * R) :=
  with_tol (kym [(0.108764249640922, kym_s21 (- 0.895512822481133));
      (0.162544166564880, kym_s30 (- 0.603390269052889) (- 0.458729487713671) 0.062119756766560);
      (0.201100563750029, kym_s3_z 0.936241512371697);
      (0.047097659849389, kym_s21_z (- 0.841699897299232) 0.948681147283254);
      (0.167804597090964, kym_s111_z (- 0.890337410253393) (- 0.382973596286234) 0.600638052820557)] 6) 1.0e-14.

(** w3/_kubatko_yeager_maggi.py:360-380 *)
Definition w3_kubatko_yeager_maggi_7a : option (scheme * R) :=
  with_tol (kym [(0.101999439969640, kym_s21 (- 0.052693741802220));
      (0.013773382049005, kym_s30 (- 1.203867696672760) (- 0.769101467805088) 0.972969164477851);
      (0.183161577533988, kym_s30 (- 0.806342417251714) (- 0.550525003554855) 0.356867420806569);
      (0.018944865817845, kym_s3_z 1.291674052437540);
      (0.376139984367254, kym_s3_z 0.561030375657598);
      (0.147104614209618, kym_s21_z (- 0.059715871789826) 0.774596669241324);
      (0.139932422827537, kym_s21_z (- 0.797426985353099) 0.774596669241551)] 7) 1.0e-14.

(** w3/_kubatko_yeager_maggi.py:383-400 *)
Definition w3_kubatko_yeager_maggi_7b : option (scheme * R) :=
  with_tol (kym [((- 0.879316328492506), kym_s21 (- 0.799390499533395));
      (0.372687220323677, kym_s21 (- 0.611312866165672));
      (0.323126141949260, kym_s30 (- 0.876344144151775) (- 0.612951719548152) 0.489295863699928);
      (0.289007666422544, kym_s3_z 0.734616109970751);
      (0.153278562247698, kym_s21_z (- 0.052044650909702) 0.726801565090391);
      (0.065992821952079, kym_s21_z (- 0.756988294814865) 0.976659162929848);
      (0.281247805794530, kym_s21_z (- 0.848580765301238) 0.305898494016659)] 7) 1.0e-14.

(** w3/_kubatko_yeager_maggi.py:403-423 *)
Definition w3_kubatko_yeager_maggi_7c : option (scheme * R) :=
  with_tol (kym [(0.187125249811092, kym_s3);
      (0.279712056646351, kym_s21 (- 0.622563924496121));
      (0.192663794476979, kym_s21_z (- 0.150946831636914) 0.739705153646415);
      (0.077939984185063, kym_s21_z (- 0.888439097303094) 0.521191884792341);
      (0.037328649790157, kym_s111_z (- 0.879193936849505) (- 0.569600904418278) 0.967847765724758);
      (0.075181009232977, kym_s111_z (- 0.956495962100542) (- 0.348089160012426) 0.413411329372023)] 7) 1.0e-14.

(** w3/_kubatko_yeager_maggi.py:426-447 *)
Definition w3_kubatko_yeager_maggi_8a : option (scheme * R) :=
  with_tol (kym [((- 0.628896123664332), kym_s3);
      ((- 0.000009664501734), kym_s21 0.732570431730499);
      (0.290043889959886, kym_s21 (- 0.111280133398729));
      (0.164125220310641, kym_s21 (- 0.744234499888195));
      (0.500978176529324, kym_s3_z 0.324632164542059);
      (0.137896989572043, kym_s21_z (- 0.655304484833396) 0.697231953348274);
      (0.093150738786246, kym_s21_z (- 0.111390690423267) 0.918085752971442);
      (0.026296598245927, kym_s21_z (- 0.860501622328014) 0.955100930524729);
      (0.031254499752794, kym_s21_z (- 0.929092752683144) 0.418740152771249);
      (0.044405706263133, kym_s111_z (- 1.027258305900750) (- 0.401321966766924) 0.577350264603552)] 8) 2.738e-12.

(** w3/_kubatko_yeager_maggi.py:450-471 *)
Definition w3_kubatko_yeager_maggi_8b : option (scheme * R) :=
  with_tol (kym [(0.064622878644877, kym_s3);
      (0.212815083510681, kym_s21 (- 0.080724796383744));
      (0.222859308690085, kym_s3_z 0.656906854028118);
      (0.033167391229558, kym_s3_z 0.222890421390518);
      (0.083683503199655, kym_s21_z (- 0.082177195702334) 0.875089829009932);
      (0.160178684391513, kym_s21_z (- 0.655731448496969) 0.398915780473391);
      (0.035678259898902, kym_s21_z (- 0.896358906478658) 0.076044280208993);
      (0.029230569799017, kym_s21_z (- 0.901888148396643) 0.838134530826001);
      (0.046399681341109, kym_s21_z (- 0.668873936739861) 0.962422967861277);
      (0.054487856600218, kym_s111_z (- 0.983128918652189) (- 0.473900476311823) 0.577350269192965)] 8) 1.0e-14.

(** w3/_kubatko_yeager_maggi.py:474-503 *)
Definition w3_kubatko_yeager_maggi_9 : option (scheme * R) :=
  with_tol (kym [(0.179697999934032, kym_s21 (- 0.670211122327313));
      (0.029779770020782, kym_s30 (- 0.987687012620047) (- 0.639473873495245) 0.627160886115292);
      (0.093251945517294, kym_s3_z 0.130565599977556);
      (0.079389858812471, kym_s21_z (- 0.532290571296145) 0.896174462570776);
      (0.144411166376722, kym_s21_z (- 0.153771400189340) 0.496886101956702);
      (0.030059746399875, kym_s21_z (- 0.924116817433563) 0.441720100571867);
      (0.021462670335182, kym_s21_z (- 0.874138544455932) 0.938724295918725);
      (0.020254759898769, kym_s111_z (- 0.935121167364029) (- 0.255783274127814) 0.932336314743883);
      (0.030927308427916, kym_s111_z (- 0.939611270417581) (- 0.094705427266644) 0.251407318247268);
      (0.069133168131076, kym_s111_z (- 0.898020111840079) (- 0.539691298441295) 0.649773968745693)] 9) 1.0e-14.
