(** The Gauss-Patterson rules of quadpy: the tables are evaluated in fixed-point arithmetic. *)
From Coq Require Import Reals List Arith ZArith Bool Lia Lra Permutation Sorted QArith Qreals Qabs.
From Coquelicot Require Import Coquelicot.
From Verif Require Import Spec Spec1 RsumLemmas CombModel AdaptModel PyBase C1Tools Interp Tower IntegralProofs IntegralPoly C1Model C1Proofs LegSpec KronrodProofs NearSpec PattersonModel PattersonProofs NearProofs.
Import ListNotations.
Set Bullet Behavior "Strict Subproofs".
Open Scope R_scope.

(* ------------------------------------------------------------------ the points as sorted lists of rationals *)
Fixpoint qmerge (l : list Q) : list Q -> list Q :=
  match l with
  | [] => fun m => m
  | x :: l' => fix aux (m : list Q) := match m with [] => l | y :: m' => if Qle_bool x y then x :: qmerge l' m else y :: aux m' end
  end.
Lemma qmerge_perm l : forall m, Permutation (qmerge l m) (l ++ m).
Proof.
  induction l as [|x l IH]; [intros; cbn; auto|]. induction m as [|y m IHm]; [cbn; rewrite app_nil_r; auto|]. cbn [qmerge]. destruct (Qle_bool x y).
  - cbn [app]. constructor. apply IH.
  - eapply perm_trans; [apply perm_skip, IHm|]. apply (Permutation_middle (x :: l) m y).
Qed.
Fixpoint gpQ (index : nat) : list Q :=
  match index with O => [0%Q] | S i => gpQ i ++ map Qopp (rev (gp_new_points index)) ++ gp_new_points index end.
Lemma np_insert_perm x l : Permutation (np_insert x l) (x :: l).
Proof. induction l as [|y l IH]; cbn; auto. destruct (Rleb x y); auto. eapply perm_trans; [apply perm_skip, IH|]. apply perm_swap. Qed.
Lemma np_sort_perm l : Permutation (np_sort l) l.
Proof. induction l as [|x l IH]; cbn; auto. eapply perm_trans; [apply np_insert_perm|]. constructor. auto. Qed.
Lemma np_insert_sorted x l : StronglySorted Rle l -> StronglySorted Rle (np_insert x l).
Proof.
  induction 1 as [|y l H IH F]; cbn; [repeat constructor|]. unfold Rleb. destruct (Rle_dec x y) as [L|L].
  - constructor; [constructor; auto|]. constructor; auto. rewrite Forall_forall in *. intros z Hz. specialize (F z Hz). lra.
  - constructor; auto. rewrite Forall_forall in *. intros z Hz. apply (Permutation_in _ (np_insert_perm x l)) in Hz. destruct Hz as [<-|Hz]; [lra|auto].
Qed.
Lemma np_sort_sorted l : StronglySorted Rle (np_sort l).
Proof. induction l as [|x l IH]; cbn; [constructor|]. apply np_insert_sorted. auto. Qed.
Lemma sorted_nodup l : StronglySorted Rlt l -> NoDup l.
Proof. induction 1 as [|a l H IH F]; constructor; auto. intros Hin. rewrite Forall_forall in F. specialize (F a Hin). lra. Qed.
Lemma np_sort_unique l m : Permutation l m -> StronglySorted Rlt m -> np_sort l = m.
Proof.
  intros H S. assert (P : Permutation (np_sort l) m) by (eapply perm_trans; [apply np_sort_perm|auto]).
  apply asc_eq; auto.
  - apply le_nodup_lt; [apply StronglySorted_Sorted, np_sort_sorted|]. apply (Permutation_NoDup (Permutation_sym P)). apply sorted_nodup. auto.
  - intros x. split; apply Permutation_in; auto. apply Permutation_sym. auto.
Qed.
Lemma get_points_Q i : gp_get_points i = map Q2R (gpQ i).
Proof.
  induction i as [|i IH]; cbn [gp_get_points gpQ]; [cbn [map]; rewrite Q2R_0; auto|].
  unfold gp_pm. rewrite !map_app, IH. f_equal. f_equal. rewrite <- map_rev, !map_map. apply map_ext. intros q. symmetry. apply Q2R_opp.
Qed.
(** The new points lie between the old ones. *)
Fixpoint gp_sorted (i : nat) : list Q :=
  match i with O => [0%Q] | S j => qmerge (gp_sorted j) (map Qopp (rev (gp_new_points i)) ++ gp_new_points i) end.
Lemma gp_sorted_perm i : Permutation (gpQ i) (gp_sorted i).
Proof. induction i as [|i IH]; [auto|]. cbn [gpQ gp_sorted]. apply Permutation_sym. eapply perm_trans; [apply qmerge_perm|]. apply Permutation_app_tail, Permutation_sym, IH. Qed.
Fixpoint ascending (l : list Q) : bool := match l with x :: (y :: _) as l' => (negb (Qle_bool y x) && ascending l')%bool | _ => true end.
Lemma ascending_ok l : ascending l = true -> StronglySorted Rlt (map Q2R l).
Proof.
  intros H. apply Sorted_StronglySorted; [intros a b c; apply Rlt_trans|]. induction l as [|x l IH]; cbn [map]; constructor.
  - apply IH. destruct l; auto. cbn [ascending] in H. apply andb_true_iff in H. tauto.
  - destruct l as [|y l]; cbn [map]; constructor. cbn [ascending] in H. apply andb_true_iff in H. destruct H as [H _]. apply negb_true_iff in H.
    apply Qlt_Rlt. apply Qnot_le_lt. intros E. apply Qle_bool_iff in E. congruence.
Qed.
Lemma gp_sorted_ok i : ascending (gp_sorted i) = true -> np_sort (gp_get_points i) = map Q2R (gp_sorted i).
Proof. intros H. rewrite get_points_Q. apply np_sort_unique; [apply Permutation_map, gp_sorted_perm|apply ascending_ok; auto]. Qed.

(* ------------------------------------------------------------------ symmetric tables *)
Definition mirror_weights (sm : list Q * Q) : list Q := fst sm ++ [snd sm] ++ rev (fst sm).
(** The half rule in y = x^2; the middle node gets half its weight. *)
Definition half_rule (sm : list Q * Q) (P : list Q) : list (Q * Q) :=
  ((snd sm / 2)%Q, 0%Q) :: map (fun wx => (fst wx, (snd wx * snd wx)%Q)) (List.combine (fst sm) P).
Definition qeq_list (l m : list Q) : bool := ((length l =? length m)%nat && forallb (fun xy => Qeq_bool (fst xy) (snd xy)) (List.combine l m))%bool.
Lemma qeq_list_ok l : forall m, qeq_list l m = true -> map Q2R l = map Q2R m.
Proof.
  unfold qeq_list. induction l as [|x l IH]; intros [|y m] H; cbn in H; try discriminate; auto. apply andb_true_iff in H. destruct H as [L H]. apply andb_true_iff in H. destruct H as [E H].
  cbn [map]. f_equal; [apply Qeq_eqR, Qeq_bool_eq; auto|]. apply IH. rewrite L, H. auto.
Qed.
Definition symmetric_points (n : nat) (P : list Q) : bool := qeq_list P (firstn n P ++ [0%Q] ++ map Qopp (rev (firstn n P))).
Definition table_check (p T : Z) (steps : nat) (sm : list Q * Q) (P : list Q) : bool :=
  let h := half_rule sm P in
  (symmetric_points (length (fst sm)) P && (length (fst sm) <=? length P)%nat && forallb (fun wy => in01 (fst wy) && in01 (snd wy)) h
   && fx_check p T (Z.of_nat (length h)) steps 0 (fx_start p h))%bool.
Lemma combine_rev {A B} (l : list A) : forall (m : list B), length l = length m -> List.combine (rev l) (rev m) = rev (List.combine l m).
Proof.
  induction l as [|a l IH]; intros [|b m] H; cbn in *; try lia; auto. rewrite <- IH by lia.
  assert (G : forall (x : list A) (y : list B) u v, length x = length y -> List.combine (x ++ [u]) (y ++ [v]) = List.combine x y ++ [(u, v)]).
  { induction x as [|c x IHx]; intros [|d y] u v Hl; cbn in *; try lia; auto. f_equal. apply IHx. lia. }
  apply G. rewrite !rev_length. lia.
Qed.
Lemma combine_app {A B} (l1 : list A) : forall l2 (m1 m2 : list B), length l1 = length m1 -> List.combine (l1 ++ l2) (m1 ++ m2) = List.combine l1 m1 ++ List.combine l2 m2.
Proof. induction l1 as [|a l1 IH]; intros l2 [|b m1] m2 H; cbn in *; try lia; auto. f_equal. apply IH. lia. Qed.
Lemma apply1_rev q f : apply1 (rev q) f = apply1 q f.
Proof. unfold apply1. apply Rsum_map_perm. apply Permutation_sym, Permutation_rev. Qed.
Lemma combine_map_r {A B C} (f : B -> C) (l : list A) : forall m, List.combine l (map f m) = map (fun ab => (fst ab, f (snd ab))) (List.combine l m).
Proof. induction l as [|a l IH]; intros [|b m]; cbn; auto. f_equal. auto. Qed.
Lemma combine_map_lr {A B C D} (f : A -> C) (g : B -> D) (l : list A) : forall m, List.combine (map f l) (map g m) = map (fun ab => (f (fst ab), g (snd ab))) (List.combine l m).
Proof. induction l as [|a l IH]; intros [|b m]; cbn; auto. f_equal. auto. Qed.
Lemma combine_firstn' {A B} (l : list A) : forall (m : list B), List.combine l m = List.combine l (firstn (length l) m).
Proof. induction l as [|a l IH]; intros [|b m]; cbn; auto. f_equal. auto. Qed.
Theorem table_moment sm P k : symmetric_points (length (fst sm)) P = true -> (length (fst sm) <= length P)%nat ->
  apply1 (List.combine (map Q2R (mirror_weights sm)) (map Q2R P)) (fun x => x ^ k) =
  if Nat.even k then 2 * Rsum (map (fun wy => Q2R (fst wy) * Q2R (snd wy) ^ (k / 2)) (half_rule sm P)) else 0.
Proof.
  intros H HL. destruct sm as [s m]. cbn [fst snd] in *. unfold symmetric_points in H. apply qeq_list_ok in H. unfold half_rule. cbn [fst snd map Rsum].
  rewrite (combine_firstn' s P). rewrite H. set (A := firstn (length s) P) in *. assert (LA : length s = length A) by (unfold A; rewrite firstn_length; lia).
  unfold mirror_weights. cbn [fst snd]. rewrite !map_app, combine_app by (rewrite !map_length; auto). cbn [map app List.combine]. rewrite apply1_app.
  replace (apply1 ((Q2R m, Q2R 0) :: List.combine (map Q2R (rev s)) (map Q2R (map Qopp (rev A)))) (fun x => x ^ k))
    with (Q2R m * 0 ^ k + (-1) ^ k * apply1 (List.combine (map Q2R s) (map Q2R A)) (fun x => x ^ k)).
  2:{ unfold apply1 at 2. cbn [map Rsum fst snd]. rewrite Q2R_0. f_equal. change (Rsum (map (fun wx : R * R => fst wx * snd wx ^ k) ?q)) with (apply1 q (fun x => x ^ k)).
      rewrite !map_rev, combine_rev by (rewrite !map_length; auto). rewrite apply1_rev, map_map, !combine_map_lr. unfold apply1. rewrite !map_map, <- Rsum_map_scal. apply Rsum_map_ext. intros [w x] _. cbn [fst snd].
      rewrite Q2R_opp. replace (- Q2R x) with (-1 * Q2R x) by ring. rewrite Rpow_mult_distr. ring. }
  destruct (Nat.even k) eqn:Ek.
  - apply Nat.even_spec in Ek. destruct Ek as [j ->]. replace (2 * j / 2)%nat with j by (rewrite Nat.mul_comm, Nat.div_mul; auto). rewrite pow_1_even.
    rewrite map_map. cbn [fst snd]. replace (Q2R (m / 2)) with (Q2R m / 2) by (unfold Qdiv; rewrite Q2R_mult; unfold Rdiv; f_equal; unfold Q2R; cbn; field).
    rewrite Q2R_0, pow_mult. replace (0 ^ 2) with 0 by ring. rewrite combine_map_lr. unfold apply1. rewrite map_map. cbn [fst snd].
    rewrite (Rsum_map_ext (fun x : Q * Q => Q2R (fst x) * Q2R (snd x * snd x) ^ j) (fun x => Q2R (fst x) * Q2R (snd x) ^ (2 * j))).
    + field.
    + intros [w x] _. cbn [fst snd]. rewrite Q2R_mult, pow_mult. do 2 f_equal. ring.
  - assert (O : Nat.odd k = true) by (rewrite <- Nat.negb_even, Ek; auto). apply Nat.odd_spec in O. destruct O as [j ->]. replace (2 * j + 1)%nat with (S (2 * j)) by lia. rewrite pow_1_odd. cbn [pow]. ring.
Qed.
Theorem table_near p T steps sm P d : (0 <= p)%Z -> (0 < T)%Z -> table_check p T steps sm P = true -> (d < 2 * steps)%nat ->
  near1 d (2 / IZR T) (List.combine (map Q2R (mirror_weights sm)) (map Q2R P)).
Proof.
  intros Hp HT H Hd. unfold table_check in H. apply andb_true_iff in H. destruct H as [H H4]. apply andb_true_iff in H. destruct H as [H H3]. apply andb_true_iff in H. destruct H as [H1 H2].
  apply Nat.leb_le in H2. apply near1_of_powers. intros k Hk. rewrite table_moment by auto. assert (PT : 0 < / IZR T) by (apply Rinv_0_lt_compat, IZR_lt; auto). unfold pow_int.
  destruct (Nat.even k) eqn:E; [|replace (0 - 0) with 0 by ring; rewrite Rabs_R0; lra].
  apply Nat.even_spec in E. destruct E as [j ->]. replace (2 * j / 2)%nat with j by (rewrite Nat.mul_comm, Nat.div_mul; auto).
  assert (G := fx_check_ok p T (half_rule sm P) Hp HT steps 0 _ (good_start p _ Hp H3) H4 j ltac:(lia)).
  replace (2 * j + 1)%nat with (S (2 * j)) in G by lia.
  match goal with |- Rabs (2 * ?a - 2 / ?b) <= _ => replace (2 * a - 2 / b) with (2 * (a - 1 / b)) by (unfold Rdiv; ring) end.
  rewrite Rabs_mult, (Rabs_right 2) by lra. unfold Rdiv. apply Rmult_le_compat_l; [lra|exact G].
Qed.

(** Seventy-five digits of the interpolatory weights; nothing depends on where they come from. *)
Definition gp_approx (index : nat) : list Q * Q := (
  match index with
  | 1%nat => ([
    0.555555555555555522614904229189298249452013945719532179580959344980945007197], 0.888888888888888954770191541621403501095972108560935640838081310038109985606)
  | 2%nat => ([
    0.104656226026467228729764742549707653863542275140839698715462037885364216200;
    0.268488089868333494695151422350314321468962614696584568581683145581624653383;
    0.401397414775962268487970196185613602610079992722775263756984082461117895390], 0.450916538658474016174227277828728844114830234879600937891741468143786470055)
  | 3%nat => ([
    0.017001719629940272348421910980300648429794116784100641880770127421212376164;
    0.051603282997079707508277302801209257210861051697638177188129241916367362241;
    0.092927195315124559467303300446420946309215853444906410723478844845333051946;
    0.134415255243784183021517002607591065483153554907793489550968936172765968223;
    0.171511909136391469051200510510251155766242040735613217768343406059181159762;
    0.200628529376988996119506078417272118556629167871059577208654691613366328156;
    0.219156858401587431642637101988591168971048903013848387383019212762738391896], 0.225510499798206761682273584496727278546110623090080196593271078418070723224)
  | 4%nat => ([
    0.002544780791561917438613221192523747689524510920615714655513644509390763461;
    0.008434565739321039082481583724315299735843877490069582602481013533468394176;
    0.016446049854387875222473381739772147589601729318021809604604390268206999744;
    0.025807598096176536685521436984081928201072674840921053525203769669393528256;
    0.035957103307129410186409651924232538864209561997424098963257452390816866927;
    0.046462893261757928117199276276070894942322484879645836916453245269436466520;
    0.056979509494123356201935692544144135878326515425652354161339507322586600197;
    0.067207754295990735758792036805553509072673497983057775389161956954094368996;
    0.076879620499003531278333312621459553467070127032441405961367240030011564954;
    0.085755920049990383595389875790396361698064053545724578335472373108946064897;
    0.093627109981264494734678521542856685408263092862563010128301602683276815098;
    0.100314278611795606928881702388501481934694525404837946231893268813344920285;
    0.105669893580234735427034301413278223983510236455166345066009741732747165076;
    0.109578421055924644609114577980423618322609109274071955865414800205797573317;
    0.111956873020953492418804038942601081749265757264531032654230722215233794175], 0.112755256720768624628674776259577582925896490610510999878590542586496227842)
  | 5%nat => ([
    0.000363221481941366218157700075594849274229193502020460085857320445620683248;
    0.001265156556028467206282198979977618647176400277883254719713573260535756034;
    0.002579049794866837743565497518764368445506026707220498070023256372722081198;
    0.004217630441438025612572103914889765664082778407493945050233058328812604943;
    0.006115506822188170210780393138687214678282356160147930007183891532584539998;
    0.008223007957196550411756314417390795223826449336796076028563658316445578015;
    0.010498246909642771449746994764303209854313242113198652267384950605370740351;
    0.012903800100339554272450283591697330268135378636882928551576492032356665187;
    0.015406750466565977740733863287824831990065886206180015864714972587206561229;
    0.017978551568124571162933004492358659463163876635220889700325234670624983150;
    0.020594233915914892576058106048273710816911500581408858061640456509685805993;
    0.023231446639908982978948035614448295966734130835536920526580543756118959026;
    0.025869679327215476017539676618304399234119526946381720165542050453704116983;
    0.028489754745833084102288728769142785808752489689625157783339057808442669727;
    0.031073551111688320637524098477000993173558468036561401390982438291966617200;
    0.033603877148207506831079182873318074524587766630035318812260597263433170543;
    0.036064432780782788045734947742794373571813256270959390811046843049609055485;
    0.038439810249455291671079843636720276192966758404448255555394234337765821245;
    0.040715510116944517526126895715317641736450622461264120574731764992258621329;
    0.042877960025007580847824800325021041790742301697253852670260278960311396534;
    0.044914531653632371927640473279184920886206819190515192939194932395360273525;
    0.046813554990627810247645654632672266113366351250995627439664929964253666329;
    0.048564330406673325861568565512218563853462104413317975670070830962386789640;
    0.050157139305899508576295151924387421535836119537518053309924375939794628019;
    0.051583253952048423407242499520711995528258297065195582803540293110022959742;
    0.052834946790116611448546187484161805378662970867995002603090173234929787187;
    0.053905499335265990862591579565699243003541951138311965604911156268689315543;
    0.054789210527962853341916865542739315629317114917234147742024815993198766847;
    0.055481404356559375212520895529050053257211155009628273246850049720260668770;
    0.055978436510476376466914387253697113941549941105588355592094582257375700588;
    0.056277699831254231567474544659732086783885861162593360608512000539779811765], 0.056377628360384775632921050187829955526565809609173631485534372076742409254)
  | _ => ([], 0)
  end)%Q.

(* ------------------------------------------------------------------ the size of the Lagrange polynomials *)
Definition zpt (D : positive) (q : Q) : Z := (Qnum q * (Zpos D / Zpos (Qden q)))%Z.
Definition zpts_ok (D : positive) (P : list Q) : bool := forallb (fun q => Qeq_bool q (zpt D q # D)) P.
(** An upper bound of 2^40 lag_bound *)
Definition zlag (D : Z) (X : list Z) (i : nat) (js : list nat) : Z :=
  fold_right (fun j acc => (acc * (D + Z.abs (nth j X 0)) / Z.abs (nth i X 0 - nth j X 0) + 1)%Z) (2 ^ 10)%Z js.
Definition zlag_check (D : positive) (L : Z) (P : list Q) : bool :=
  let X := map (zpt D) P in let n := length P in
  (zpts_ok D P && forallb (fun i => (zlag (Zpos D) X i (gp_others n i) <=? L * 2 ^ 10)%Z) (seq 0 n))%bool.
Lemma zlag_ok D P i js : zpts_ok D P = true -> NoDup (map Q2R P) -> (i < length P)%nat -> (forall j, In j js -> (j < length P /\ j <> i)%nat) ->
  2 ^ 10 * lag_bound (map Q2R P) i js <= IZR (zlag (Zpos D) (map (zpt D) P) i js).
Proof.
  intros HD Hd Hi. assert (V : forall j, (j < length P)%nat -> nth j (map Q2R P) 0 * IZR (Zpos D) = IZR (nth j (map (zpt D) P) 0%Z)).
  { intros j Hj. rewrite (nth_indep _ 0 (Q2R 0)) by (rewrite map_length; auto). rewrite (nth_indep (map (zpt D) P) 0%Z (zpt D 0)) by (rewrite map_length; auto). rewrite !map_nth.
    unfold zpts_ok in HD. rewrite forallb_forall in HD. assert (E := HD _ (nth_In P 0%Q Hj)). apply Qeq_bool_eq, Qeq_eqR in E. rewrite E at 1. unfold Q2R. cbn [Qnum Qden]. field. apply not_0_IZR. discriminate. }
  assert (PD : 0 < IZR (Zpos D)) by (apply IZR_lt; reflexivity).
  induction js as [|j js IH]; intros Hj; [cbn [lag_bound zlag fold_right map]; change (IZR (2 ^ 10)) with (IZR (2 ^ Z.of_nat 10)); rewrite <- (pow_IZR 2 10); lra|].
  cbn [lag_bound zlag fold_right map]. fold (lag_bound (map Q2R P) i js). fold (zlag (Zpos D) (map (zpt D) P) i js). specialize (IH (fun k Hk => Hj k (or_intror Hk))).
  destruct (Hj j (or_introl eq_refl)) as [J1 J2]. assert (N : nth i (map Q2R P) 0 - nth j (map Q2R P) 0 <> 0) by (apply nodup_nth_neq; auto; rewrite map_length; auto).
  assert (Vi := V i Hi). assert (Vj := V j J1). set (x := nth i (map Q2R P) 0) in *. set (y := nth j (map Q2R P) 0) in *. set (X := nth i (map (zpt D) P) 0%Z) in *. set (Y := nth j (map (zpt D) P) 0%Z) in *.
  set (B := zlag (Zpos D) (map (zpt D) P) i js) in *. set (b := lag_bound (map Q2R P) i js) in *.
  assert (NZ : (0 < Z.abs (X - Y))%Z). { apply Z.abs_pos. intros E. apply N. apply (Rmult_eq_reg_r (IZR (Zpos D))); [|lra]. rewrite Rmult_minus_distr_r, Vi, Vj, <- minus_IZR, E. ring. }
  assert (Q : IZR (B * (Zpos D + Z.abs Y)) <= IZR (B * (Zpos D + Z.abs Y) / Z.abs (X - Y) + 1) * IZR (Z.abs (X - Y))).
  { rewrite <- mult_IZR. apply IZR_le. assert (E := Z.div_mod (B * (Zpos D + Z.abs Y)) (Z.abs (X - Y)) ltac:(lia)). assert (M := Z.mod_pos_bound (B * (Zpos D + Z.abs Y)) (Z.abs (X - Y)) NZ). lia. }
  apply IZR_lt in NZ. apply (Rmult_le_reg_r (IZR (Z.abs (X - Y)))); auto. eapply Rle_trans; [|exact Q]. rewrite mult_IZR, plus_IZR.
  rewrite !abs_IZR in *. rewrite minus_IZR in *. rewrite <- Vi, <- Vj in *. replace (x * IZR (Zpos D) - y * IZR (Zpos D)) with ((x - y) * IZR (Zpos D)) in * by ring.
  rewrite !Rabs_mult, (Rabs_right (IZR (Zpos D))) in * by lra. apply Rabs_pos_lt in N.
  replace (2 ^ 10 * ((1 + Rabs y) / Rabs (x - y) * b) * (Rabs (x - y) * IZR (Zpos D))) with (2 ^ 10 * b * (IZR (Zpos D) + Rabs y * IZR (Zpos D))) by (field; lra).
  apply Rmult_le_compat_r; auto. assert (A := Rabs_pos y). nra.
Qed.
Lemma zlag_check_ok D L P : zlag_check D L P = true -> NoDup (map Q2R P) -> forall i, (i < length P)%nat -> lag_bound (map Q2R P) i (gp_others (length P) i) <= IZR L.
Proof.
  unfold zlag_check. intros H Hd i Hi. apply andb_true_iff in H. destruct H as [H1 H2]. rewrite forallb_forall in H2. specialize (H2 i ltac:(apply in_seq; lia)). apply Z.leb_le, IZR_le in H2.
  assert (A := zlag_ok D P i (gp_others (length P) i) H1 Hd Hi (fun j Hj => proj1 (others_in _ _ _) Hj)). rewrite mult_IZR in H2. change (IZR (2 ^ 10)) with (IZR (2 ^ Z.of_nat 10)) in H2. rewrite <- (pow_IZR 2 10) in H2.
  assert (0 < 2 ^ 10) by (apply pow_lt; lra). nra.
Qed.

(* ------------------------------------------------------------------ the points *)
Definition inside (q : Q) : bool := (negb (Qle_bool q (-1)) && negb (Qle_bool 1 q))%bool.
Lemma inside_ok q : inside q = true -> -1 < Q2R q < 1.
Proof.
  unfold inside. intros H. apply andb_true_iff in H. destruct H as [A B]. apply negb_true_iff in A, B.
  assert (E1 : Q2R (-1) = -1) by (unfold Q2R; cbn; field). assert (E2 : Q2R 1 = 1) by apply Q2R_1. split; [rewrite <- E1|rewrite <- E2]; apply Qlt_Rlt, Qnot_le_lt; intros E; apply Qle_bool_iff in E; congruence.
Qed.
Definition points_check (i : nat) : bool :=
  let P := gp_sorted i in ((length P =? 2 ^ (i + 1) - 1)%nat && ascending P && forallb inside P && symmetric_points (2 ^ i - 1) P)%bool.
Lemma points_all : forallb points_check (seq 0 9) = true.
Proof. vm_compute. reflexivity. Qed.

Lemma points_facts i : (i <= 8)%nat -> let P := np_sort (gp_get_points i) in
  P = map Q2R (gp_sorted i) /\ length P = (2 ^ (i + 1) - 1)%nat /\ StronglySorted Rlt P /\ (forall x, In x P -> -1 < x < 1) /\ (forall x, In x P -> In (- x) P) /\ symmetric_points (2 ^ i - 1) (gp_sorted i) = true.
Proof.
  intros Hi. assert (C := points_all). rewrite forallb_forall in C. specialize (C i ltac:(apply in_seq; lia)). unfold points_check in C.
  apply andb_true_iff in C. destruct C as [C C4]. apply andb_true_iff in C. destruct C as [C C3]. apply andb_true_iff in C. destruct C as [C1 C2]. apply Nat.eqb_eq in C1.
  cbv zeta. rewrite (gp_sorted_ok i C2). split; auto. split; [rewrite map_length; auto|]. split; [apply ascending_ok; auto|]. split; [|split; auto].
  - intros x Hx. apply in_map_iff in Hx. destruct Hx as [q [<- Hq]]. rewrite forallb_forall in C3. apply inside_ok. auto.
  - unfold symmetric_points in C4. apply qeq_list_ok in C4. rewrite C4. intros x. rewrite !map_app, !in_app_iff. cbn [map In]. rewrite Q2R_0, map_rev, map_rev, map_map.
    rewrite <- !in_rev. set (A := firstn (2 ^ i - 1) (gp_sorted i)). rewrite !in_map_iff. intros [[q [<- Hq]]|[[<-|[]]|[q [<- Hq]]]].
    + right. right. exists q. split; auto. apply Q2R_opp.
    + right. left. left. ring.
    + left. exists q. split; auto. rewrite Q2R_opp. ring.
Qed.

(* ------------------------------------------------------------------ the checks *)
Definition dec16 : Z := (10 ^ 16)%Z.
Definition small_check (i : nat) : bool :=
  (table_check 220 (10 ^ 60) (2 ^ i) (gp_approx i) (gp_sorted i) && table_check 80 (4 * dec16) (3 * 2 ^ (i - 1)) (gp_approx i) (gp_sorted i)
   && zlag_check (10 ^ 20) (10 ^ 36) (gp_sorted i) && (length (fst (gp_approx i)) =? 2 ^ i - 1)%nat
   && forallb (fun w => Qle_bool (1 # 1000000000) w) (mirror_weights (gp_approx i)))%bool.
Lemma small_all : forallb small_check (seq 1 5) = true.
Proof. vm_compute. reflexivity. Qed.
Definition large_check (i : nat) : bool :=
  match gp_table_weights i with
  | Some sm => (table_check 80 (2 * dec16) (3 * 2 ^ (i - 1)) sm (gp_sorted i) && (length (fst sm) =? 2 ^ i - 1)%nat && forallb (fun w => Qle_bool (1 # 1000000000) w) (mirror_weights sm))%bool
  | None => false
  end.
Lemma large_6 : large_check 6 = true.
Proof. vm_compute. reflexivity. Qed.
Lemma large_7 : large_check 7 = true.
Proof. vm_compute. reflexivity. Qed.
Lemma large_8 : large_check 8 = true.
Proof. vm_compute. reflexivity. Qed.
Lemma mirror_length sm : length (mirror_weights sm) = (2 * length (fst sm) + 1)%nat.
Proof. unfold mirror_weights. rewrite !app_length, rev_length. cbn. lia. Qed.
Lemma pos_list l : forallb (fun w => Qle_bool (1 # 1000000000) w) l = true -> forall w, In w (map Q2R l) -> / 1000000000 <= w.
Proof.
  intros H w Hw. apply in_map_iff in Hw. destruct Hw as [q [<- Hq]]. rewrite forallb_forall in H. specialize (H q Hq). apply Qle_bool_iff, Qle_Rle in H.
  eapply Rle_trans; [|exact H]. unfold Q2R. cbn. lra.
Qed.
Theorem small_rule lg i : leggauss_ok lg -> (1 <= i <= 5)%nat -> exists w, let P := np_sort (gp_get_points i) in
  gp_get_weights lg P = Some w /\ length w = length P /\ exact1 (2 ^ (i + 1) - 1) (List.combine w P) /\ near1 (3 * 2 ^ i - 1) (/ 10 ^ 16) (List.combine w P) /\ (forall x, In x w -> 0 < x).
Proof.
  intros Hl Hi. destruct (points_facts i ltac:(lia)) as [EP [LP [SP [IP [YP MP]]]]]. set (P := np_sort (gp_get_points i)) in *. assert (ND := sorted_nodup P SP).
  assert (PW : (2 <= 2 ^ i)%nat) by (change 2%nat with (2 ^ 1)%nat at 1; apply Nat.pow_le_mono_r; lia). assert (PS : (2 ^ (i + 1) = 2 * 2 ^ i)%nat) by (rewrite Nat.add_1_r; cbn [Nat.pow]; lia).
  assert (OD : Nat.odd (length P) = true). { rewrite LP, PS. apply Nat.odd_spec. exists (2 ^ i - 1)%nat. lia. }
  destruct (get_weights_odd_symmetric lg P Hl ND OD YP) as [w [Ew [Lw Xw]]]. exists w. cbv zeta. split; auto. split; auto. split; [rewrite <- LP; auto|].
  assert (C := small_all). rewrite forallb_forall in C. specialize (C i ltac:(apply in_seq; lia)). unfold small_check in C.
  apply andb_true_iff in C. destruct C as [C C5]. apply andb_true_iff in C. destruct C as [C C4]. apply andb_true_iff in C. destruct C as [C C3]. apply andb_true_iff in C. destruct C as [C1 C2]. apply Nat.eqb_eq in C4.
  set (v := map Q2R (mirror_weights (gp_approx i))). assert (Lv : length v = length P) by (unfold v; rewrite map_length, mirror_length, C4, LP; lia).
  assert (PE : (2 ^ i = 2 * 2 ^ (i - 1))%nat) by (destruct i; [lia|]; cbn [Nat.pow]; rewrite Nat.sub_succ, Nat.sub_0_r; lia).
  assert (N1 : near1 (length P - 1) (2 / IZR (10 ^ 60)) (List.combine v P)) by (rewrite EP; unfold v; apply (table_near 220 (10 ^ 60) (2 ^ i)); auto; [lia|lia|rewrite <- EP; lia]).
  assert (N2 : near1 (3 * 2 ^ i - 1) (2 / IZR (4 * dec16)) (List.combine v P)) by (rewrite EP; unfold v; apply (table_near 80 (4 * dec16) (3 * 2 ^ (i - 1))); auto; [lia|reflexivity|lia]).
  assert (LB : forall k, (k < length P)%nat -> lag_bound P k (gp_others (length P) k) <= IZR (10 ^ 36)).
  { intros k Hk. rewrite EP, map_length in Hk. rewrite EP at 1 2. rewrite map_length. apply (zlag_check_ok (10 ^ 20)); auto. rewrite <- EP. auto. }
  assert (X1 : exact1 (length P - 1) (List.combine w P)) by (intros c Hc; apply Xw; lia).
  assert (D0 : 0 <= 2 / IZR (10 ^ 60)) by (apply Rlt_le, Rdiv_lt_0_compat; [lra|apply IZR_lt; lia]).
  assert (DL : 2 / IZR (10 ^ 60) * IZR (10 ^ 36) = 2 / 10 ^ 24).
  { change (IZR (10 ^ 60)) with (IZR (10 ^ Z.of_nat 60)). change (IZR (10 ^ 36)) with (IZR (10 ^ Z.of_nat 36)). rewrite <- !pow_IZR. replace (10 ^ 60) with (10 ^ 36 * 10 ^ 24) by (rewrite <- pow_add; auto). field; repeat split; apply pow_nonzero; lra. }
  split.
  - eapply near1_le; [|  |eapply (near1_transfer P w v (3 * 2 ^ i - 1) _ _ (IZR (10 ^ 36))); eauto].
    + lia.
    + rewrite DL. assert (LR : INR (length P) <= 64). { replace 64 with (INR 64) by (cbn; lra). apply le_INR. rewrite LP. assert (2 ^ (i + 1) <= 2 ^ 6)%nat by (apply Nat.pow_le_mono_r; lia). change (2 ^ 6)%nat with 64%nat in *. lia. }
      unfold dec16. rewrite mult_IZR. change (IZR (10 ^ 16)) with (IZR (10 ^ Z.of_nat 16)). rewrite <- pow_IZR. replace (10 ^ 24) with (10 ^ 16 * 10 ^ 8) by (rewrite <- pow_add; auto).
      assert (P16 : 0 < 10 ^ 16) by (apply pow_lt; lra). assert (P8 : 10 ^ 8 = 100000000) by ring. rewrite P8. apply (Rmult_le_reg_r (10 ^ 16)); auto. rewrite Rinv_l by lra.
      replace ((2 / (4 * 10 ^ 16) + INR (length P) * (2 / (10 ^ 16 * 100000000))) * 10 ^ 16) with (/ 2 + INR (length P) * (2 / 100000000)) by (field; lra). lra.
    + intros x Hx. specialize (IP x Hx). apply Rabs_le. lra.
  - intros x Hx. destruct (In_nth _ _ 0 Hx) as [k [Hk <-]]. assert (W := weights_close P w v _ _ ND Lw Lv X1 N1 D0 LB k ltac:(lia)). rewrite DL in W.
    assert (V : / 1000000000 <= nth k v 0) by (apply (pos_list _ C5); fold v; apply nth_In; lia).
    assert (S24 : 2 / 10 ^ 24 < / 1000000000) by (replace (10 ^ 24) with (1000000000000000000000000) by ring; lra). apply Rabs_def2b in W || apply Rabs_le_between in W. lra.
Qed.
Theorem large_rule i sm : (6 <= i <= 8)%nat -> gp_table_weights i = Some sm -> let P := np_sort (gp_get_points i) in let w := map Q2R (mirror_weights sm) in
  length w = length P /\ near1 (3 * 2 ^ i - 1) (/ 10 ^ 16) (List.combine w P) /\ (forall x, In x w -> 0 < x).
Proof.
  intros Hi Es. cbv zeta. destruct (points_facts i ltac:(lia)) as [EP [LP _]]. set (P := np_sort (gp_get_points i)) in *.
  assert (C : large_check i = true). { assert (D : i = 6%nat \/ i = 7%nat \/ i = 8%nat) by lia. destruct D as [-> | [-> | ->]]; [exact large_6|exact large_7|exact large_8]. }
  unfold large_check in C. rewrite Es in C. apply andb_true_iff in C. destruct C as [C C3]. apply andb_true_iff in C. destruct C as [C1 C2]. apply Nat.eqb_eq in C2.
  assert (PW : (1 <= 2 ^ i)%nat) by (change 1%nat with (2 ^ 0)%nat at 1; apply Nat.pow_le_mono_r; lia). assert (PS : (2 ^ (i + 1) = 2 * 2 ^ i)%nat) by (rewrite Nat.add_1_r; cbn [Nat.pow]; lia).
  assert (PE : (2 ^ i = 2 * 2 ^ (i - 1))%nat) by (destruct i; [lia|]; cbn [Nat.pow]; rewrite Nat.sub_succ, Nat.sub_0_r; lia).
  split; [rewrite map_length, mirror_length, C2, LP; lia|]. split.
  - rewrite EP. eapply near1_le; [| |apply (table_near 80 (2 * dec16) (3 * 2 ^ (i - 1)) sm (gp_sorted i) (3 * 2 ^ i - 1)); auto].
    + lia.
    + unfold dec16. rewrite mult_IZR. change (IZR (10 ^ 16)) with (IZR (10 ^ Z.of_nat 16)). rewrite <- pow_IZR. right. field; apply pow_nonzero; lra.
    + lia.
    + reflexivity.
    + lia.
  - intros x Hx. assert (A := pos_list _ C3 x Hx). assert (0 < / 1000000000) by lra. lra.
Qed.
