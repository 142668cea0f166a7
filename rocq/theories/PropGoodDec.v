(** C51, the answers of get_good_scheme that are tables of decimals: they integrate every polynomial of the requested degree up to 1e-14 times
    the sum of the absolute values of its coefficients.  And the dimension of the schemes for balls and space that are built from a sphere. *)
From Coq Require Import Reals List Arith ZArith Lia Lra String.
From Verif Require Import Spec IntegralSpec SphereSpec PyBase FixSpec RootSpec C2Proofs C3Proofs C3Param S2Proofs S23Param S3Proofs T2Proofs T3Proofs U3Proofs E23Proofs SymmModel SymmProofs OrbitModel C2Model C3Model T2Model T3Model S2Model S3Model U3Model E23Model GoodModel GoodSpec GoodProofs DecSpec PropDec PropGood.
From Verif Require DecModel RestModel TnModel2.
Import ListNotations.
Set Bullet Behavior "Strict Subproofs".
Local Notation length := List.length.
Open Scope R_scope.
Open Scope string_scope.

(** The call returns a scheme that declares at least the degree and integrates all polynomials of that degree up to rounding. *)
Definition nearly_good_for (M : (point -> R) -> R) (nc : nat) (degree : Z) (a : answer) : Prop :=
  exists s, a = Scheme s /\ (degree <= Z.of_nat (s_degree s))%Z /\ List.Forall (fun wp => length (snd wp) = nc) (s_rule s) /\
    forall p, mp_ok nc (Z.to_nat degree) p -> Rabs (apply (s_rule s) (mpeval p) - M (mpeval p)) <= 1e-14 * Rsum (map (fun ck => Rabs (fst ck)) p).
Definition near (M : (point -> R) -> R) (nc d : nat) (s : scheme) : Prop :=
  s_degree s = d /\ List.Forall (fun wp => length (snd wp) = nc) (s_rule s) /\
  forall p, mp_ok nc d p -> Rabs (apply (s_rule s) (mpeval p) - M (mpeval p)) <= 1e-14 * Rsum (map (fun ck => Rabs (fst ck)) p).
Lemma near_copy M nc d o tol : reaches 1 M nc d (DecModel.with_tol o tol) -> tol <= 1e-14 -> exists s, o = Some s /\ near M nc d s.
Proof.
  intros (s & t & E & D & P & L & H) T. destruct o as [s'|]; [|discriminate]. cbn in E. injection E as -> ->. exists s. split; [reflexivity|]. split; [exact D|]. split; [exact L|].
  intros p Hp. eapply Rle_trans; [apply H; exact Hp|]. rewrite Rmult_1_l. apply Rmult_le_compat_r; [|exact T]. clear. induction p as [|x p IH]; cbn [map Rsum]; [lra|]. pose proof (Rabs_pos (fst x)). lra.
Qed.
Lemma near_lower M nc d e s : near M nc d s -> (e <= d)%nat -> forall p, mp_ok nc e p -> Rabs (apply (s_rule s) (mpeval p) - M (mpeval p)) <= 1e-14 * Rsum (map (fun ck => Rabs (fst ck)) p).
Proof. intros (_ & _ & H) L p Hp. apply H. unfold mp_ok in *. eapply Forall_impl; [|exact Hp]. intros ck [A B]. split; auto. lia. Qed.
Lemma wv09 : exists s, GoodModel.c3_witherden_vincent_09 = Some s /\ near (cube_mean 3) 3 9 s.
Proof. destruct C71_c3_witherden_vincent as (_ & H & _). apply (near_copy _ _ _ GoodModel.c3_witherden_vincent_09 _ H). lra. Qed.
Lemma wv11 : exists s, GoodModel.c3_witherden_vincent_11 = Some s /\ near (cube_mean 3) 3 11 s.
Proof. destruct C71_c3_witherden_vincent as (_ & _ & H). apply (near_copy _ _ _ GoodModel.c3_witherden_vincent_11 _ H). lra. Qed.
Lemma lj15 : exists s, GoodModel.t2_lyness_jespersen_15 = Some s /\ near (simplex_mean 2) 3 8 s.
Proof. destruct C71_t2_lyness_jespersen as (_ & _ & _ & _ & H & _). apply (near_copy _ _ _ GoodModel.t2_lyness_jespersen_15 _ H). lra. Qed.
Lemma lj18 : exists s, GoodModel.t2_lyness_jespersen_18 = Some s /\ near (simplex_mean 2) 3 9 s.
Proof. destruct C71_t2_lyness_jespersen as (_ & _ & _ & _ & _ & _ & _ & H & _). apply (near_copy _ _ _ GoodModel.t2_lyness_jespersen_18 _ H). lra. Qed.
Ltac near_entry N := let s := fresh "s" in let E := fresh "E" in let H := fresh "H" in
  cbn [fst snd] in *; subst; destruct N as (s & E & H); exists s; split; [apply registered_closed; rewrite <- E; reflexivity|];
  pose proof H as (-> & F & _); split; [lia|]; split; [exact F|]; apply (near_lower _ _ _ _ _ H); lia.
Theorem C51_c3_decimals : forall degree, In degree [8; 9; 10; 11]%Z -> nearly_good_for (cube_mean 3) 3 degree (c3_get_good_scheme degree).
Proof.
  intros degree Hd. unfold c3_get_good_scheme, c3_schemes.
  assert (Hb : (0 <= degree <= 11)%Z) by (cbn in Hd; lia).
  apply good_eager_ok; [lia|apply (in_range c3_table 11 _ eq_refl); lia| |].
  - intros e He. cbn in He.
    destruct He as [<-|He]; [destruct c3_midpoint_ok as [s [E _]]; exists s; apply registered_closed; rewrite <- E; reflexivity|].
    destruct He as [<-|He]; [destruct c3_midpoint_ok as [s [E _]]; exists s; apply registered_closed; rewrite <- E; reflexivity|].
    destruct He as [<-|He]; [destruct c3_face_midpoint_ok as [s [E _]]; exists s; apply registered_closed; rewrite <- E; reflexivity|].
    destruct He as [<-|He]; [destruct c3_face_midpoint_ok as [s [E _]]; exists s; apply registered_closed; rewrite <- E; reflexivity|].
    destruct He as [<-|He]; [destruct c3_hammer_stroud_4_3_ok as [s [E _]]; exists s; apply registered_closed; rewrite <- E; reflexivity|].
    destruct He as [<-|He]; [destruct c3_hammer_stroud_4_3_ok as [s [E _]]; exists s; apply registered_closed; rewrite <- E; reflexivity|].
    destruct He as [<-|He]; [destruct hammer_wymore_default as [s [E _]]; exists s; apply registered_closed; rewrite <- E; reflexivity|].
    destruct He as [<-|He]; [destruct hammer_wymore_default as [s [E _]]; exists s; apply registered_closed; rewrite <- E; reflexivity|].
    destruct He as [<-|He]; [destruct wv09 as [s [E _]]; exists s; apply registered_closed; rewrite <- E; reflexivity|].
    destruct He as [<-|He]; [destruct wv09 as [s [E _]]; exists s; apply registered_closed; rewrite <- E; reflexivity|].
    destruct He as [<-|He]; [destruct wv11 as [s [E _]]; exists s; apply registered_closed; rewrite <- E; reflexivity|].
    destruct He as [<-|He]; [destruct wv11 as [s [E _]]; exists s; apply registered_closed; rewrite <- E; reflexivity|].
    destruct He.
  - intros e He Ed. cbn in He.
    do 8 (destruct He as [<-|He]; [cbn [fst snd] in *; subst degree; exfalso; cbn in Hd; lia|]).
    destruct He as [<-|He]; [near_entry wv09|].
    destruct He as [<-|He]; [near_entry wv09|].
    destruct He as [<-|He]; [near_entry wv11|].
    destruct He as [<-|He]; [near_entry wv11|].
    destruct He.
Qed.
Print Assumptions C51_c3_decimals.
Lemma t2_names roots files : forall e, In e t2_table -> exists c, t2_schemes roots files (snd e) = Some c.
Proof. intros e He. cbn in He. repeat (destruct He as [<-|He]; [eexists; reflexivity|]). destruct He. Qed.
Theorem C51_t2_decimals : forall roots files degree, In degree [8; 9]%Z -> nearly_good_for (simplex_mean 2) 3 degree (t2_get_good_scheme roots files degree).
Proof.
  intros roots files degree Hd. unfold t2_get_good_scheme.
  assert (Hb : (0 <= degree <= 50)%Z) by (cbn in Hd; lia).
  apply good_lazy_ok; [lia|apply (in_range t2_table 50 _ eq_refl); lia|apply t2_names|].
  intros e He Ed. assert (In e [(8, "lyness_jespersen_15"); (9, "lyness_jespersen_18")]%Z) as Hm.
  { cbn in He. repeat (destruct He as [<-|He]; [cbn [fst snd] in *; first [now left|now right; left|exfalso; cbn in Hd; lia]|]). destruct He. }
  clear He. unfold t2_schemes. destruct Hm as [<-|[<-|[]]]; [near_entry lj15|near_entry lj18].
Qed.
Print Assumptions C51_t2_decimals.

(* ------------------------------------------------------------------ the dimension of the answers *)
Lemma good_lazy_from bound table schemes degree s : good_lazy bound table schemes degree = Scheme s -> exists name, In name (map snd table) /\ schemes name = Some (Some s).
Proof.
  unfold good_lazy. destruct (degree <=? bound)%Z; [|discriminate]. destruct (mapM _ table) as [t|] eqn:E; [|discriminate]. revert t E.
  induction table as [|e table IH]; intros t E.
  - injection E as <-. discriminate.
  - cbn [mapM] in E. destruct (schemes (snd e)) as [c|] eqn:Ec; [|discriminate]. cbn [bind] in E. destruct (mapM _ table) as [t'|] eqn:Et; [|discriminate]. injection E as <-. cbn [find fst].
    destruct (fst e =? degree)%Z.
    + destruct c as [s'|]; [|discriminate]. intros [= ->]. exists (snd e). split; [now left|exact Ec].
    + intros H. destruct (IH _ eq_refl H) as (n & Hn & En). exists n. split; [now right|exact En].
Qed.
Lemma good_eager_from bound table schemes degree s : good_eager bound table schemes degree = Scheme s -> exists name, In name (map snd table) /\ schemes name = Some (Some s).
Proof.
  unfold good_eager. destruct (degree <=? bound)%Z; [|discriminate]. destruct (mapM _ table) as [t|] eqn:E; [|discriminate]. revert t E.
  induction table as [|e table IH]; intros t E.
  - injection E as <-. discriminate.
  - cbn [mapM] in E. destruct (schemes (snd e)) as [[c|]|] eqn:Ec; try discriminate. cbn [bind] in E. destruct (mapM _ table) as [t'|] eqn:Et; [|discriminate]. injection E as <-. cbn [find fst].
    destruct (fst e =? degree)%Z.
    + intros [= ->]. exists (snd e). split; [now left|exact Ec].
    + intros H. destruct (IH _ eq_refl H) as (n & Hn & En). exists n. split; [now right|exact En].
Qed.
Lemma registered_from closed files read name o : registered closed files read name = Some o -> In o (map snd closed) \/ o = read name.
Proof.
  unfold registered. destruct (SymmModel.lookup closed name) as [r|] eqn:E.
  - intros [= <-]. left. unfold SymmModel.lookup in E. induction closed as [|[k v] closed IH]; [discriminate|]. cbn [find fst] in E. cbn [map snd]. destruct (String.eqb k name) eqn:K; [injection E as <-; now left|right; auto].
  - destruct (existsb _ files); [|discriminate]. intros [= <-]. now right.
Qed.
Definition in_dim (n : nat) (o : option scheme) : Prop := forall s, o = Some s -> s_dim s = n.
Lemma lazy_dim n bound table closed files read degree s : List.Forall (in_dim n) (map snd closed) -> (forall name, in_dim n (read name)) ->
  good_lazy bound table (registered closed files read) degree = Scheme s -> s_dim s = n.
Proof.
  intros C Rd H. apply good_lazy_from in H. destruct H as (name & _ & H). apply registered_from in H. rewrite Forall_forall in C. destruct H as [H|H]; [exact (C _ H s eq_refl)|exact (Rd name s (eq_sym H))].
Qed.
Lemma eager_dim n bound table closed files read degree s : List.Forall (in_dim n) (map snd closed) -> (forall name, in_dim n (read name)) ->
  good_eager bound table (registered closed files read) degree = Scheme s -> s_dim s = n.
Proof.
  intros C Rd H. apply good_eager_from in H. destruct H as (name & _ & H). apply registered_from in H. rewrite Forall_forall in C. destruct H as [H|H]; [exact (C _ H s eq_refl)|exact (Rd name s (eq_sym H))].
Qed.
Lemma dim_bind {A} n (o : option A) (k : A -> option scheme) : (forall a, in_dim n (k a)) -> in_dim n (bind o k).
Proof. intros H. destruct o as [a|]; [apply H|]. intros s. discriminate. Qed.
Lemma dim_some n r d : in_dim n (Some (mk_scheme n r d)).
Proof. intros s [= <-]. reflexivity. Qed.
Lemma c2_dim d e : in_dim 2 (c2_scheme d e). Proof. apply dim_bind. intros. apply dim_some. Qed.
Lemma c3_dim d e : in_dim 3 (c3_scheme d e). Proof. apply dim_bind. intros. apply dim_some. Qed.
Lemma t2_dim d e : in_dim 2 (t2_scheme d e). Proof. apply dim_bind. intros. apply dim_some. Qed.
Lemma t3_dim d e : in_dim 3 (t3_scheme d e). Proof. apply dim_bind. intros. apply dim_some. Qed.
Lemma s2_dim' d e : in_dim 2 (s2_scheme d e). Proof. apply dim_bind. intros. apply dim_some. Qed.
Lemma s3_dim' d e : in_dim 3 (s3_scheme d e). Proof. apply dim_bind. intros. apply dim_some. Qed.
Lemma u3_dim d e : in_dim 3 (u3_scheme d e). Proof. apply dim_bind. intros. apply dim_some. Qed.
Lemma e2_dim d e : in_dim 2 (e2_scheme d e). Proof. apply dim_bind. intros. apply dim_some. Qed.
Lemma e3_dim d e : in_dim 3 (e3_scheme d e). Proof. apply dim_bind. intros. apply dim_some. Qed.
Lemma scaled_dim n o w : in_dim n o -> in_dim n (bind o (fun s => Some (scale_scheme w s))).
Proof. intros H s E. destruct o as [s'|]; [|discriminate]. injection E as <-. destruct w; cbn [scale_scheme s_dim]; apply H; reflexivity. Qed.
Ltac dims := cbv zeta; lazymatch goal with
  | |- in_dim _ (bind _ _) => apply dim_bind; intros ?; dims
  | |- in_dim _ (Some _) => apply dim_some
  | |- in_dim _ (c2_scheme _ _) => apply c2_dim | |- in_dim _ (c3_scheme _ _) => apply c3_dim | |- in_dim _ (t2_scheme _ _) => apply t2_dim
  | |- in_dim _ (t3_scheme _ _) => apply t3_dim | |- in_dim _ (s2_scheme _ _) => apply s2_dim' | |- in_dim _ (s3_scheme _ _) => apply s3_dim'
  | |- in_dim _ (u3_scheme _ _) => apply u3_dim | |- in_dim _ (e2_scheme _ _) => apply e2_dim | |- in_dim _ (e3_scheme _ _) => apply e3_dim
  | |- in_dim _ ?x => let h := match x with ?f _ _ => f | ?f _ => f | _ => x end in unfold h; dims end.
(** Whatever get_good_scheme returns is a scheme of the dimension of the domain. *)
Theorem C51_dimension : forall s,
  (forall files degree, c2_get_good_scheme files degree = Scheme s -> s_dim s = 2%nat) /\
  (forall degree, c3_get_good_scheme degree = Scheme s -> s_dim s = 3%nat) /\
  (forall roots files degree, t2_get_good_scheme roots files degree = Scheme s -> s_dim s = 2%nat) /\
  (forall files degree, t3_get_good_scheme files degree = Scheme s -> s_dim s = 3%nat) /\
  (forall files degree, s2_get_good_scheme files degree = Scheme s -> s_dim s = 2%nat) /\
  (forall u degree, s3_get_good_scheme u degree = Scheme s -> s_dim s = 3%nat) /\
  (forall files degree, u3_get_good_scheme files degree = Scheme s -> s_dim s = 3%nat) /\
  (forall files degree, e2r_get_good_scheme files degree = Scheme s -> s_dim s = 2%nat) /\
  (forall files degree, e2r2_get_good_scheme files degree = Scheme s -> s_dim s = 2%nat) /\
  (forall degree, e3r_get_good_scheme degree = Scheme s -> s_dim s = 3%nat).
Proof.
  intros s. repeat match goal with |- _ /\ _ => split end; intros *.
  - apply lazy_dim; [match goal with |- List.Forall _ (map snd ?c) => let h := match c with ?f _ => f | _ => c end in unfold h end; cbn [map snd]; repeat (apply Forall_cons; [dims|]); apply Forall_nil|intros; apply c2_dim].
  - apply eager_dim; [unfold c3_closed; cbn [map snd]; repeat (apply Forall_cons; [dims|]); apply Forall_nil|intros ? ?; discriminate].
  - apply lazy_dim; [match goal with |- List.Forall _ (map snd ?c) => let h := match c with ?f _ => f | _ => c end in unfold h end; cbn [map snd]; repeat (apply Forall_cons; [dims|]); apply Forall_nil|intros; apply scaled_dim, t2_dim].
  - apply lazy_dim; [match goal with |- List.Forall _ (map snd ?c) => let h := match c with ?f _ => f | _ => c end in unfold h end; cbn [map snd]; repeat (apply Forall_cons; [dims|]); apply Forall_nil|intros; apply scaled_dim, t3_dim].
  - apply lazy_dim; [match goal with |- List.Forall _ (map snd ?c) => let h := match c with ?f _ => f | _ => c end in unfold h end; cbn [map snd]; repeat (apply Forall_cons; [dims|]); apply Forall_nil|intros; apply scaled_dim, s2_dim'].
  - apply lazy_dim; [match goal with |- List.Forall _ (map snd ?c) => let h := match c with ?f _ => f | _ => c end in unfold h end; cbn [map snd]; repeat (apply Forall_cons; [dims|]); apply Forall_nil|intros ? ?; discriminate].
  - apply lazy_dim; [match goal with |- List.Forall _ (map snd ?c) => let h := match c with ?f _ => f | _ => c end in unfold h end; cbn [map snd]; repeat (apply Forall_cons; [dims|]); apply Forall_nil|intros; apply u3_dim].
  - apply lazy_dim; [match goal with |- List.Forall _ (map snd ?c) => let h := match c with ?f _ => f | _ => c end in unfold h end; cbn [map snd]; repeat (apply Forall_cons; [dims|]); apply Forall_nil|intros; apply scaled_dim, e2_dim].
  - apply lazy_dim; [match goal with |- List.Forall _ (map snd ?c) => let h := match c with ?f _ => f | _ => c end in unfold h end; cbn [map snd]; repeat (apply Forall_cons; [dims|]); apply Forall_nil|intros; apply scaled_dim, e2_dim].
  - apply lazy_dim; [match goal with |- List.Forall _ (map snd ?c) => let h := match c with ?f _ => f | _ => c end in unfold h end; cbn [map snd]; repeat (apply Forall_cons; [dims|]); apply Forall_nil|intros ? ?; discriminate].
Qed.
Print Assumptions C51_dimension.
(** The two schemes of degree 14 that are built from the sphere's, and the Silvester schemes for all dimensions. *)
Theorem C77_dimension : forall s t,
  (RestModel.s3_stroud_14_1_full = Some (s, t) -> s_dim s = 3%nat) /\ (RestModel.e3r2_stroud_14_1 = Some (s, t) -> s_dim s = 3%nat).
Proof.
  intros s t. split.
  - unfold RestModel.s3_stroud_14_1_full. destruct RestModel.u3_mclaren_10 as [u|]; [|discriminate]. cbn [bind]. intros E. injection E as <- _. reflexivity.
  - unfold RestModel.e3r2_stroud_14_1. destruct RestModel.u3_mclaren_10 as [u|]; [|discriminate]. cbn [bind]. destruct (rsqrt PI) as [p|]; [|discriminate]. cbn [bind]. intros E. injection E as <- _. reflexivity.
Qed.
Print Assumptions C77_dimension.
Theorem C24_silvester_dimension : forall dim closed n s, TnModel2.silvester dim closed n = Some s -> s_dim s = dim /\ s_degree s = n.
Proof.
  intros dim closed n s. unfold TnModel2.silvester. destruct n as [|n]; [discriminate|]. cbv zeta. destruct (TnModel2.silvester_data _ _ _) as [w p]. intros E. injection E as <-. split; reflexivity.
Qed.
Print Assumptions C24_silvester_dimension.
(** degree 9 on the cube: a table of decimals is returned and integrates x^4 y^2 up to 1e-14 *)
Example C51_decimals_case : exists s, c3_get_good_scheme 9 = Scheme s /\ Rabs (apply (s_rule s) (mpeval [(1, [4; 2; 0]%nat)]) - cube_mean 3 (mpeval [(1, [4; 2; 0]%nat)])) <= 1e-14.
Proof.
  destruct (C51_c3_decimals 9) as (s & E & _ & _ & H); [cbn; tauto|]. exists s. split; [exact E|]. eapply Rle_trans; [apply H|].
  - constructor; [|constructor]. split; [reflexivity|]. unfold tdeg. cbn. lia.
  - cbn. rewrite Rabs_R1. lra.
Qed.
