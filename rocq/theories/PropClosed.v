(** C78: the closed-form schemes that stand between the readers of data files.  C79: the schemes that declare less than their source.
    The specification is in FixSpec.v, DecSpec.v and RepairSpec.v; the integrals are those of IntegralSpec.v and SphereSpec.v. *)
From Coq Require Import Reals List Arith Lia Lra QArith String.
From Verif Require Import Spec IntegralSpec SphereSpec PyBase FixSpec NearTools DecSpec C2Model E23Model DecModel DecTools TnModel PropTn
  ClosedModel ClosedProofs RepairSpec RepairModel RepairProofs.
Import ListNotations.
Open Scope R_scope.

(** *** C78 *)
Theorem C78_c2 :
  List.Forall (fun dr => delivers (cube_mean 2) 2 (fst dr) (snd dr))
    [(2%nat, c2_schmid_2); (4%nat, c2_schmid_4); (1%nat, c2_cohen_gismalla_2)].
Proof. repeat constructor; [exact c2_schmid_2_ok|exact c2_schmid_4_ok|exact c2_cohen_gismalla_2_ok]. Qed.
Print Assumptions C78_c2.
Theorem C78_t2 :
  List.Forall (fun dr => delivers (simplex_mean 2) 3 (fst dr) (snd dr))
    [(1%nat, t2_dunavant_01); (2%nat, t2_dunavant_02); (3%nat, t2_dunavant_03);
     (2%nat, t2_laursen_gellert_02a); (2%nat, t2_laursen_gellert_02b);
     (2%nat, t2_strang_fix_cowper_01); (3%nat, t2_strang_fix_cowper_03); (2%nat, t2_taylor_wingate_bos_1);
     (1%nat, t2_williams_shunn_jameson_1); (2%nat, t2_williams_shunn_jameson_2)].
Proof.
  repeat constructor; [exact t2_dunavant_01_ok|exact t2_dunavant_02_ok|exact t2_dunavant_03_ok|exact t2_dunavant_02_ok|
    exact t2_laursen_gellert_02b_ok|exact t2_dunavant_02_ok|exact t2_dunavant_03_ok|exact t2_dunavant_02_ok|exact t2_dunavant_01_ok|exact t2_dunavant_02_ok].
Qed.
Print Assumptions C78_t2.
Theorem C78_t3 :
  List.Forall (fun dr => delivers (simplex_mean 3) 4 (fst dr) (snd dr))
    [(2%nat, t3_keast_1); (3%nat, t3_keast_2); (4%nat, t3_keast_4); (5%nat, t3_keast_6); (1%nat, t3_shunn_ham_1); (2%nat, t3_shunn_ham_2);
     (1%nat, t3_witherden_vincent_01); (2%nat, t3_witherden_vincent_02); (2%nat, t3_yu_2); (3%nat, t3_yu_3)].
Proof.
  repeat constructor; [exact t3_keast_1_ok|exact t3_keast_2_ok|exact t3_keast_4_ok|exact t3_keast_6_ok|exact t3_s4_ok|exact t3_keast_1_ok|
    exact t3_s4_ok|exact t3_keast_1_ok|exact t3_yu_2_ok|exact t3_keast_2_ok].
Qed.
Print Assumptions C78_t3.

(** *** C79 *)
(** As it stands each of these is wrong on some monomial of the degree one above the declared one (cohen_gismalla_1: of degree 4),
    although its source gives 7, 7, 9, 5 and 7 and degree 2 for Walkington's rule. *)
Theorem C79_short :
  falls_short (cube_mean 2) 2 2 c2_stroud_7_4 /\ falls_short (enr2_mean 2) 2 2 e2r2_stroud_7_2 /\
  falls_short (cube_mean 2) 2 2 (option_map fst c2_franke_8) /\
  falls_short (cube_mean 2) 2 4 c2_cohen_gismalla_1 /\ falls_short (cube_mean 2) 2 2 c2_cohen_gismalla_2.
Proof.
  repeat split; [exact c2_stroud_7_4_short|exact e2r2_stroud_7_2_short|exact c2_franke_8_short|exact c2_cohen_gismalla_1_short|exact c2_cohen_gismalla_2_short].
Qed.
Print Assumptions C79_short.
Theorem C79_walkington_2_short d : (1 <= d)%nat -> falls_short (simplex_mean d) (d + 1) 2 (walkington_2 d).
Proof. exact (walkington_2_short d). Qed.
Print Assumptions C79_walkington_2_short.
(** One token changed gives the degree of the source. *)
Theorem C79_c2_stroud_7_4_repaired : delivers (cube_mean 2) 2 7 repaired_c2_stroud_7_4.
Proof. exact repaired_c2_stroud_7_4_ok. Qed.
Print Assumptions C79_c2_stroud_7_4_repaired.
Theorem C79_e2r2_stroud_7_2_repaired : delivers (enr2_mean 2) 2 7 repaired_e2r2_stroud_7_2.
Proof. exact repaired_e2r2_stroud_7_2_ok. Qed.
Print Assumptions C79_e2r2_stroud_7_2_repaired.
Theorem C79_c2_franke_8_repaired : reaches 1 (cube_mean 2) 2 9 repaired_c2_franke_8.
Proof. near_prove (cube_moments 2). Qed.
Print Assumptions C79_c2_franke_8_repaired.
(** The rules of Cohen and Gismalla are for integrands that are even in x or in y: on those the first has degree 5 as it stands and
    the second degree 7 once its two formulas are corrected. *)
Theorem C79_cohen_gismalla :
  symmetric_degree (cube_mean 2) 5 c2_cohen_gismalla_1 /\ symmetric_degree (cube_mean 2) 7 repaired_c2_cohen_gismalla_2.
Proof. split; [exact c2_cohen_gismalla_1_sym|exact repaired_c2_cohen_gismalla_2_sym]. Qed.
Print Assumptions C79_cohen_gismalla.
(** Walkington's rule has degree 2 for exactly two values of its parameter in each dimension; the code uses another one. *)
Theorem C79_walkington_2_iff d a : (1 <= d)%nat ->
  (builds_simplex_scheme d 2 (walkington_2_at a d) <-> (INR d + 2) * (1 - (INR d + 1) * a) ^ 2 = 1).
Proof. exact (walkington_2_at_iff d a). Qed.
Print Assumptions C79_walkington_2_iff.
Theorem C79_walkington_2_repaired d : (1 <= d)%nat -> builds_simplex_scheme d 2 (repaired_walkington_2 d).
Proof. exact (repaired_walkington_2_ok d). Qed.
Print Assumptions C79_walkington_2_repaired.
(** A monomial of degree 7 that is even in one variable, and one that is not. *)
Example C79_even : even_somewhere [4; 3]%nat.
Proof. exists 4%nat, 3%nat. split; auto. left. exists 2%nat. reflexivity. Qed.
Example C79_not_even : ~ even_somewhere [1; 3]%nat.
Proof. intros (i & j & E & [[m H]|[m H]]); injection E as <- <-; lia. Qed.
Example C79_walkington_parameter : (INR 2 + 2) * (1 - (INR 2 + 1) * (1/6)) ^ 2 = 1.
Proof. cbn. lra. Qed.
