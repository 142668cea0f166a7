(** C71: the schemes whose data are decimal literals integrate every polynomial of the declared degree up to the tolerance they
    declare.  The specification is in DecSpec.v; the integrals are those of IntegralSpec.v, SphereSpec.v and PyraSpec.v. *)
From Coq Require Import Reals List QArith String.
From Verif Require Import Spec IntegralSpec SphereSpec PyraSpec PyBase NearTools DecSpec DecModel DecTools.
Import ListNotations.
Open Scope R_scope.

Theorem C71_t2_lyness_jespersen :
  reaches 1 (simplex_mean 2) 3 4 t2_lyness_jespersen_05 /\
  reaches 1 (simplex_mean 2) 3 6 t2_lyness_jespersen_12 /\
  reaches 2 (simplex_mean 2) 3 7 t2_lyness_jespersen_13 /\
  reaches 1 (simplex_mean 2) 3 7 t2_lyness_jespersen_14 /\
  reaches 1 (simplex_mean 2) 3 8 t2_lyness_jespersen_15 /\
  reaches 1 (simplex_mean 2) 3 8 t2_lyness_jespersen_16 /\
  reaches 1 (simplex_mean 2) 3 8 t2_lyness_jespersen_17 /\
  reaches 1 (simplex_mean 2) 3 9 t2_lyness_jespersen_18 /\
  reaches 1 (simplex_mean 2) 3 9 t2_lyness_jespersen_19 /\
  reaches 1 (simplex_mean 2) 3 11 t2_lyness_jespersen_20 /\
  reaches 1 (simplex_mean 2) 3 11 t2_lyness_jespersen_21.
Proof. repeat match goal with |- _ /\ _ => split end; near_prove (simplex_moments 2). Qed.
Print Assumptions C71_t2_lyness_jespersen.
Theorem C71_t2_strang_fix_cowper :
  reaches 1 (simplex_mean 2) 3 4 t2_strang_fix_cowper_06 /\
  reaches 1 (simplex_mean 2) 3 5 t2_strang_fix_cowper_07.
Proof. repeat match goal with |- _ /\ _ => split end; near_prove (simplex_moments 2). Qed.
Print Assumptions C71_t2_strang_fix_cowper.
Theorem C71_t2_laursen_gellert :
  reaches 1 (simplex_mean 2) 3 4 t2_laursen_gellert_06 /\
  reaches 1 (simplex_mean 2) 3 5 t2_laursen_gellert_07.
Proof. repeat match goal with |- _ /\ _ => split end; near_prove (simplex_moments 2). Qed.
Print Assumptions C71_t2_laursen_gellert.
Theorem C71_t2_franke :
  reaches 1 (simplex_mean 2) 3 7 t2_franke_09 /\
  reaches 1 (simplex_mean 2) 3 7 t2_franke_10.
Proof. repeat match goal with |- _ /\ _ => split end; near_prove (simplex_moments 2). Qed.
Print Assumptions C71_t2_franke.
Theorem C71_t3_keast :
  reaches 1 (simplex_mean 3) 4 3 t3_keast_3 /\
  reaches 1 (simplex_mean 3) 4 4 t3_keast_5.
Proof. repeat match goal with |- _ /\ _ => split end; near_prove (simplex_moments 3). Qed.
Print Assumptions C71_t3_keast.
Theorem C71_c2_hammer_stroud :
  reaches 1 (cube_mean 2) 2 7 c2_hammer_stroud_3_2.
Proof. repeat match goal with |- _ /\ _ => split end; near_prove (cube_moments 2). Qed.
Print Assumptions C71_c2_hammer_stroud.
Theorem C71_c2_franke :
  reaches 1 (cube_mean 2) 2 7 c2_franke_2a /\
  reaches 1 (cube_mean 2) 2 7 c2_franke_2b /\
  reaches 1 (cube_mean 2) 2 9 c2_franke_3a /\
  reaches 1 (cube_mean 2) 2 9 c2_franke_3b /\
  reaches 1 (cube_mean 2) 2 9 c2_franke_3c /\
  reaches 1 (cube_mean 2) 2 1 c2_franke_8.
Proof. repeat match goal with |- _ /\ _ => split end; near_prove (cube_moments 2). Qed.
Print Assumptions C71_c2_franke.
Theorem C71_c3_hammer_stroud :
  reaches 1 (cube_mean 3) 3 7 c3_hammer_stroud_6_3.
Proof. repeat match goal with |- _ /\ _ => split end; near_prove (cube_moments 3). Qed.
Print Assumptions C71_c3_hammer_stroud.
Theorem C71_c3_witherden_vincent :
  reaches 1 (cube_mean 3) 3 7 c3_witherden_vincent_07 /\
  reaches 1 (cube_mean 3) 3 9 c3_witherden_vincent_09 /\
  reaches 1 (cube_mean 3) 3 11 c3_witherden_vincent_11.
Proof. repeat match goal with |- _ /\ _ => split end; near_prove (cube_moments 3). Qed.
Print Assumptions C71_c3_witherden_vincent.
Theorem C71_s2_hammer_stroud :
  reaches 1 (ball_mean 2) 2 9 s2_hammer_stroud_19 /\
  reaches 1 (ball_mean 2) 2 15 s2_hammer_stroud_21.
Proof. repeat match goal with |- _ /\ _ => split end; near_prove (ball_moments 2). Qed.
Print Assumptions C71_s2_hammer_stroud.
Theorem C71_s2_wissmann_becker :
  reaches 1 (ball_mean 2) 2 6 s2_wissmann_becker_6_1 /\
  reaches 1 (ball_mean 2) 2 6 s2_wissmann_becker_6_2 /\
  reaches 1 (ball_mean 2) 2 8 s2_wissmann_becker_8_1.
Proof. repeat match goal with |- _ /\ _ => split end; near_prove (ball_moments 2). Qed.
Print Assumptions C71_s2_wissmann_becker.
Theorem C71_w3_felippa :
  reaches 1 wedge_int 3 4 w3_felippa_4 /\
  reaches 1 wedge_int 3 5 w3_felippa_5 /\
  reaches 1 wedge_int 3 6 w3_felippa_6.
Proof. repeat match goal with |- _ /\ _ => split end; near_prove wedge_moments. Qed.
Print Assumptions C71_w3_felippa.
Theorem C71_w3_kubatko_yeager_maggi :
  reaches 1 wedge_int 3 2 w3_kubatko_yeager_maggi_2a /\
  reaches 1 wedge_int 3 3 w3_kubatko_yeager_maggi_3a /\
  reaches 1 wedge_int 3 3 w3_kubatko_yeager_maggi_3d /\
  reaches 1 wedge_int 3 4 w3_kubatko_yeager_maggi_4a /\
  reaches 1 wedge_int 3 4 w3_kubatko_yeager_maggi_4b /\
  reaches 2 wedge_int 3 5 w3_kubatko_yeager_maggi_5a /\
  reaches 1 wedge_int 3 5 w3_kubatko_yeager_maggi_5b /\
  reaches 1 wedge_int 3 5 w3_kubatko_yeager_maggi_5c /\
  reaches 2 wedge_int 3 6 w3_kubatko_yeager_maggi_6a /\
  reaches 1 wedge_int 3 6 w3_kubatko_yeager_maggi_6b /\
  reaches 1 wedge_int 3 6 w3_kubatko_yeager_maggi_6c /\
  reaches 1 wedge_int 3 7 w3_kubatko_yeager_maggi_7a /\
  reaches 1 wedge_int 3 7 w3_kubatko_yeager_maggi_7b /\
  reaches 1 wedge_int 3 7 w3_kubatko_yeager_maggi_7c /\
  reaches 2 wedge_int 3 8 w3_kubatko_yeager_maggi_8a /\
  reaches 1 wedge_int 3 8 w3_kubatko_yeager_maggi_8b /\
  reaches 1 wedge_int 3 9 w3_kubatko_yeager_maggi_9.
Proof. repeat match goal with |- _ /\ _ => split end; near_prove wedge_moments. Qed.
Print Assumptions C71_w3_kubatko_yeager_maggi.
(** Four schemes of Kubatko, Yeager and Maggi have closed forms and are exact. *)
Theorem C71_w3_kubatko_yeager_maggi_exact :
  reaches 0 wedge_int 3 1 w3_kubatko_yeager_maggi_1 /\
  reaches 0 wedge_int 3 2 w3_kubatko_yeager_maggi_2b /\
  reaches 0 wedge_int 3 3 w3_kubatko_yeager_maggi_3b /\
  reaches 0 wedge_int 3 3 w3_kubatko_yeager_maggi_3c.
Proof. repeat match goal with |- _ /\ _ => split end; exact_prove wedge_moments. Qed.
Print Assumptions C71_w3_kubatko_yeager_maggi_exact.
(** With the declared tolerance itself as the bound, four schemes fail on a monomial. *)
Theorem C71_tolerance_refuted :
  misses 1 (simplex_mean 2) 3 7 t2_lyness_jespersen_13 /\
  misses 1 wedge_int 3 5 w3_kubatko_yeager_maggi_5a /\
  misses 1 wedge_int 3 6 w3_kubatko_yeager_maggi_6a /\
  misses 1 wedge_int 3 8 w3_kubatko_yeager_maggi_8a.
Proof.
  split; [|split; [|split]].
  - far_prove (simplex_moments 2) ([0; 0; 0]%nat).
  - far_prove wedge_moments ([0; 0; 4]%nat).
  - far_prove wedge_moments ([0; 0; 6]%nat).
  - far_prove wedge_moments ([0; 6; 2]%nat).
Qed.
Print Assumptions C71_tolerance_refuted.
