(** What a user expects of get_good_scheme(degree). *)
From Coq Require Import Reals List Arith ZArith String.
From Verif Require Import Spec PyBase GoodModel.
Import ListNotations.
Local Notation length := List.length.
Open Scope R_scope.

(** It returns a scheme whose declared degree is at least the requested one. *)
Definition declares_enough (degree : Z) (a : answer) : Prop :=
  exists s, a = Scheme s /\ (degree <= Z.of_nat (s_degree s))%Z.
(** It returns a scheme which gives the value [M] for every monomial in [nc] variables up to the requested total degree. *)
Definition good_for (M : (point -> R) -> R) (nc : nat) (degree : Z) (a : answer) : Prop :=
  exists s, a = Scheme s /\ (degree <= Z.of_nat (s_degree s))%Z /\
    forall k, length k = nc -> (Z.of_nat (tdeg k) <= degree)%Z -> apply (s_rule s) (mono k) = M (mono k).
(** The property as a user would state it: a scheme of sufficient degree or None, and never an exception. *)
Definition good_or_none (a : Z -> answer) : Prop :=
  forall degree, a degree = NoScheme \/ declares_enough degree (a degree).

(** The data files (not part of the source tree: only pointers to them are) can be read by [read] and declare at least the
    degrees listed. *)
Definition files_declare (read : content -> option scheme) (files : string -> content) (l : list (string * nat)) : Prop :=
  forall name d, In (name, d) l -> (d <= c_degree (files name))%nat /\ exists s, read (files name) = Some s.
(** The weight factor of a data file; 1 if it states none. *)
Definition factor (c : content) : R := match c_factor c with Some w => w | None => 1 end.
Open Scope string_scope.
Definition c2_file_degrees : list (string * nat) :=
  [("rabinowitz_richter_1", 9); ("witherden_vincent_11", 11); ("witherden_vincent_13", 13);
   ("rabinowitz_richter_6", 15); ("witherden_vincent_17", 17); ("witherden_vincent_19", 19);
   ("witherden_vincent_21", 21)]%nat.
Definition t2_file_degrees : list (string * nat) :=
  [("williams_shunn_jameson_3", 4); ("strang_fix_cowper_09", 6); ("laursen_gellert_11", 7);
   ("witherden_vincent_10", 10); ("xiao_gimbutas_11", 11); ("xiao_gimbutas_12", 12); ("xiao_gimbutas_13", 13);
   ("xiao_gimbutas_14", 14); ("witherden_vincent_15", 15); ("xiao_gimbutas_16", 16); ("xiao_gimbutas_17", 17);
   ("witherden_vincent_18", 18); ("dunavant_19", 19); ("xiao_gimbutas_20", 20); ("xiao_gimbutas_21", 21);
   ("xiao_gimbutas_22", 22); ("xiao_gimbutas_23", 23); ("xiao_gimbutas_24", 24); ("xiao_gimbutas_25", 25);
   ("xiao_gimbutas_26", 26); ("xiao_gimbutas_27", 27); ("xiao_gimbutas_28", 28); ("xiao_gimbutas_29", 29);
   ("xiao_gimbutas_30", 30); ("xiao_gimbutas_31", 31); ("xiao_gimbutas_32", 32); ("xiao_gimbutas_33", 33);
   ("xiao_gimbutas_34", 34); ("xiao_gimbutas_35", 35); ("xiao_gimbutas_36", 36); ("xiao_gimbutas_37", 37);
   ("xiao_gimbutas_38", 38); ("xiao_gimbutas_39", 39); ("xiao_gimbutas_40", 40); ("xiao_gimbutas_41", 41);
   ("xiao_gimbutas_42", 42); ("xiao_gimbutas_43", 43); ("xiao_gimbutas_44", 44); ("xiao_gimbutas_45", 45);
   ("xiao_gimbutas_46", 46); ("xiao_gimbutas_47", 47); ("xiao_gimbutas_48", 48); ("xiao_gimbutas_49", 49);
   ("xiao_gimbutas_50", 50)]%nat.
Definition t3_file_degrees : list (string * nat) :=
  [("witherden_vincent_03", 3); ("keast_7", 6); ("witherden_vincent_07", 7); ("witherden_vincent_08", 8);
   ("witherden_vincent_09", 9); ("witherden_vincent_10", 10); ("vioreanu_rokhlin_8", 11); ("vioreanu_rokhlin_9", 13);
   ("zhang_cui_liu_2", 14)]%nat.
Definition s2_file_degrees : list (string * nat) :=
  [("kim_song_6", 7); ("luo_meng_2", 9); ("cools_haegemans_13_1", 13); ("kim_song_11", 15); ("cools_kim_1", 17);
   ("kim_song_15", 19)]%nat.
Definition u3_file_degrees : list (string * nat) :=
  [("lebedev_003a", 3); ("lebedev_015", 15); ("lebedev_017", 17); ("lebedev_019", 19); ("lebedev_021", 21);
   ("lebedev_023", 23); ("heo_xu_25b", 25); ("lebedev_029", 29); ("lebedev_031", 31); ("lebedev_035", 35);
   ("lebedev_041", 41); ("lebedev_047", 47)]%nat.
Definition e2r_file_degrees : list (string * nat) :=
  [("haegemans_piessens_b", 9); ("rabinowitz_richter_2", 11); ("rabinowitz_richter_5", 15)]%nat.
Definition e2r2_file_degrees : list (string * nat) :=
  [("haegemans_piessens_a", 9); ("rabinowitz_richter_2", 11); ("rabinowitz_richter_5", 15)]%nat.
