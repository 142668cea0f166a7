(** Generated by tools/gen_registry.py from /repo: for each domain the calls of register(), in the order of the imports.
    [own x]: the function x defined in the file of the call.  [from id file name]: the identifier id in the list is bound, by an
    import or an assignment, to the function defined as name in file. *)
From Coq Require Import List String.
From Verif Require Import RegModel.
Import ListNotations.
Open Scope string_scope.

Definition c2_calls : list call :=
  [
   (** c2/_albrecht_collatz.py:59-61 *)
   ("c2/_albrecht_collatz.py",
     [own "albrecht_collatz_1"; own "albrecht_collatz_2"; own "albrecht_collatz_3"; own "albrecht_collatz_4"]);
   (** c2/_burnside.py:25-25 *)
   ("c2/_burnside.py",
     [own "burnside"]);
   (** c2/_cohen_gismalla.py:57-57 *)
   ("c2/_cohen_gismalla.py",
     [own "cohen_gismalla_1"; own "cohen_gismalla_2"]);
   (** c2/_cools_haegemans_1985/__init__.py:42-51 *)
   ("c2/_cools_haegemans_1985/__init__.py",
     [own "cools_haegemans_1985_9_1"; own "cools_haegemans_1985_13_1"; own "cools_haegemans_1985_13_2"; 
      own "cools_haegemans_1985_13_3"; own "cools_haegemans_1985_17_1"; own "cools_haegemans_1985_17_2"]);
   (** c2/_cools_haegemans_1988/__init__.py:27-27 *)
   ("c2/_cools_haegemans_1988/__init__.py",
     [own "cools_haegemans_1988_1"; own "cools_haegemans_1988_2"]);
   (** c2/_tyler.py:48-48 *)
   ("c2/_tyler.py",
     [own "tyler_1"; own "tyler_2"; own "tyler_3"]);
   (** c2/_dunavant/__init__.py:72-86 *)
   ("c2/_dunavant/__init__.py",
     [own "dunavant_00"; own "dunavant_01"; own "dunavant_02"; from "dunavant_03" "c2/_tyler.py" "tyler_2"; own "dunavant_04"; 
      own "dunavant_05"; own "dunavant_06"; own "dunavant_07"; own "dunavant_08"; own "dunavant_09"; own "dunavant_10"]);
   (** c2/_rabinowitz_richter/__init__.py:45-54 *)
   ("c2/_rabinowitz_richter/__init__.py",
     [own "rabinowitz_richter_1"; own "rabinowitz_richter_2"; own "rabinowitz_richter_3"; own "rabinowitz_richter_4"; 
      own "rabinowitz_richter_5"; own "rabinowitz_richter_6"]);
   (** c2/_franke.py:199-212 *)
   ("c2/_franke.py",
     [own "franke_1"; own "franke_2a"; own "franke_2b"; own "franke_3a"; own "franke_3b"; own "franke_3c"; own "franke_5"; 
      own "franke_6"; own "franke_7"; own "franke_8"]);
   (** c2/_haegemans_piessens/__init__.py:25-25 *)
   ("c2/_haegemans_piessens/__init__.py",
     [own "haegemans_piessens"]);
   (** c2/_hammer_stroud.py:43-43 *)
   ("c2/_hammer_stroud.py",
     [own "hammer_stroud_1_2"; own "hammer_stroud_2_2"; own "hammer_stroud_3_2"]);
   (** c2/_irwin.py:28-28 *)
   ("c2/_irwin.py",
     [own "irwin_1"; own "irwin_2"]);
   (** c2/_maxwell.py:31-31 *)
   ("c2/_maxwell.py",
     [own "maxwell"]);
   (** c2/_meister.py:31-31 *)
   ("c2/_meister.py",
     [own "meister"]);
   (** c2/_miller.py:29-29 *)
   ("c2/_miller.py",
     [own "miller"]);
   (** c2/_morrow_patterson/__init__.py:28-28 *)
   ("c2/_morrow_patterson/__init__.py",
     [own "morrow_patterson_1"; own "morrow_patterson_2"]);
   (** c2/_phillips.py:35-35 *)
   ("c2/_phillips.py",
     [own "phillips"]);
   (** c2/_piessens_haegemans/__init__.py:29-29 *)
   ("c2/_piessens_haegemans/__init__.py",
     [own "piessens_haegemans_1"; own "piessens_haegemans_2"]);
   (** c2/_schmid/__init__.py:64-64 *)
   ("c2/_schmid/__init__.py",
     [own "schmid_2"; own "schmid_4"; own "schmid_6"]);
   (** c2/_sommariva/__init__.py:235-293 *)
   ("c2/_sommariva/__init__.py",
     [own "sommariva_01"; own "sommariva_02"; own "sommariva_03"; own "sommariva_04"; own "sommariva_05"; own "sommariva_06"; 
      own "sommariva_07"; own "sommariva_08"; own "sommariva_09"; own "sommariva_10"; own "sommariva_11"; own "sommariva_12"; 
      own "sommariva_13"; own "sommariva_14"; own "sommariva_15"; own "sommariva_16"; own "sommariva_17"; own "sommariva_18"; 
      own "sommariva_19"; own "sommariva_20"; own "sommariva_21"; own "sommariva_22"; own "sommariva_23"; own "sommariva_24"; 
      own "sommariva_25"; own "sommariva_26"; own "sommariva_27"; own "sommariva_28"; own "sommariva_29"; own "sommariva_30"; 
      own "sommariva_31"; own "sommariva_32"; own "sommariva_33"; own "sommariva_34"; own "sommariva_35"; own "sommariva_36"; 
      own "sommariva_37"; own "sommariva_38"; own "sommariva_39"; own "sommariva_40"; own "sommariva_41"; own "sommariva_42"; 
      own "sommariva_43"; own "sommariva_44"; own "sommariva_45"; own "sommariva_46"; own "sommariva_47"; own "sommariva_48"; 
      own "sommariva_49"; own "sommariva_50"; own "sommariva_51"; own "sommariva_52"; own "sommariva_53"; own "sommariva_54"; 
      own "sommariva_55"]);
   (** c2/_stroud.py:84-113 *)
   ("c2/_stroud.py",
     [own "stroud_c2_1_1"; from "stroud_c2_1_2" "c2/_miller.py" "miller"; own "stroud_c2_3_1"; own "stroud_c2_3_2"; 
      own "stroud_c2_3_3"; from "stroud_c2_3_4" "c2/_albrecht_collatz.py" "albrecht_collatz_1"; 
      from "stroud_c2_3_5" "c2/_irwin.py" "irwin_1"; from "stroud_c2_5_1" "c2/_albrecht_collatz.py" "albrecht_collatz_2"; 
      from "stroud_c2_5_2" "c2/_albrecht_collatz.py" "albrecht_collatz_3"; from "stroud_c2_5_3" "c2/_burnside.py" "burnside"; 
      own "stroud_c2_5_4"; from "stroud_c2_5_5" "c2/_tyler.py" "tyler_1"; 
      from "stroud_c2_5_6" "c2/_albrecht_collatz.py" "albrecht_collatz_4"; from "stroud_c2_5_7" "c2/_irwin.py" "irwin_2"; 
      from "stroud_c2_7_1" "c2/_tyler.py" "tyler_2"; from "stroud_c2_7_2" "c2/_phillips.py" "phillips"; 
      from "stroud_c2_7_3" "c2/_maxwell.py" "maxwell"; own "stroud_c2_7_4"; from "stroud_c2_7_5" "c2/_tyler.py" "tyler_3"; 
      from "stroud_c2_7_6" "c2/_meister.py" "meister"; 
      from "stroud_c2_9_1" "c2/_rabinowitz_richter/__init__.py" "rabinowitz_richter_1"; 
      from "stroud_c2_11_1" "c2/_rabinowitz_richter/__init__.py" "rabinowitz_richter_2"; 
      from "stroud_c2_11_2" "c2/_rabinowitz_richter/__init__.py" "rabinowitz_richter_3"; 
      from "stroud_c2_13_1" "c2/_rabinowitz_richter/__init__.py" "rabinowitz_richter_4"; 
      from "stroud_c2_15_1" "c2/_rabinowitz_richter/__init__.py" "rabinowitz_richter_5"; 
      from "stroud_c2_15_2" "c2/_rabinowitz_richter/__init__.py" "rabinowitz_richter_6"]);
   (** c2/_waldron.py:39-39 *)
   ("c2/_waldron.py",
     [own "waldron"]);
   (** c2/_wissmann_becker/__init__.py:43-52 *)
   ("c2/_wissmann_becker/__init__.py",
     [own "wissmann_becker_4_1"; own "wissmann_becker_4_2"; own "wissmann_becker_6_1"; own "wissmann_becker_6_2"; 
      own "wissmann_becker_8_1"; own "wissmann_becker_8_2"]);
   (** c2/_witherden_vincent/__init__.py:65-79 *)
   ("c2/_witherden_vincent/__init__.py",
     [own "witherden_vincent_01"; own "witherden_vincent_03"; own "witherden_vincent_05"; own "witherden_vincent_07"; 
      own "witherden_vincent_09"; own "witherden_vincent_11"; own "witherden_vincent_13"; own "witherden_vincent_15"; 
      own "witherden_vincent_17"; own "witherden_vincent_19"; own "witherden_vincent_21"])].
Definition c3_calls : list call :=
  [
   (** c3/_classical.py:21-21 *)
   ("c3/_classical.py",
     [own "midpoint"; own "face_midpoint"; own "vertex"]);
   (** c3/_hammer_stroud.py:88-97 *)
   ("c3/_hammer_stroud.py",
     [own "hammer_stroud_1_3"; own "hammer_stroud_2_3"; own "hammer_stroud_4_3"; own "hammer_stroud_6_3"; 
      own "hammer_stroud_5_3a"; own "hammer_stroud_5_3b"]);
   (** c3/_hammer_wymore.py:67-67 *)
   ("c3/_hammer_wymore.py",
     [own "hammer_wymore"]);
   (** c3/_mustard_lyness_blatt.py:77-87 *)
   ("c3/_mustard_lyness_blatt.py",
     [own "mustard_lyness_blatt_1"; own "mustard_lyness_blatt_2"; own "mustard_lyness_blatt_3"; own "mustard_lyness_blatt_4"; 
      own "mustard_lyness_blatt_5"; own "mustard_lyness_blatt_6"; own "mustard_lyness_blatt_7"]);
   (** c3/_sadowsky.py:29-29 *)
   ("c3/_sadowsky.py",
     [own "sadowsky"]);
   (** c3/_albrecht_collatz.py:27-27 *)
   ("c3/_albrecht_collatz.py",
     [own "albrecht_collatz"]);
   (** c3/_sarma_stroud.py:27-27 *)
   ("c3/_sarma_stroud.py",
     [own "sarma_stroud"]);
   (** c3/_stroud_1967.py:46-46 *)
   ("c3/_stroud_1967.py",
     [own "stroud_1967"]);
   (** c3/_tyler.py:31-31 *)
   ("c3/_tyler.py",
     [own "tyler_1"; own "tyler_2"]);
   (** c3/_stroud.py:43-65 *)
   ("c3/_stroud.py",
     [from "stroud_c3_3_1" "c3/_tyler.py" "tyler_1"; own "stroud_c3_3_2"; own "stroud_c3_3_3"; 
      from "stroud_c3_3_4" "c3/_mustard_lyness_blatt.py" "mustard_lyness_blatt_1"; 
      from "stroud_c3_3_5" "c3/_mustard_lyness_blatt.py" "mustard_lyness_blatt_2"; 
      from "stroud_c3_3_6" "c3/_albrecht_collatz.py" "albrecht_collatz"; 
      from "stroud_c3_3_7" "c3/_mustard_lyness_blatt.py" "mustard_lyness_blatt_3"; 
      from "stroud_c3_5_1" "c3/_stroud_1967.py" "stroud_1967"; from "stroud_c3_5_2" "c3/_hammer_stroud.py" "hammer_stroud_2_3"; 
      from "stroud_c3_5_3" "c3/_tyler.py" "tyler_2"; from "stroud_c3_5_4" "c3/_mustard_lyness_blatt.py" "mustard_lyness_blatt_4"; 
      from "stroud_c3_5_5" "c3/_mustard_lyness_blatt.py" "mustard_lyness_blatt_5"; 
      from "stroud_c3_5_6" "c3/_mustard_lyness_blatt.py" "mustard_lyness_blatt_6"; 
      from "stroud_c3_5_7" "c3/_mustard_lyness_blatt.py" "mustard_lyness_blatt_7"; 
      from "stroud_c3_5_8" "c3/_sadowsky.py" "sadowsky"; from "stroud_c3_7_1a" "c3/_hammer_stroud.py" "hammer_stroud_5_3a"; 
      from "stroud_c3_7_1b" "c3/_hammer_stroud.py" "hammer_stroud_5_3b"; 
      from "stroud_c3_7_2" "c3/_hammer_wymore.py" "hammer_wymore"; from "stroud_c3_7_3" "c3/_sarma_stroud.py" "sarma_stroud"]);
   (** c3/_witherden_vincent/__init__.py:117-126 *)
   ("c3/_witherden_vincent/__init__.py",
     [from "witherden_vincent_01" "c3/_classical.py" "midpoint"; from "witherden_vincent_03" "c3/_classical.py" "face_midpoint"; 
      from "witherden_vincent_05" "c3/_hammer_stroud.py" "hammer_stroud_4_3"; own "witherden_vincent_07"; 
      own "witherden_vincent_09"; own "witherden_vincent_11"])].
Definition e2r_calls : list call :=
  [
   (** e2r/_cools_haegemans/__init__.py:30-30 *)
   ("e2r/_cools_haegemans/__init__.py",
     [own "cools_haegemans_9_1"; own "cools_haegemans_9_2"; own "cools_haegemans_13_1"]);
   (** e2r/_haegemans_piessens/__init__.py:29-29 *)
   ("e2r/_haegemans_piessens/__init__.py",
     [own "haegemans_piessens_a"; own "haegemans_piessens_b"]);
   (** e2r/_rabinowitz_richter/__init__.py:47-55 *)
   ("e2r/_rabinowitz_richter/__init__.py",
     [own "rabinowitz_richter_1"; own "rabinowitz_richter_2"; own "rabinowitz_richter_3"; own "rabinowitz_richter_5"]);
   (** e2r/_stroud_secrest.py:46-46 *)
   ("e2r/_stroud_secrest.py",
     [own "stroud_secrest_5"; own "stroud_secrest_6"]);
   (** e2r/_stroud.py:31-41 *)
   ("e2r/_stroud.py",
     [own "stroud_4_1"; from "stroud_5_1" "e2r/_stroud_secrest.py" "stroud_secrest_5"; 
      from "stroud_7_1" "e2r/_stroud_secrest.py" "stroud_secrest_6"; 
      from "stroud_9_1" "e2r/_rabinowitz_richter/__init__.py" "rabinowitz_richter_1"; 
      from "stroud_11_1" "e2r/_rabinowitz_richter/__init__.py" "rabinowitz_richter_2"; 
      from "stroud_11_2" "e2r/_rabinowitz_richter/__init__.py" "rabinowitz_richter_3"; 
      from "stroud_15_1" "e2r/_rabinowitz_richter/__init__.py" "rabinowitz_richter_5"])].
Definition e2r2_calls : list call :=
  [
   (** e2r2/_cools_haegemans/__init__.py:30-30 *)
   ("e2r2/_cools_haegemans/__init__.py",
     [own "cools_haegemans_9_1"; own "cools_haegemans_9_2"; own "cools_haegemans_13_1"]);
   (** e2r2/_haegemans_piessens/__init__.py:29-29 *)
   ("e2r2/_haegemans_piessens/__init__.py",
     [own "haegemans_piessens_a"; own "haegemans_piessens_b"]);
   (** e2r2/_rabinowitz_richter/__init__.py:41-49 *)
   ("e2r2/_rabinowitz_richter/__init__.py",
     [own "rabinowitz_richter_1"; own "rabinowitz_richter_2"; own "rabinowitz_richter_3"; own "rabinowitz_richter_4"; 
      own "rabinowitz_richter_5"]);
   (** e2r2/_stroud_secrest.py:40-40 *)
   ("e2r2/_stroud_secrest.py",
     [own "stroud_secrest_5"; own "stroud_secrest_6"]);
   (** e2r2/_stroud.py:57-70 *)
   ("e2r2/_stroud.py",
     [own "stroud_4_1"; from "stroud_5_1" "e2r2/_stroud_secrest.py" "stroud_secrest_5"; own "stroud_5_2"; 
      from "stroud_7_1" "e2r2/_stroud_secrest.py" "stroud_secrest_6"; own "stroud_7_2"; 
      from "stroud_9_1" "e2r2/_rabinowitz_richter/__init__.py" "rabinowitz_richter_1"; 
      from "stroud_11_1" "e2r2/_rabinowitz_richter/__init__.py" "rabinowitz_richter_2"; 
      from "stroud_11_2" "e2r2/_rabinowitz_richter/__init__.py" "rabinowitz_richter_3"; 
      from "stroud_13_1" "e2r2/_rabinowitz_richter/__init__.py" "rabinowitz_richter_4"; 
      from "stroud_15_1" "e2r2/_rabinowitz_richter/__init__.py" "rabinowitz_richter_5"])].
Definition e3r_calls : list call :=
  [
   (** e3r/_stroud_secrest.py:105-113 *)
   ("e3r/_stroud_secrest.py",
     [own "stroud_secrest_07"; own "stroud_secrest_08"; own "stroud_secrest_09"; own "stroud_secrest_10"; 
      own "stroud_secrest_11"])].
Definition e3r2_calls : list call :=
  [
   (** e3r2/_stroud_secrest.py:130-141 *)
   ("e3r2/_stroud_secrest.py",
     [own "stroud_secrest_07"; own "stroud_secrest_09"; own "stroud_secrest_08a"; own "stroud_secrest_08b"; 
      own "stroud_secrest_10a"; own "stroud_secrest_10b"; own "stroud_secrest_11a"; own "stroud_secrest_11b"]);
   (** e3r2/_stroud.py:77-89 *)
   ("e3r2/_stroud.py",
     [from "stroud_e3r2_5_1" "e3r2/_stroud_secrest.py" "stroud_secrest_07"; 
      from "stroud_e3r2_5_2a" "e3r2/_stroud_secrest.py" "stroud_secrest_08a"; 
      from "stroud_e3r2_5_2b" "e3r2/_stroud_secrest.py" "stroud_secrest_08b"; 
      from "stroud_e3r2_5_3" "e3r2/_stroud_secrest.py" "stroud_secrest_09"; 
      from "stroud_e3r2_7_1a" "e3r2/_stroud_secrest.py" "stroud_secrest_10a"; 
      from "stroud_e3r2_7_1b" "e3r2/_stroud_secrest.py" "stroud_secrest_10b"; 
      from "stroud_e3r2_7_2a" "e3r2/_stroud_secrest.py" "stroud_secrest_11a"; 
      from "stroud_e3r2_7_2b" "e3r2/_stroud_secrest.py" "stroud_secrest_11b"; own "stroud_e3r2_14_1"])].
Definition s2_calls : list call :=
  [
   (** s2/_albrecht.py:163-174 *)
   ("s2/_albrecht.py",
     [own "albrecht_1"; own "albrecht_2"; own "albrecht_3"; own "albrecht_4"; own "albrecht_5"; own "albrecht_6"; 
      own "albrecht_7"; own "albrecht_8"]);
   (** s2/_albrecht_collatz.py:27-27 *)
   ("s2/_albrecht_collatz.py",
     [own "albrecht_collatz"]);
   (** s2/_classical.py:9-9 *)
   ("s2/_classical.py",
     [own "midpoint"]);
   (** s2/_cools_haegemans/__init__.py:34-41 *)
   ("s2/_cools_haegemans/__init__.py",
     [own "cools_haegemans_5_1"; own "cools_haegemans_9_1"; own "cools_haegemans_9_2"; own "cools_haegemans_13_1"]);
   (** s2/_cools_kim/__init__.py:33-33 *)
   ("s2/_cools_kim/__init__.py",
     [own "cools_kim_1"; own "cools_kim_2"; own "cools_kim_3"]);
   (** s2/_haegemans_piessens/__init__.py:25-25 *)
   ("s2/_haegemans_piessens/__init__.py",
     [own "haegemans_piessens"]);
   (** s2/_peirce_1956.py:85-85 *)
   ("s2/_peirce_1956.py",
     [own "peirce_1956_1"; own "peirce_1956_2"; own "peirce_1956_3"]);
   (** s2/_radon.py:40-40 *)
   ("s2/_radon.py",
     [own "radon"]);
   (** s2/_hammer_stroud.py:120-131 *)
   ("s2/_hammer_stroud.py",
     [from "hammer_stroud_11_2" "s2/_albrecht_collatz.py" "albrecht_collatz"; own "hammer_stroud_12_2"; own "hammer_stroud_13_2"; 
      own "hammer_stroud_17"; own "hammer_stroud_18"; own "hammer_stroud_19"; own "hammer_stroud_20"; own "hammer_stroud_21"]);
   (** s2/_kim_song/__init__.py:81-99 *)
   ("s2/_kim_song/__init__.py",
     [own "kim_song_1"; own "kim_song_2"; own "kim_song_3"; own "kim_song_4"; own "kim_song_5"; own "kim_song_6"; 
      own "kim_song_7"; own "kim_song_8"; own "kim_song_9"; own "kim_song_10"; own "kim_song_11"; own "kim_song_12"; 
      own "kim_song_13"; own "kim_song_14"; own "kim_song_15"]);
   (** s2/_lether.py:35-35 *)
   ("s2/_lether.py",
     [own "lether"]);
   (** s2/_luo_meng/__init__.py:48-48 *)
   ("s2/_luo_meng/__init__.py",
     [own "luo_meng_1"; own "luo_meng_2"; own "luo_meng_3"; own "luo_meng_4"; own "luo_meng_5"; own "luo_meng_6"]);
   (** s2/_mysovskih.py:89-89 *)
   ("s2/_mysovskih.py",
     [own "mysovskih_1"; own "mysovskih_2"; own "mysovskih_3"]);
   (** s2/_peirce_1957.py:36-36 *)
   ("s2/_peirce_1957.py",
     [own "peirce_1957"]);
   (** s2/_piessens_haegemans/__init__.py:25-25 *)
   ("s2/_piessens_haegemans/__init__.py",
     [own "piessens_haegemans"]);
   (** s2/_rabinowitz_richter/__init__.py:48-57 *)
   ("s2/_rabinowitz_richter/__init__.py",
     [own "rabinowitz_richter_1"; own "rabinowitz_richter_2"; own "rabinowitz_richter_3"; own "rabinowitz_richter_4"; 
      own "rabinowitz_richter_5"; own "rabinowitz_richter_6"]);
   (** s2/_stroud.py:63-87 *)
   ("s2/_stroud.py",
     [from "stroud_s2_3_1" "s2/_albrecht_collatz.py" "albrecht_collatz"; 
      from "stroud_s2_3_2" "s2/_albrecht_collatz.py" "albrecht_collatz"; from "stroud_s2_4_1" "s2/_mysovskih.py" "mysovskih_1"; 
      own "stroud_s2_5_1"; from "stroud_s2_5_2" "s2/_hammer_stroud.py" "hammer_stroud_12_2"; 
      from "stroud_s2_7_1" "s2/_peirce_1956.py" "peirce_1956_1"; from "stroud_s2_7_2" "s2/_hammer_stroud.py" "hammer_stroud_18"; 
      from "stroud_s2_9_1" "s2/_albrecht.py" "albrecht_4"; 
      from "stroud_s2_9_2" "s2/_rabinowitz_richter/__init__.py" "rabinowitz_richter_1"; own "stroud_s2_9_3"; 
      from "stroud_s2_9_4" "s2/_rabinowitz_richter/__init__.py" "rabinowitz_richter_2"; 
      from "stroud_s2_9_5" "s2/_peirce_1956.py" "peirce_1956_2"; from "stroud_s2_11_1" "s2/_mysovskih.py" "mysovskih_2"; 
      from "stroud_s2_11_2" "s2/_albrecht.py" "albrecht_5"; 
      from "stroud_s2_11_3" "s2/_rabinowitz_richter/__init__.py" "rabinowitz_richter_4"; 
      from "stroud_s2_11_4" "s2/_peirce_1956.py" "peirce_1956_3"; 
      from "stroud_s2_13_1" "s2/_rabinowitz_richter/__init__.py" "rabinowitz_richter_5"; 
      from "stroud_s2_13_2" "s2/_albrecht.py" "albrecht_6"; from "stroud_s2_15_1" "s2/_mysovskih.py" "mysovskih_3"; 
      from "stroud_s2_15_2" "s2/_albrecht.py" "albrecht_7"; from "stroud_s2_17_1" "s2/_albrecht.py" "albrecht_8"]);
   (** s2/_wissmann_becker.py:81-81 *)
   ("s2/_wissmann_becker.py",
     [own "wissmann_becker_6_1"; own "wissmann_becker_6_2"; own "wissmann_becker_8_1"])].
Definition s3_calls : list call :=
  [
   (** s3/_classical.py:9-9 *)
   ("s3/_classical.py",
     [own "midpoint"]);
   (** s3/_ditkin.py:64-64 *)
   ("s3/_ditkin.py",
     [own "ditkin_1"; own "ditkin_2"; own "ditkin_3"]);
   (** s3/_hammer_stroud.py:85-93 *)
   ("s3/_hammer_stroud.py",
     [own "hammer_stroud_11_3"; own "hammer_stroud_12_3"; own "hammer_stroud_14_3"; own "hammer_stroud_15_3a"; 
      own "hammer_stroud_15_3b"]);
   (** s3/_mysovskih.py:40-40 *)
   ("s3/_mysovskih.py",
     [own "mysovskih"]);
   (** s3/_stroud.py:146-158 *)
   ("s3/_stroud.py",
     [from "stroud_3_1" "s3/_hammer_stroud.py" "hammer_stroud_11_3"; from "stroud_5_1" "s3/_ditkin.py" "ditkin_1"; 
      from "stroud_5_2" "s3/_ditkin.py" "ditkin_2"; from "stroud_7_1a" "s3/_hammer_stroud.py" "hammer_stroud_15_3a"; 
      from "stroud_7_1b" "s3/_hammer_stroud.py" "hammer_stroud_15_3b"; from "stroud_7_2" "s3/_mysovskih.py" "mysovskih"; 
      from "stroud_7_3" "s3/_ditkin.py" "ditkin_3"; own "stroud_7_4"; own "stroud_14_1"])].
Definition t2_calls : list call :=
  [
   (** t2/_albrecht_collatz.py:23-23 *)
   ("t2/_albrecht_collatz.py",
     [own "albrecht_collatz"]);
   (** t2/_berntsen_espelid/__init__.py:49-57 *)
   ("t2/_berntsen_espelid/__init__.py",
     [own "dcutri"; own "berntsen_espelid_1"; own "berntsen_espelid_2"; own "berntsen_espelid_3"; own "berntsen_espelid_4"]);
   (** t2/_classical.py:25-25 *)
   ("t2/_classical.py",
     [own "centroid"; own "vertex"; own "seven_point"]);
   (** t2/_cools_haegemans/__init__.py:65-65 *)
   ("t2/_cools_haegemans/__init__.py",
     [own "cools_haegemans_1"]);
   (** t2/_cubtri/__init__.py:26-26 *)
   ("t2/_cubtri/__init__.py",
     [own "cubtri"]);
   (** t2/_dunavant/__init__.py:107-130 *)
   ("t2/_dunavant/__init__.py",
     [own "dunavant_01"; own "dunavant_02"; own "dunavant_03"; own "dunavant_04"; own "dunavant_05"; own "dunavant_06"; 
      own "dunavant_07"; own "dunavant_08"; own "dunavant_09"; own "dunavant_10"; own "dunavant_11"; own "dunavant_12"; 
      own "dunavant_13"; own "dunavant_14"; own "dunavant_15"; own "dunavant_16"; own "dunavant_17"; own "dunavant_18"; 
      own "dunavant_19"; own "dunavant_20"]);
   (** t2/_franke.py:107-107 *)
   ("t2/_franke.py",
     [own "franke_09"; own "franke_10"]);
   (** t2/_gatermann/__init__.py:25-25 *)
   ("t2/_gatermann/__init__.py",
     [own "gatermann"]);
   (** t2/_griener_schmid/__init__.py:38-38 *)
   ("t2/_griener_schmid/__init__.py",
     [own "griener_schmid_1"; own "griener_schmid_2"]);
   (** t2/_hammer_marlowe_stroud.py:58-66 *)
   ("t2/_hammer_marlowe_stroud.py",
     [own "hammer_marlowe_stroud_1"; own "hammer_marlowe_stroud_2"; own "hammer_marlowe_stroud_3"; own "hammer_marlowe_stroud_4"; 
      own "hammer_marlowe_stroud_5"]);
   (** t2/_hillion.py:102-115 *)
   ("t2/_hillion.py",
     [own "hillion_01"; own "hillion_02"; own "hillion_03"; own "hillion_04"; own "hillion_05"; own "hillion_06"; 
      own "hillion_07"; own "hillion_08"; own "hillion_09"; own "hillion_10"]);
   (** t2/_strang_fix_cowper/__init__.py:86-99 *)
   ("t2/_strang_fix_cowper/__init__.py",
     [own "strang_fix_cowper_01"; from "strang_fix_cowper_02" "t2/_hammer_marlowe_stroud.py" "hammer_marlowe_stroud_3"; 
      own "strang_fix_cowper_03"; own "strang_fix_cowper_04"; own "strang_fix_cowper_05"; own "strang_fix_cowper_06"; 
      own "strang_fix_cowper_07"; own "strang_fix_cowper_08"; own "strang_fix_cowper_09"; own "strang_fix_cowper_10"]);
   (** t2/_laursen_gellert/__init__.py:91-111 *)
   ("t2/_laursen_gellert/__init__.py",
     [from "laursen_gellert_01" "t2/_classical.py" "centroid"; own "laursen_gellert_02a"; own "laursen_gellert_02b"; 
      from "laursen_gellert_03" "t2/_strang_fix_cowper/__init__.py" "strang_fix_cowper_03"; 
      from "laursen_gellert_04" "t2/_strang_fix_cowper/__init__.py" "strang_fix_cowper_04"; 
      from "laursen_gellert_05" "t2/_strang_fix_cowper/__init__.py" "strang_fix_cowper_05"; own "laursen_gellert_06"; 
      own "laursen_gellert_07"; own "laursen_gellert_08"; own "laursen_gellert_09"; own "laursen_gellert_10"; 
      own "laursen_gellert_11"; own "laursen_gellert_12"; own "laursen_gellert_13"; own "laursen_gellert_14"; 
      own "laursen_gellert_15a"; own "laursen_gellert_15b"]);
   (** t2/_lether.py:49-49 *)
   ("t2/_lether.py",
     [own "lether"]);
   (** t2/_liu_vinokur.py:140-156 *)
   ("t2/_liu_vinokur.py",
     [from "liu_vinokur_01" "t2/_classical.py" "centroid"; from "liu_vinokur_02" "t2/_classical.py" "vertex"; 
      own "liu_vinokur_03"; own "liu_vinokur_04"; own "liu_vinokur_05"; own "liu_vinokur_06"; 
      from "liu_vinokur_07" "t2/_classical.py" "seven_point"; own "liu_vinokur_08"; own "liu_vinokur_09"; own "liu_vinokur_10"; 
      own "liu_vinokur_11"; own "liu_vinokur_12"; own "liu_vinokur_13"]);
   (** t2/_lyness_jespersen.py:309-333 *)
   ("t2/_lyness_jespersen.py",
     [own "lyness_jespersen_01"; own "lyness_jespersen_02"; own "lyness_jespersen_03"; 
      from "lyness_jespersen_04" "t2/_classical.py" "seven_point"; own "lyness_jespersen_05"; own "lyness_jespersen_06"; 
      own "lyness_jespersen_07"; own "lyness_jespersen_08"; own "lyness_jespersen_09"; 
      from "lyness_jespersen_10" "t2/_strang_fix_cowper/__init__.py" "strang_fix_cowper_09"; own "lyness_jespersen_11"; 
      own "lyness_jespersen_12"; own "lyness_jespersen_13"; own "lyness_jespersen_14"; own "lyness_jespersen_15"; 
      own "lyness_jespersen_16"; own "lyness_jespersen_17"; own "lyness_jespersen_18"; own "lyness_jespersen_19"; 
      own "lyness_jespersen_20"; own "lyness_jespersen_21"]);
   (** t2/_papanicolopulos/__init__.py:130-153 *)
   ("t2/_papanicolopulos/__init__.py",
     [own "papanicolopulos_sym_0"; own "papanicolopulos_sym_1"; own "papanicolopulos_sym_2"; own "papanicolopulos_sym_3"; 
      own "papanicolopulos_sym_4"; own "papanicolopulos_sym_5"; own "papanicolopulos_sym_6"; own "papanicolopulos_sym_7"; 
      own "papanicolopulos_sym_8"; own "papanicolopulos_rot_08"; own "papanicolopulos_rot_09"; own "papanicolopulos_rot_10"; 
      own "papanicolopulos_rot_11"; own "papanicolopulos_rot_12"; own "papanicolopulos_rot_13"; own "papanicolopulos_rot_14"; 
      own "papanicolopulos_rot_15"; own "papanicolopulos_rot_16"; own "papanicolopulos_rot_17"]);
   (** t2/_stroud.py:61-61 *)
   ("t2/_stroud.py",
     [from "stroud_t2_3_1" "t2/_albrecht_collatz.py" "albrecht_collatz"; 
      from "stroud_t2_5_1" "t2/_hammer_marlowe_stroud.py" "hammer_marlowe_stroud_5"; own "stroud_t2_7_1"]);
   (** t2/_taylor_wingate_bos/__init__.py:44-52 *)
   ("t2/_taylor_wingate_bos/__init__.py",
     [own "taylor_wingate_bos_1"; own "taylor_wingate_bos_2"; own "taylor_wingate_bos_4"; own "taylor_wingate_bos_5"; 
      own "taylor_wingate_bos_8"]);
   (** t2/_vioreanu_rokhlin/__init__.py:103-127 *)
   ("t2/_vioreanu_rokhlin/__init__.py",
     [own "vioreanu_rokhlin_00"; own "vioreanu_rokhlin_01"; own "vioreanu_rokhlin_02"; own "vioreanu_rokhlin_03"; 
      own "vioreanu_rokhlin_04"; own "vioreanu_rokhlin_05"; own "vioreanu_rokhlin_06"; own "vioreanu_rokhlin_07"; 
      own "vioreanu_rokhlin_08"; own "vioreanu_rokhlin_09"; own "vioreanu_rokhlin_10"; own "vioreanu_rokhlin_10"; 
      own "vioreanu_rokhlin_11"; own "vioreanu_rokhlin_12"; own "vioreanu_rokhlin_13"; own "vioreanu_rokhlin_14"; 
      own "vioreanu_rokhlin_15"; own "vioreanu_rokhlin_16"; own "vioreanu_rokhlin_17"; own "vioreanu_rokhlin_18"; 
      own "vioreanu_rokhlin_19"]);
   (** t2/_walkington.py:23-23 *)
   ("t2/_walkington.py",
     [own "walkington_p5"]);
   (** t2/_wandzura_xiao/__init__.py:48-57 *)
   ("t2/_wandzura_xiao/__init__.py",
     [own "wandzura_xiao_1"; own "wandzura_xiao_2"; own "wandzura_xiao_3"; own "wandzura_xiao_4"; own "wandzura_xiao_5"; 
      own "wandzura_xiao_6"]);
   (** t2/_williams_shunn_jameson/__init__.py:55-66 *)
   ("t2/_williams_shunn_jameson/__init__.py",
     [own "williams_shunn_jameson_1"; own "williams_shunn_jameson_2"; own "williams_shunn_jameson_3"; 
      own "williams_shunn_jameson_4"; own "williams_shunn_jameson_5"; own "williams_shunn_jameson_6"; 
      own "williams_shunn_jameson_7"; own "williams_shunn_jameson_8"]);
   (** t2/_witherden_vincent/__init__.py:97-119 *)
   ("t2/_witherden_vincent/__init__.py",
     [own "witherden_vincent_01"; own "witherden_vincent_02"; own "witherden_vincent_04"; own "witherden_vincent_05"; 
      own "witherden_vincent_06"; own "witherden_vincent_07"; own "witherden_vincent_08"; own "witherden_vincent_09"; 
      own "witherden_vincent_10"; own "witherden_vincent_11"; own "witherden_vincent_12"; own "witherden_vincent_13"; 
      own "witherden_vincent_14"; own "witherden_vincent_15"; own "witherden_vincent_16"; own "witherden_vincent_17"; 
      own "witherden_vincent_18"; own "witherden_vincent_19"; own "witherden_vincent_20"]);
   (** t2/_xiao_gimbutas/__init__.py:223-276 *)
   ("t2/_xiao_gimbutas/__init__.py",
     [own "xiao_gimbutas_01"; own "xiao_gimbutas_02"; own "xiao_gimbutas_03"; own "xiao_gimbutas_04"; own "xiao_gimbutas_05"; 
      own "xiao_gimbutas_06"; own "xiao_gimbutas_07"; own "xiao_gimbutas_08"; own "xiao_gimbutas_09"; own "xiao_gimbutas_10"; 
      own "xiao_gimbutas_11"; own "xiao_gimbutas_12"; own "xiao_gimbutas_13"; own "xiao_gimbutas_14"; own "xiao_gimbutas_15"; 
      own "xiao_gimbutas_16"; own "xiao_gimbutas_17"; own "xiao_gimbutas_18"; own "xiao_gimbutas_19"; own "xiao_gimbutas_20"; 
      own "xiao_gimbutas_21"; own "xiao_gimbutas_22"; own "xiao_gimbutas_23"; own "xiao_gimbutas_24"; own "xiao_gimbutas_25"; 
      own "xiao_gimbutas_26"; own "xiao_gimbutas_27"; own "xiao_gimbutas_28"; own "xiao_gimbutas_29"; own "xiao_gimbutas_30"; 
      own "xiao_gimbutas_31"; own "xiao_gimbutas_32"; own "xiao_gimbutas_33"; own "xiao_gimbutas_34"; own "xiao_gimbutas_35"; 
      own "xiao_gimbutas_36"; own "xiao_gimbutas_37"; own "xiao_gimbutas_38"; own "xiao_gimbutas_39"; own "xiao_gimbutas_40"; 
      own "xiao_gimbutas_41"; own "xiao_gimbutas_42"; own "xiao_gimbutas_43"; own "xiao_gimbutas_44"; own "xiao_gimbutas_45"; 
      own "xiao_gimbutas_46"; own "xiao_gimbutas_47"; own "xiao_gimbutas_48"; own "xiao_gimbutas_49"; own "xiao_gimbutas_50"]);
   (** t2/_zhang_cui_liu/__init__.py:33-33 *)
   ("t2/_zhang_cui_liu/__init__.py",
     [own "zhang_cui_liu_1"; own "zhang_cui_liu_2"; own "zhang_cui_liu_3"])].
Definition t3_calls : list call :=
  [
   (** t3/_beckers_haegemans/__init__.py:26-26 *)
   ("t3/_beckers_haegemans/__init__.py",
     [own "beckers_haegemans_8"; own "beckers_haegemans_9"]);
   (** t3/_gatermann/__init__.py:21-21 *)
   ("t3/_gatermann/__init__.py",
     [own "gatermann"]);
   (** t3/_hammer_marlowe_stroud.py:63-63 *)
   ("t3/_hammer_marlowe_stroud.py",
     [own "hammer_marlowe_stroud_1"; own "hammer_marlowe_stroud_2"; own "hammer_marlowe_stroud_3"]);
   (** t3/_jaskowiec_sukumar/__init__.py:121-144 *)
   ("t3/_jaskowiec_sukumar/__init__.py",
     [own "jaskowiec_sukumar_02"; own "jaskowiec_sukumar_03"; own "jaskowiec_sukumar_04"; own "jaskowiec_sukumar_05"; 
      own "jaskowiec_sukumar_06"; own "jaskowiec_sukumar_07"; own "jaskowiec_sukumar_08"; own "jaskowiec_sukumar_09"; 
      own "jaskowiec_sukumar_10"; own "jaskowiec_sukumar_11"; own "jaskowiec_sukumar_12"; own "jaskowiec_sukumar_13"; 
      own "jaskowiec_sukumar_14"; own "jaskowiec_sukumar_15"; own "jaskowiec_sukumar_16"; own "jaskowiec_sukumar_17"; 
      own "jaskowiec_sukumar_18"; own "jaskowiec_sukumar_19a"; own "jaskowiec_sukumar_19b"; own "jaskowiec_sukumar_20"]);
   (** t3/_keast/__init__.py:100-113 *)
   ("t3/_keast/__init__.py",
     [own "keast_0"; own "keast_1"; own "keast_2"; own "keast_3"; own "keast_4"; own "keast_5"; own "keast_6"; own "keast_7"; 
      own "keast_8"; own "keast_9"]);
   (** t3/_liu_vinokur.py:169-186 *)
   ("t3/_liu_vinokur.py",
     [own "liu_vinokur_01"; own "liu_vinokur_02"; own "liu_vinokur_03"; own "liu_vinokur_04"; own "liu_vinokur_05"; 
      own "liu_vinokur_06"; own "liu_vinokur_07"; own "liu_vinokur_08"; own "liu_vinokur_09"; own "liu_vinokur_10"; 
      own "liu_vinokur_11"; own "liu_vinokur_12"; own "liu_vinokur_13"; own "liu_vinokur_14"]);
   (** t3/_maeztu_sainz/__init__.py:24-24 *)
   ("t3/_maeztu_sainz/__init__.py",
     [own "maeztu_sainz"]);
   (** t3/_shunn_ham/__init__.py:46-46 *)
   ("t3/_shunn_ham/__init__.py",
     [own "shunn_ham_1"; own "shunn_ham_2"; own "shunn_ham_3"; own "shunn_ham_4"; own "shunn_ham_5"; own "shunn_ham_6"]);
   (** t3/_stroud.py:97-97 *)
   ("t3/_stroud.py",
     [own "stroud_t3_5_1"; own "stroud_t3_7_1"]);
   (** t3/_vioreanu_rokhlin/__init__.py:63-76 *)
   ("t3/_vioreanu_rokhlin/__init__.py",
     [own "vioreanu_rokhlin_0"; own "vioreanu_rokhlin_1"; own "vioreanu_rokhlin_2"; own "vioreanu_rokhlin_3"; 
      own "vioreanu_rokhlin_4"; own "vioreanu_rokhlin_5"; own "vioreanu_rokhlin_6"; own "vioreanu_rokhlin_7"; 
      own "vioreanu_rokhlin_8"; own "vioreanu_rokhlin_9"]);
   (** t3/_walkington/__init__.py:21-21 *)
   ("t3/_walkington/__init__.py",
     [own "walkington_p5"]);
   (** t3/_williams_shunn_jameson/__init__.py:23-23 *)
   ("t3/_williams_shunn_jameson/__init__.py",
     [own "williams_shunn_jameson"]);
   (** t3/_witherden_vincent/__init__.py:64-76 *)
   ("t3/_witherden_vincent/__init__.py",
     [own "witherden_vincent_01"; own "witherden_vincent_02"; own "witherden_vincent_03"; own "witherden_vincent_05"; 
      own "witherden_vincent_06"; own "witherden_vincent_07"; own "witherden_vincent_08"; own "witherden_vincent_09"; 
      own "witherden_vincent_10"]);
   (** t3/_xiao_gimbutas/__init__.py:84-102 *)
   ("t3/_xiao_gimbutas/__init__.py",
     [own "xiao_gimbutas_01"; own "xiao_gimbutas_02"; own "xiao_gimbutas_03"; own "xiao_gimbutas_04"; own "xiao_gimbutas_05"; 
      own "xiao_gimbutas_06"; own "xiao_gimbutas_07"; own "xiao_gimbutas_08"; own "xiao_gimbutas_09"; own "xiao_gimbutas_10"; 
      own "xiao_gimbutas_11"; own "xiao_gimbutas_12"; own "xiao_gimbutas_13"; own "xiao_gimbutas_14"; own "xiao_gimbutas_15"]);
   (** t3/_yu/__init__.py:46-46 *)
   ("t3/_yu/__init__.py",
     [own "yu_2"; own "yu_3"; own "yu_4"; own "yu_5"; own "yu_6"]);
   (** t3/_zhang_cui_liu/__init__.py:29-29 *)
   ("t3/_zhang_cui_liu/__init__.py",
     [own "zhang_cui_liu_1"; own "zhang_cui_liu_2"])].
Definition u2_calls : list call :=
  [
   (** u2/_krylov.py:30-30 *)
   ("u2/_krylov.py",
     [own "krylov"])].
Definition u3_calls : list call :=
  [
   (** u3/_albrecht_collatz.py:50-58 *)
   ("u3/_albrecht_collatz.py",
     [own "albrecht_collatz_1"; own "albrecht_collatz_2"; own "albrecht_collatz_3"; own "albrecht_collatz_4"; 
      own "albrecht_collatz_5"]);
   (** u3/_bazant_oh/__init__.py:32-32 *)
   ("u3/_bazant_oh/__init__.py",
     [own "bazant_oh_09"; own "bazant_oh_11"; own "bazant_oh_13"]);
   (** u3/_fliege_maier/__init__.py:31-31 *)
   ("u3/_fliege_maier/__init__.py",
     [own "fliege_maier_04"; own "fliege_maier_09"; own "fliege_maier_16"; own "fliege_maier_25"]);
   (** u3/_heo_xu/__init__.py:125-154 *)
   ("u3/_heo_xu/__init__.py",
     [own "heo_xu_13"; own "heo_xu_15"; own "heo_xu_17"; own "heo_xu_19a"; own "heo_xu_19b"; own "heo_xu_21a"; own "heo_xu_21b"; 
      own "heo_xu_21c"; own "heo_xu_21d"; own "heo_xu_21e"; own "heo_xu_21f"; own "heo_xu_23a"; own "heo_xu_23b"; 
      own "heo_xu_23c"; own "heo_xu_25a"; own "heo_xu_25b"; own "heo_xu_27a"; own "heo_xu_27b"; own "heo_xu_27c"; 
      own "heo_xu_29"; own "heo_xu_31"; own "heo_xu_33"; own "heo_xu_35"; own "heo_xu_37"; own "heo_xu_39a"; own "heo_xu_39b"]);
   (** u3/_lebedev/__init__.py:204-241 *)
   ("u3/_lebedev/__init__.py",
     [own "lebedev_003a"; own "lebedev_003b"; own "lebedev_003c"; own "lebedev_005"; own "lebedev_007"; own "lebedev_009"; 
      own "lebedev_011"; own "lebedev_013"; own "lebedev_015"; own "lebedev_017"; own "lebedev_019"; own "lebedev_021"; 
      own "lebedev_023"; own "lebedev_025"; own "lebedev_027"; own "lebedev_029"; own "lebedev_031"; own "lebedev_035"; 
      own "lebedev_041"; own "lebedev_047"; own "lebedev_053"; own "lebedev_059"; own "lebedev_065"; own "lebedev_071"; 
      own "lebedev_077"; own "lebedev_083"; own "lebedev_089"; own "lebedev_095"; own "lebedev_101"; own "lebedev_107"; 
      own "lebedev_113"; own "lebedev_119"; own "lebedev_125"; own "lebedev_131"]);
   (** u3/_mclaren.py:210-223 *)
   ("u3/_mclaren.py",
     [own "mclaren_01"; own "mclaren_02"; own "mclaren_03"; own "mclaren_04"; own "mclaren_05"; own "mclaren_06"; 
      own "mclaren_07"; own "mclaren_08"; own "mclaren_09"; own "mclaren_10"]);
   (** u3/_stroud.py:42-61 *)
   ("u3/_stroud.py",
     [from "stroud_u3_3_1" "u3/_mclaren.py" "mclaren_01"; from "stroud_u3_5_1" "u3/_albrecht_collatz.py" "albrecht_collatz_1"; 
      from "stroud_u3_5_2" "u3/_albrecht_collatz.py" "albrecht_collatz_2"; 
      from "stroud_u3_5_3" "u3/_albrecht_collatz.py" "albrecht_collatz_3"; 
      from "stroud_u3_5_4" "u3/_albrecht_collatz.py" "albrecht_collatz_4"; from "stroud_u3_5_5" "u3/_mclaren.py" "mclaren_02"; 
      from "stroud_u3_7_2" "u3/_albrecht_collatz.py" "albrecht_collatz_5"; from "stroud_u3_7_1" "u3/_mclaren.py" "mclaren_03"; 
      from "stroud_u3_8_1" "u3/_mclaren.py" "mclaren_04"; from "stroud_u3_9_1" "u3/_mclaren.py" "mclaren_05"; 
      from "stroud_u3_9_2" "u3/_mclaren.py" "mclaren_06"; from "stroud_u3_9_3" "u3/_mclaren.py" "mclaren_07"; 
      from "stroud_u3_11_1" "u3/_mclaren.py" "mclaren_08"; own "stroud_u3_11_2"; 
      from "stroud_u3_11_3" "u3/_mclaren.py" "mclaren_09"; from "stroud_u3_14_1" "u3/_mclaren.py" "mclaren_10"])].
