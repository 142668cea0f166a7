(** C89: the text that print(scheme) shows.  [lines], [entry], [number] and [is_ratio] are explained in StrSpec.v. *)
From Coq Require Import Reals List Arith Lia Lra String Ascii DecimalString DecimalNat.
From Verif Require Import Spec PyBase CubeModel AdaptModel AdaptProofs GeomModel PropCube StrSpec StrModel.
Import ListNotations.
Set Bullet Behavior "Strict Subproofs".
Local Notation length := List.length.
Open Scope R_scope.
Open Scope string_scope.

Lemma sapp_assoc (a b c : string) : (a ++ b) ++ c = a ++ b ++ c.
Proof. induction a as [|x a IH]; cbn; [reflexivity|]. f_equal. exact IH. Qed.
Lemma sapp_nil (a : string) : a ++ "" = a.
Proof. induction a as [|x a IH]; cbn; [reflexivity|]. f_equal. exact IH. Qed.
Lemma lines_ne s : lines s <> [].
Proof. destruct s as [|c s]; cbn; [discriminate|]. destruct (Ascii.eqb c newline); [discriminate|]. destruct (lines s); discriminate. Qed.
Lemma lines_nl a b : lines (a ++ nl ++ b) = (lines a ++ lines b)%list.
Proof.
  induction a as [|c a IH].
  - reflexivity.
  - change (lines (String c (a ++ nl ++ b)) = (lines (String c a) ++ lines b)%list). cbn [lines]. rewrite IH. destruct (Ascii.eqb c newline); [reflexivity|].
    pose proof (lines_ne a) as N. destruct (lines a) as [|l ls]; [congruence|]. reflexivity.
Qed.
Lemma lines_one s : one_line s -> lines s = [s].
Proof.
  unfold one_line. induction s as [|c s IH]; intros H; [reflexivity|]. cbn [lines list_ascii_of_string] in *. destruct (Ascii.eqb c newline) eqn:E.
  - apply Ascii.eqb_eq in E. subst. exfalso. apply H. now left.
  - rewrite IH; [reflexivity|]. intros G. apply H. now right.
Qed.
Lemma one_line_app a b : one_line a -> one_line b -> one_line (a ++ b).
Proof. unfold one_line. induction a as [|c a IH]; intros Ha Hb; [exact Hb|]. cbn. intros [G|G]; [apply Ha; left; exact G|]. apply IH; auto. intros G'. apply Ha. right. exact G'. Qed.
Ltac concrete := unfold one_line; cbn; intuition discriminate.
Lemma one_line_join sep l : one_line sep -> List.Forall one_line l -> one_line (join sep l).
Proof.
  intros S. induction l as [|a l IH]; intros F; [concrete|]. inversion F as [|? ? A B]; subst. destruct l as [|b l]; [exact A|].
  change (one_line (a ++ sep ++ join sep (b :: l))). repeat apply one_line_app; auto.
Qed.
(** appending B to a text adds the lines L *)
Definition Block (B : string) (L : list string) : Prop := forall m, lines (m ++ B) = (lines m ++ L)%list.
Lemma block_nil : Block "" [].
Proof. intros m. rewrite sapp_nil, app_nil_r. reflexivity. Qed.
Lemma block_line s : one_line s -> Block (nl ++ s) [s].
Proof. intros H m. rewrite lines_nl, (lines_one s H). reflexivity. Qed.
Lemma block_lines s : Block (nl ++ s) (lines s).
Proof. intros m. apply lines_nl. Qed.
Lemma block_app a b la lb : Block a la -> Block b lb -> Block (a ++ b) (la ++ lb)%list.
Proof. intros A B m. rewrite <- sapp_assoc, B, A, app_assoc. reflexivity. Qed.

(* ------------------------------------------------------------------ numbers *)
Lemma number_uint u : forall acc, number_from acc (NilEmpty.string_of_uint u) = Some (Nat.of_uint_acc u acc).
Proof.
  induction u; intros acc; [reflexivity|..];
  match goal with |- number_from acc (NilEmpty.string_of_uint ?d) = _ =>
    let e := eval cbn [NilEmpty.string_of_uint] in (NilEmpty.string_of_uint d) in
    match e with String ?c ?s => transitivity (number_from (10 * acc + (nat_of_ascii c - 48)) s); [reflexivity|] end end;
  rewrite IHu; cbn [Nat.of_uint_acc]; rewrite Nat.tail_mul_spec; do 2 f_equal; cbn -[Nat.mul]; lia.
Qed.
Lemma number_decimal n : number (decimal n) = Some n.
Proof.
  unfold decimal. assert (N : Nat.to_uint n <> Decimal.Nil) by (intros Z; pose proof (Unsigned.of_to n) as E0; rewrite Z in E0; cbn in E0; subst n; discriminate Z). pose proof (Unsigned.of_to n) as E. unfold Nat.of_uint in E. unfold NilZero.string_of_uint.
  destruct (Nat.to_uint n) eqn:D; [congruence|..]; (transitivity (number_from 0 (NilEmpty.string_of_uint (Nat.to_uint n))); [rewrite D; reflexivity|rewrite number_uint, D, E; reflexivity]).
Qed.
Lemma one_line_uint u : one_line (NilEmpty.string_of_uint u).
Proof. unfold one_line. induction u; cbn; [tauto|..]; (intros [H|H]; [discriminate|auto]). Qed.
Lemma one_line_decimal n : one_line (decimal n).
Proof. unfold decimal, NilZero.string_of_uint. destruct (Nat.to_uint n) eqn:D; [concrete|..]; rewrite <- D; apply one_line_uint. Qed.

(* ------------------------------------------------------------------ the ratio *)
Lemma np_max_spec l m : np_max l = Some m -> In m l /\ forall a, In a l -> a <= m.
Proof.
  destruct l as [|a l]; [discriminate|]. intros [= <-]. revert a. induction l as [|b l IH]; intros a; cbn [fold_left].
  - split; [now left|]. intros c [<-|[]]. lra.
  - destruct (IH (Rmax a b)) as [I M]. split.
    + destruct I as [I|I]; [|right; right; exact I]. unfold Rmax in I at 1. destruct (Rle_dec a b); [right; left; exact I|left; exact I].
    + intros c [<-|[<-|Hc]]; [eapply Rle_trans; [apply (Rmax_l a b)|apply M; now left]|eapply Rle_trans; [apply (Rmax_r a b)|apply M; now left]|apply M; now right].
Qed.
Lemma np_min_spec l m : np_min l = Some m -> In m l /\ forall a, In a l -> m <= a.
Proof.
  destruct l as [|a l]; [discriminate|]. intros [= <-]. revert a. induction l as [|b l IH]; intros a; cbn [fold_left].
  - split; [now left|]. intros c [<-|[]]. lra.
  - destruct (IH (Rmin a b)) as [I M]. split.
    + destruct I as [I|I]; [|right; right; exact I]. unfold Rmin in I at 1. destruct (Rle_dec a b); [left; exact I|right; left; exact I].
    + intros c [<-|[<-|Hc]]; [eapply Rle_trans; [apply M; now left|apply (Rmin_l a b)]|eapply Rle_trans; [apply M; now left|apply (Rmin_r a b)]|apply M; now right].
Qed.
Lemma quotient_ratio w M m : np_max (map Rabs w) = Some M -> np_min (map Rabs w) = Some m -> is_ratio w (quotient M m).
Proof.
  intros HM Hm. apply np_max_spec in HM. apply np_min_spec in Hm. destruct HM as [IM GM], Hm as [Im Gm].
  apply in_map_iff in IM. destruct IM as (a & <- & Ia). apply in_map_iff in Im. destruct Im as (b & <- & Ib).
  assert (GM' : forall c, In c w -> Rabs c <= Rabs a) by (intros; apply GM, in_map; auto). assert (Gm' : forall c, In c w -> Rabs b <= Rabs c) by (intros; apply Gm, in_map; auto). clear GM Gm.
  unfold quotient. destruct (Req_EM_T (Rabs b) 0) as [B|B]; [destruct (Req_EM_T (Rabs a) 0) as [A|A]|].
  - intros c Hc. pose proof (GM' c Hc). pose proof (Rabs_pos c). destruct (Req_dec c 0) as [|N]; auto. apply Rabs_no_R0 in N. lra.
  - split; [|exists a; split; auto; intros ->; rewrite Rabs_R0 in A; lra]. destruct (Req_dec b 0) as [->|N]; auto. apply Rabs_no_R0 in N. lra.
  - pose proof (Rabs_pos b). assert (P : 0 < Rabs b) by lra. split; [|split].
    + intros Z. apply Gm' in Z. rewrite Rabs_R0 in Z. lra.
    + intros c d Hc Hd. apply Rle_trans with (Rabs a); [auto|]. unfold Rdiv. rewrite Rmult_assoc. rewrite <- (Rmult_1_r (Rabs a)) at 1. apply Rmult_le_compat_l; [apply Rabs_pos|].
      specialize (Gm' d Hd). apply Rmult_le_reg_l with (Rabs b); [exact P|]. rewrite <- Rmult_assoc, Rinv_r by lra. lra.
    + exists a, b. repeat split; auto. field. lra.
Qed.
(* ------------------------------------------------------------------ the text *)
Definition all_one (o : option string) : Prop := match o with Some s => one_line s | None => True end.
(** No text that comes from outside contains a line break. *)
Definition source_printable (s : source) : Prop :=
  all_one (s_title s) /\ all_one (s_journal s) /\ all_one (s_volume s) /\ all_one (s_number s) /\ all_one (s_pages s) /\ all_one (s_year s) /\ all_one (s_url s) /\
  match s_authors s with NoAuthors => True | Names l => List.Forall one_line l | OneString t => one_line t end.
Definition printable (fr : ratio -> string) (ff : R -> string) (x : object) : Prop :=
  (forall r, one_line (fr r)) /\ (forall t, one_line (ff t)) /\ one_line (o_domain x) /\ one_line (o_name x) /\ match o_source x with Some s => source_printable s | None => True end.

Lemma characters_one s : one_line s -> List.Forall one_line (characters s).
Proof. unfold one_line. induction s as [|c s IH]; intros H; [constructor|]. constructor; [|apply IH; intros G; apply H; now right]. cbn. intros [G|[]]. apply H. now left. Qed.
Definition indent : string := "                        ".
Lemma optional_one has p v : one_line p -> all_one v -> List.Forall one_line (optional has p v).
Proof. intros P V. unfold optional. destruct has; [|constructor]. destruct v as [s|]; [|constructor]. destruct (String.eqb s ""); [constructor|]. constructor; [|constructor]. apply one_line_app; auto. Qed.
Definition authors_lines (a : authors) : list string :=
  let put l := match l with [] => [] | _ => [indent ++ join ", " l] end in match a with NoAuthors => [] | Names l => put l | OneString s => put (characters s) end.
Definition details (s : source) : list string :=
  let k := s_kind s in
  (optional (has_journal k) "" (s_journal s) ++ optional (has_volume k) "vol. " (s_volume s) ++ optional (has_number k) "no. " (s_number s)
        ++ optional (has_pages k) "pp. " (s_pages s) ++ optional true "" (s_year s))%list.
Definition url_lines (s : source) : list string := match s_url s with Some u => if String.eqb u "" then [] else [indent ++ u] | None => [] end.
Definition source_lines (o : option source) : list string :=
  match o with None => [] | Some s =>
    (("  source:               " ++ shown (s_title s))%string :: authors_lines (s_authors s) ++ (match details s with [] => [] | _ => [(indent ++ join ", " (details s))%string] end) ++ url_lines s)%list end.
Lemma put_block l : List.Forall one_line l -> Block (match l with [] => "" | _ => nl ++ indent ++ join ", " l end) (match l with [] => [] | _ => [indent ++ join ", " l] end).
Proof.
  intros F. destruct l as [|a l]; [apply block_nil|]. apply block_line. apply one_line_app; [concrete|]. apply one_line_join; [concrete|exact F].
Qed.
Lemma source_block o : match o with Some s => source_printable s | None => True end -> Block (source_text o) (source_lines o).
Proof.
  destruct o as [s|]; [|intros _; apply block_nil]. intros (T & J & V & N & P & Y & U & A). unfold source_text, source_lines. cbv zeta.
  change (Block ((nl ++ ("  source:               " ++ shown (s_title s)) ++ (authors_line (s_authors s) ++ (match details s with [] => "" | _ => nl ++ indent ++ join ", " (details s) end) ++
    (match s_url s with Some u => if String.eqb u "" then "" else nl ++ indent ++ u | None => "" end))))
    ([("  source:               " ++ shown (s_title s))%string] ++ authors_lines (s_authors s) ++ (match details s with [] => [] | _ => [(indent ++ join ", " (details s))%string] end) ++ url_lines s)%list).
  rewrite <- sapp_assoc. apply block_app; [|apply block_app; [|apply block_app]].
  - apply block_line. apply one_line_app; [concrete|]. destruct (s_title s); [exact T|concrete].
  - destruct (s_authors s) as [|l|t]; [apply block_nil|apply put_block; exact A|apply put_block, characters_one; exact A].
  - apply put_block. unfold details. repeat (apply Forall_app; split); apply optional_one; auto; concrete.
  - unfold url_lines. destruct (s_url s) as [u|]; [|apply block_nil]. destruct (String.eqb u ""); [apply block_nil|]. apply block_line. apply one_line_app; [concrete|exact U].
Qed.
Definition position_lines (f : family) (q : rule) : list string := match position f q with Some p => ["  point position:       " ++ p] | None => [] end.
Lemma position_block f q : Block (match position f q with Some p => nl ++ "  point position:       " ++ p | None => "" end) (position_lines f q).
Proof.
  unfold position_lines. destruct (position f q) as [p|] eqn:E; [|apply block_nil]. apply block_line. apply one_line_app; [concrete|].
  unfold position in E. destruct f; [| | |discriminate]; injection E as <-; match goal with |- one_line (if ?a then _ else if ?b then _ else _) => destruct a; [|destruct b] end; concrete.
Qed.
Definition comment_lines (l : list string) : list string := match l with [] => [] | _ => ("  comments:" :: flat_map (fun c => lines ("    " ++ c)%string) l)%list end.
Lemma comments_text l m : lines (fold_left (fun m c => m ++ nl ++ "    " ++ c) l (m ++ match l with [] => "" | _ => nl ++ "  comments:" end)) = (lines m ++ comment_lines l)%list.
Proof.
  assert (G : forall l m, lines (fold_left (fun m c => m ++ nl ++ "    " ++ c) l m) = (lines m ++ flat_map (fun c => lines ("    " ++ c)%string) l)%list).
  { clear. induction l as [|c l IH]; intros m; [cbn; rewrite app_nil_r; reflexivity|]. cbn [fold_left flat_map]. rewrite IH, lines_nl, <- app_assoc. reflexivity. }
  rewrite G. destruct l as [|c l]; [cbn [flat_map comment_lines]; rewrite sapp_nil; reflexivity|]. rewrite lines_nl. rewrite (lines_one "  comments:") by concrete. rewrite <- app_assoc. reflexivity.
Qed.
Definition top_lines (fr : ratio -> string) (ff : R -> string) (x : object) (r : ratio) : list string :=
  ((("<quadrature scheme for " ++ o_domain x ++ ">")%string :: ("  name:                 " ++ o_name x)%string :: source_lines (o_source x)) ++
   [("  degree:               " ++ decimal (o_degree x))%string; ("  num points/weights:   " ++ decimal (length (map fst (o_rule x))))%string; ("  max/min weight ratio: " ++ fr r)%string;
    ("  test tolerance:       " ++ ff (o_tol x))%string] ++ position_lines (o_family x) (o_rule x) ++
   [("  all weights positive: " ++ (if forallb (fun w => Rltb 0 w) (map fst (o_rule x)) then "True" else "False"))%string] ++ comment_lines (o_comments x))%list.
Lemma str_lines fr ff x : o_rule x <> [] -> printable fr ff x -> exists text r, str fr ff x = Some text /\ is_ratio (map fst (o_rule x)) r /\ lines text = top_lines fr ff x r.
Proof.
  intros Q (Fr & Ff & D & N & S). destruct (np_max (map Rabs (map fst (o_rule x)))) as [M|] eqn:EM; [|destruct (o_rule x); [congruence|discriminate]].
  destruct (np_min (map Rabs (map fst (o_rule x)))) as [m|] eqn:Em; [|destruct (o_rule x); [congruence|discriminate]].
  unfold str. rewrite EM, Em. cbn [bind]. eexists. exists (quotient M m). split; [reflexivity|]. split; [apply quotient_ratio; auto|].
  rewrite comments_text. unfold top_lines.
  repeat match goal with |- context [(?a ++ nl ++ ?b)] => idtac end.
  assert (B1 : forall t, one_line t -> forall m0, lines (m0 ++ nl ++ t) = (lines m0 ++ [t])%list) by (intros t Ht m0; apply block_line; exact Ht).
  rewrite B1 by (apply one_line_app; [concrete|destruct (forallb _ _); concrete]).
  rewrite position_block. rewrite !B1 by (apply one_line_app; [concrete|auto using one_line_decimal]).
  rewrite source_block by exact S. rewrite B1 by (apply one_line_app; [concrete|exact N]). rewrite lines_one by (apply one_line_app; [concrete|apply one_line_app; [exact D|concrete]]).
  rewrite <- !app_assoc. reflexivity.
Qed.
Lemma entry_app l a b : entry l (a ++ b)%list = match entry l a with Some v => Some v | None => entry l b end.
Proof. induction a as [|x a IH]; [reflexivity|]. cbn [app entry]. destruct (after l x); [reflexivity|exact IH]. Qed.
Lemma entry_none l a : List.Forall (fun x => after l x = None) a -> entry l a = None.
Proof. induction 1 as [|x a H _ IH]; [reflexivity|]. cbn [entry]. rewrite H. exact IH. Qed.
Lemma source_prefix o : List.Forall (fun l => (exists v, l = "  source:               " ++ v) \/ exists v, l = indent ++ v) (source_lines o).
Proof.
  destruct o as [s|]; [|constructor]. unfold source_lines. constructor; [left; eauto|]. repeat (apply Forall_app; split).
  - unfold authors_lines. destruct (s_authors s) as [|l|t]; [constructor| |]; (match goal with |- List.Forall _ (match ?l with _ => _ end) => destruct l end; [constructor|constructor; [right; eauto|constructor]]).
  - destruct (details s); [constructor|constructor; [right; eauto|constructor]].
  - unfold url_lines. destruct (s_url s) as [u|]; [|constructor]. destruct (String.eqb u ""); [constructor|constructor; [right; eauto|constructor]].
Qed.
Lemma source_skip label o : (forall v, after label ("  source:               " ++ v) = None) -> (forall v, after label (indent ++ v) = None) -> entry label (source_lines o) = None.
Proof. intros A B. apply entry_none. eapply Forall_impl; [|apply source_prefix]. intros l [[v ->]|[v ->]]; auto. Qed.
Ltac skip_source := rewrite source_skip by (intros; reflexivity).
Lemma entry_position label q f : (forall v, after label ("  point position:       " ++ v) = None) -> entry label (position_lines f q) = None.
Proof. intros A. unfold position_lines. destruct (position f q); [|reflexivity]. cbn [entry]. rewrite A. reflexivity. Qed.
Ltac look := unfold top_lines; rewrite ?entry_app; cbn [entry after append Ascii.eqb Bool.eqb]; rewrite ?source_skip by (intros; reflexivity); cbn [entry after append Ascii.eqb Bool.eqb];
  rewrite ?entry_position by (intros; reflexivity); cbn [entry after append Ascii.eqb Bool.eqb]; try reflexivity.

(** The text names the domain, the scheme, its degree and the number of its points and weights, the largest ratio of two weights, the tolerance, and
    whether all the weights are positive. *)
Theorem C89_summary : forall fr ff x, o_rule x <> [] -> printable fr ff x -> exists text ratio,
  str fr ff x = Some text /\ is_ratio (map fst (o_rule x)) ratio /\
  hd "" (lines text) = "<quadrature scheme for " ++ o_domain x ++ ">" /\
  entry "  name:                 " (lines text) = Some (o_name x) /\
  (exists d, entry "  degree:               " (lines text) = Some d /\ number d = Some (o_degree x)) /\
  (exists d, entry "  num points/weights:   " (lines text) = Some d /\ number d = Some (length (o_rule x))) /\
  entry "  max/min weight ratio: " (lines text) = Some (fr ratio) /\
  entry "  test tolerance:       " (lines text) = Some (ff (o_tol x)) /\
  (List.Forall (fun wp => 0 < fst wp) (o_rule x) -> entry "  all weights positive: " (lines text) = Some "True") /\
  (Exists (fun wp => fst wp <= 0) (o_rule x) -> entry "  all weights positive: " (lines text) = Some "False").
Proof.
  intros fr ff x Q P. destruct (str_lines fr ff x Q P) as (text & r & E & Hr & L). exists text, r. split; [exact E|]. split; [exact Hr|]. rewrite L.
  split; [reflexivity|]. split; [look|]. split; [exists (decimal (o_degree x)); split; [look|apply number_decimal]|].
  split; [exists (decimal (length (map fst (o_rule x)))); split; [look|rewrite number_decimal, map_length; reflexivity]|].
  split; [look|]. split; [look|].
  assert (G : entry "  all weights positive: " (top_lines fr ff x r) = Some (if forallb (fun w => Rltb 0 w) (map fst (o_rule x)) then "True" else "False")) by look.
  rewrite G. split; intros F.
  - replace (forallb (fun w => Rltb 0 w) (map fst (o_rule x))) with true; [reflexivity|]. symmetry. apply forallb_forall. intros w Hw. apply in_map_iff in Hw. destruct Hw as (wp & <- & Hw).
    apply Rltb_true. rewrite Forall_forall in F. apply F. exact Hw.
  - replace (forallb (fun w => Rltb 0 w) (map fst (o_rule x))) with false; [reflexivity|]. symmetry. apply Bool.not_true_iff_false. intros T. rewrite forallb_forall in T.
    apply Exists_exists in F. destruct F as (wp & Hw & Hn). specialize (T (fst wp) (in_map fst _ _ Hw)). apply Rltb_true in T. lra.
Qed.
Print Assumptions C89_summary.
(** A scheme without points cannot be printed. *)
Theorem C89_empty_refuted : forall fr ff x, o_rule x = [] -> str fr ff x = None.
Proof. intros fr ff x E. unfold str. rewrite E. reflexivity. Qed.
Print Assumptions C89_empty_refuted.

(** The line on the positions of the points, for cubes and simplices.  Interior and boundary are those of [-1, 1]^n and of barycentric coordinates. *)
Lemma entry_pos fr ff x r p : position (o_family x) (o_rule x) = Some p -> entry "  point position:       " (top_lines fr ff x r) = Some p.
Proof. intros E. look. unfold position_lines. rewrite E. reflexivity. Qed.
Theorem C89_position : forall fr ff x text, printable fr ff x -> str fr ff x = Some text ->
  (o_family x = Cube ->
    (List.Forall (fun wp => List.Forall (fun c => -1 < c < 1) (snd wp)) (o_rule x) -> entry "  point position:       " (lines text) = Some "strictly inside") /\
    (List.Forall (fun wp => List.Forall (fun c => -1 <= c <= 1) (snd wp)) (o_rule x) -> Exists (fun wp => Exists (fun c => c = -1 \/ c = 1) (snd wp)) (o_rule x) ->
       entry "  point position:       " (lines text) = Some "inside + boundary") /\
    (Exists (fun wp => Exists (fun c => c < -1 \/ 1 < c) (snd wp)) (o_rule x) -> entry "  point position:       " (lines text) = Some "outside")) /\
  (forall n, o_family x = Simplex -> (1 <= n)%nat -> List.Forall (fun wp => length (snd wp) = (n + 1)%nat /\ Rsum (snd wp) = 1) (o_rule x) ->
    (List.Forall (fun wp => List.Forall (fun c => 0 < c) (snd wp)) (o_rule x) -> entry "  point position:       " (lines text) = Some "strictly inside") /\
    (List.Forall (fun wp => List.Forall (fun c => 0 <= c) (snd wp)) (o_rule x) -> Exists (fun wp => Exists (fun c => c = 0) (snd wp)) (o_rule x) ->
       entry "  point position:       " (lines text) = Some "inside + boundary") /\
    (Exists (fun wp => Exists (fun c => c < 0) (snd wp)) (o_rule x) -> entry "  point position:       " (lines text) = Some "outside")) /\
  (o_family x = OtherDomain -> o_comments x = [] -> entry "  point position:       " (lines text) = None).
Proof.
  intros fr ff x text P E. assert (Q : o_rule x <> []) by (intros Q; rewrite (C89_empty_refuted fr ff x Q) in E; discriminate).
  destruct (str_lines fr ff x Q P) as (text' & r & E' & _ & L). rewrite E in E'. injection E' as <-. rewrite L. clear L E P Q.
  assert (NF : forall (A B : R -> Prop), (forall c, A c -> B c -> False) -> List.Forall (fun wp : R * point => List.Forall A (snd wp)) (o_rule x) -> Exists (fun wp => Exists B (snd wp)) (o_rule x) -> False).
  { intros A B H F X. apply Exists_exists in X. destruct X as (wp & Hw & X). apply Exists_exists in X. destruct X as (c & Hc & X). rewrite Forall_forall in F. specialize (F wp Hw). cbn beta in F. rewrite Forall_forall in F. exact (H c (F c Hc) X). }
  split; [|split].
  - intros K. destruct (C44_cube (o_rule x)) as [H1 H2]. repeat split.
    + intros F. apply entry_pos. rewrite K. cbn [position]. rewrite (proj2 H1 F). reflexivity.
    + intros F X. apply entry_pos. rewrite K. cbn [position]. rewrite (proj2 H2 F). destruct (cn_points_inside (o_rule x)); [|reflexivity]. exfalso. refine (NF _ _ _ (proj1 H1 eq_refl) X). intros c; cbn; lra.
    + intros X. apply entry_pos. rewrite K. cbn [position]. destruct (cn_points_inside (o_rule x)); [exfalso; refine (NF _ _ _ (proj1 H1 eq_refl) X); intros c; cbn; lra|].
      destruct (cn_points_inside_or_boundary (o_rule x)); [exfalso; refine (NF _ _ _ (proj1 H2 eq_refl) X); intros c; cbn; lra|reflexivity].
  - intros n K Hn HB. destruct (C44_simplex n (o_rule x) Hn HB) as [H1 H2]. repeat split.
    + intros F. apply entry_pos. rewrite K. cbn [position]. rewrite (proj2 H1 F). reflexivity.
    + intros F X. apply entry_pos. rewrite K. cbn [position]. rewrite (proj2 H2 F). destruct (tn_points_inside (o_rule x)); [|reflexivity]. exfalso. refine (NF _ _ _ (proj1 H1 eq_refl) X). intros c; cbn; lra.
    + intros X. apply entry_pos. rewrite K. cbn [position]. destruct (tn_points_inside (o_rule x)); [exfalso; refine (NF _ _ _ (proj1 H1 eq_refl) X); intros c; cbn; lra|].
      destruct (tn_points_inside_or_boundary (o_rule x)); [exfalso; refine (NF _ _ _ (proj1 H2 eq_refl) X); intros c; cbn; lra|reflexivity].
  - intros K C. unfold top_lines, position_lines. rewrite K, C. cbn [position comment_lines]. rewrite ?entry_app. cbn [entry after append Ascii.eqb Bool.eqb]. rewrite source_skip by (intros; reflexivity). reflexivity.
Qed.
Print Assumptions C89_position.
(** For SnScheme the line is wrong: points in the ball are reported outside, points outside strictly inside. *)
Theorem C89_ball_position_refuted : forall fr ff, (forall r, one_line (fr r)) -> (forall t, one_line (ff t)) ->
  (exists x text, o_family x = Ball 2 /\ List.Forall (fun wp => vdot (snd wp) (snd wp) < 1) (o_rule x) /\ str fr ff x = Some text /\ entry "  point position:       " (lines text) = Some "outside") /\
  (exists x text, o_family x = Ball 2 /\ List.Forall (fun wp => 1 < vdot (snd wp) (snd wp)) (o_rule x) /\ str fr ff x = Some text /\ entry "  point position:       " (lines text) = Some "strictly inside").
Proof.
  intros fr ff Hr Hf. split.
  - set (x := mk_obj "Sn (n=2)" "two points" None 1 [(1/2, [9/10; 0]); (1/2, [-9/10; 0])] 0 (Ball 2) []).
    destruct (str_lines fr ff x) as (text & r & E & _ & L); [discriminate|repeat split; auto; concrete|]. exists x, text. repeat split; [repeat constructor; cbn; lra|exact E|]. rewrite L. apply entry_pos.
    cbn [x o_family position o_rule]. unfold sn_points_inside, sn_points_inside_or_boundary. cbn [seq map forallb nth snd fst Rsum].
    replace (Rltb _ 1) with false; [|symmetry; apply Bool.not_true_iff_false; rewrite Rltb_true; lra]. replace (Rleb _ 1) with false; [reflexivity|symmetry; apply Bool.not_true_iff_false; rewrite Rleb_true; lra].
  - set (x := mk_obj "Sn (n=2)" "one point" None 1 [(1, [9/10; 9/10])] 0 (Ball 2) []).
    destruct (str_lines fr ff x) as (text & r & E & _ & L); [discriminate|repeat split; auto; concrete|]. exists x, text. repeat split; [repeat constructor; cbn; lra|exact E|]. rewrite L. apply entry_pos.
    cbn [x o_family position o_rule]. unfold sn_points_inside. cbn [seq map forallb nth snd fst Rsum].
    replace (Rltb _ 1) with true; [reflexivity|symmetry; apply Rltb_true; lra].
Qed.
Print Assumptions C89_ball_position_refuted.

(** The comments follow at the end, in their order, and are announced only if there are any. *)
Theorem C89_comments : forall fr ff x text, printable fr ff x -> str fr ff x = Some text -> List.Forall one_line (o_comments x) ->
  exists before, lines text = (before ++ match o_comments x with [] => [] | l => "  comments:" :: map (append "    ") l end)%list /\ ~ In "  comments:" before.
Proof.
  intros fr ff x text P E F. assert (Q : o_rule x <> []) by (intros Q; rewrite (C89_empty_refuted fr ff x Q) in E; discriminate).
  destruct (str_lines fr ff x Q P) as (text' & r & E' & _ & L). rewrite E in E'. injection E' as <-. rewrite L. unfold top_lines. rewrite !app_assoc. eexists. split; [f_equal|].
  - unfold comment_lines. destruct (o_comments x) as [|c l]; [reflexivity|]. f_equal. revert F. generalize (c :: l). clear. intros l F. induction F as [|c l H _ IH]; [reflexivity|]. cbn [flat_map map]. rewrite IH, lines_one by (apply one_line_app; [concrete|exact H]). reflexivity.
  - intros I. assert (Z : after "  comments:" "  comments:" = None); [|discriminate Z]. revert I. generalize "  comments:" at 1 3. apply (Forall_forall (fun l => after "  comments:" l = None)).
    repeat (apply Forall_app; split).
    + repeat constructor. eapply Forall_impl; [|apply source_prefix]. intros l [[v ->]|[v ->]]; reflexivity.
    + repeat constructor.
    + unfold position_lines. destruct (position _ _); repeat constructor.
    + repeat constructor.
Qed.
Print Assumptions C89_comments.

(** The source: title, authors, and what the record has of journal, volume, number, pages, year and address. *)
Theorem C89_article : forall fr ff x text title names journal volume number pages year url,
  o_source x = Some (mk_source Article (Names names) (Some title) (Some journal) (Some volume) (Some number) (Some pages) (Some year) (Some url)) ->
  names <> [] -> List.Forall (fun s => s <> "") [journal; volume; number; pages; year; url] ->
  printable fr ff x -> str fr ff x = Some text ->
  exists before rest, lines text = (before ++ [("  source:               " ++ title)%string; ("                        " ++ String.concat ", " names)%string;
    ("                        " ++ journal ++ ", vol. " ++ volume ++ ", no. " ++ number ++ ", pp. " ++ pages ++ ", " ++ year)%string; ("                        " ++ url)%string] ++ rest)%list.
Proof.
  intros fr ff x text title names journal volume number pages year url S N NE P E. assert (Q : o_rule x <> []) by (intros Q; rewrite (C89_empty_refuted fr ff x Q) in E; discriminate).
  destruct (str_lines fr ff x Q P) as (text' & r & E' & _ & L). rewrite E in E'. injection E' as <-. rewrite L. unfold top_lines. rewrite S. unfold source_lines. cbn [s_title shown s_authors authors_lines].
  exists [("<quadrature scheme for " ++ o_domain x ++ ">")%string; ("  name:                 " ++ o_name x)%string]. eexists. cbn [app]. do 2 f_equal. f_equal.
  assert (J : forall l, join ", " l = String.concat ", " l) by (induction l as [|a [|b l] IH]; [reflexivity|reflexivity|]; change (a ++ ", " ++ join ", " (b :: l) = a ++ ", " ++ String.concat ", " (b :: l)); rewrite IH; reflexivity).
  destruct names as [|n0 ns]; [congruence|]. rewrite J. cbn [app]. f_equal.
  repeat match goal with H : List.Forall _ (_ :: _) |- _ => inversion H; clear H; subst end.
  repeat match goal with H : ?s <> "" |- _ => apply String.eqb_neq in H end.
  unfold details, url_lines, optional. cbn [s_kind has_journal has_volume has_number has_pages s_journal s_volume s_number s_pages s_year s_url].
  repeat match goal with H : String.eqb ?s "" = false |- _ => rewrite H; clear H end. reflexivity.
Qed.
Print Assumptions C89_article.
(** If the field authors is one string instead of a list, as for u2.krylov, its characters are separated by commas. *)
Theorem C89_authors_refuted : forall fr ff x text title, printable fr ff x -> str fr ff x = Some text ->
  o_source x = Some (mk_source Book (OneString "V.I. Krylov") (Some title) None None None None (Some "1962") None) ->
  In "                        V, ., I, .,  , K, r, y, l, o, v" (lines text).
Proof.
  intros fr ff x text title P E S. assert (Q : o_rule x <> []) by (intros Q; rewrite (C89_empty_refuted fr ff x Q) in E; discriminate).
  destruct (str_lines fr ff x Q P) as (text' & r & E' & _ & L). rewrite E in E'. injection E' as <-. rewrite L. unfold top_lines. rewrite S. right. right. right. left. reflexivity.
Qed.
Print Assumptions C89_authors_refuted.

(** A concrete text. *)
Example C89_case : str (fun r => match r with Finite _ => "3.000e+00" | _ => "?" end) (fun _ => "1e-14")
  (mk_obj "C2" "Sample" (Some (mk_source Book (Names ["A. Author"; "B. Author"]) (Some "Title") None None None None (Some "1971") None)) 3 [(3/4, [0; 0]); (1/4, [1/2; 1/2])] 0 Cube ["first"])
  = Some (String.concat nl ["<quadrature scheme for C2>"; "  name:                 Sample"; "  source:               Title"; "                        A. Author, B. Author"; "                        1971";
    "  degree:               3"; "  num points/weights:   2"; "  max/min weight ratio: 3.000e+00"; "  test tolerance:       1e-14"; "  point position:       strictly inside";
    "  all weights positive: True"; "  comments:"; "    first"]).
Proof.
  unfold str. cbn [o_rule map fst np_max np_min fold_left bind o_family position o_comments].
  assert (Z : quotient (Rmax (Rabs (3/4)) (Rabs (1/4))) (Rmin (Rabs (3/4)) (Rabs (1/4))) = Finite (Rmax (Rabs (3/4)) (Rabs (1/4)) / Rmin (Rabs (3/4)) (Rabs (1/4)))).
  { unfold quotient. destruct (Req_EM_T _ 0) as [Z|]; [|reflexivity]. exfalso. rewrite !Rabs_pos_eq in Z by lra. rewrite Rmin_right in Z by lra. lra. }
  rewrite Z. rewrite (proj2 (proj1 (C44_cube _))) by (repeat constructor; cbn; lra). replace (forallb _ _) with true; [reflexivity|].
  symmetry. cbn [forallb]. rewrite !(proj2 (Rltb_true _ _)) by lra. reflexivity.
Qed.
