(** C85: the registries quadpy.<domain>.schemes.
    [run_calls calls] is the dictionary after the calls of register(); [dict_get d k] is d[k] (None for KeyError).  [domains] are the
    twelve domains with a registry, each with the calls found in its modules.  A registered function is identified by the file and
    the name of its def statement. *)
From Coq Require Import List String Permutation Lia Bool ZArith Reals.
From Verif Require Import RegModel RegTables GoodModel.
Import ListNotations.
Open Scope string_scope.
Set Bullet Behavior "Strict Subproofs".

Definition domains : list (list call) :=
  [c2_calls; c3_calls; e2r_calls; e2r2_calls; e3r_calls; e3r2_calls; s2_calls; s3_calls; t2_calls; t3_calls; u2_calls; u3_calls].
(** the functions registered by the calls *)
Definition registered_fns (calls : list call) : list fn := flat_map call_fns calls.

(** *** Lemmas on dictionaries *)
Lemma get_set_same d k v : dict_get (dict_set d k v) k = Some v.
Proof. induction d as [|[k' v'] d IH]; cbn [dict_set dict_get]; [rewrite String.eqb_refl; auto|]. destruct (k' =? k) eqn:E; cbn [dict_get]; rewrite E; auto. Qed.
Lemma get_set_other d k k' v : k <> k' -> dict_get (dict_set d k v) k' = dict_get d k'.
Proof.
  intros N. induction d as [|[k1 v1] d IH]; cbn [dict_set dict_get].
  - destruct (k =? k') eqn:E; auto. apply String.eqb_eq in E. congruence.
  - destruct (k1 =? k) eqn:E; cbn [dict_get]; [|rewrite IH; auto]. apply String.eqb_eq in E. subst k1. destruct (k =? k') eqn:E'; auto. apply String.eqb_eq in E'. congruence.
Qed.
Lemma find_app {A} (p : A -> bool) l l' : find p (l ++ l') = match find p l with Some x => Some x | None => find p l' end.
Proof. induction l as [|a l IH]; cbn; auto. destruct (p a); auto. Qed.
Lemma register_get l : forall d k, dict_get (register d l) k = match find (fun f => fn_name f =? k) (rev l) with Some f => Some f | None => dict_get d k end.
Proof.
  unfold register. induction l as [|f l IH]; intros d k; cbn [fold_left rev]; [reflexivity|]. rewrite IH, find_app. destruct (find _ (rev l)) as [g|]; auto. cbn [find].
  destruct (fn_name f =? k) eqn:E; [apply String.eqb_eq in E; subst k; apply get_set_same|]. apply get_set_other. intros X. rewrite X, String.eqb_refl in E. discriminate.
Qed.
Lemma run_register calls : run_calls calls = register [] (registered_fns calls).
Proof.
  unfold run_calls, registered_fns, register. generalize (@nil (string * fn)). induction calls as [|c calls IH]; intros d; cbn [fold_left flat_map]; auto. rewrite IH, fold_left_app. reflexivity.
Qed.

(** *** Any history of calls *)
(** d[k] is the function registered last among those with the name k. *)
Theorem C85_last_wins : forall calls k, dict_get (run_calls calls) k = find (fun f => fn_name f =? k) (rev (registered_fns calls)).
Proof. intros calls k. rewrite run_register, register_get. destruct (find _ _); reflexivity. Qed.
Print Assumptions C85_last_wins.
Lemma set_keys d k v : map fst (dict_set d k v) = if existsb (fun e => fst e =? k) d then map fst d else (map fst d ++ [k])%list.
Proof. induction d as [|[k' v'] d IH]; cbn [dict_set existsb map fst app]; auto. destruct (k' =? k) eqn:E; cbn [orb map fst]; auto. rewrite IH. destruct (existsb _ d); auto. Qed.
(** No key occurs twice, whatever is registered how often. *)
Theorem C85_keys_unique : forall calls, NoDup (map fst (run_calls calls)).
Proof.
  intros calls. rewrite run_register. unfold register. generalize (registered_fns calls). intros l. assert (G : forall d, NoDup (map fst d) -> NoDup (map fst (fold_left (fun d f => dict_set d (fn_name f) f) l d))).
  { induction l as [|f l IH]; intros d H; cbn [fold_left]; auto. apply IH. rewrite set_keys. destruct (existsb (fun e => fst e =? fn_name f) d) eqn:E; auto.
    apply (NoDup_Add (a := fn_name f) (l := map fst d)); [generalize (Add_app (fn_name f) (map fst d) []); rewrite app_nil_r; auto|]. split; auto. intros I. apply in_map_iff in I. destruct I as (e & E1 & I).
    assert (X : existsb (fun e => fst e =? fn_name f) d = true) by (apply existsb_exists; exists e; split; auto; rewrite E1; apply String.eqb_refl). congruence. }
  apply G. constructor.
Qed.
Print Assumptions C85_keys_unique.
(** Every registered name can be looked up. *)
Theorem C85_no_lost_name : forall calls f, In f (registered_fns calls) -> exists g, dict_get (run_calls calls) (fn_name f) = Some g /\ fn_name g = fn_name f /\ In g (registered_fns calls).
Proof.
  intros calls f I. rewrite C85_last_wins. destruct (find (fun g => fn_name g =? fn_name f) (rev (registered_fns calls))) as [g|] eqn:E.
  - exists g. apply find_some in E. destruct E as [Ig E]. apply String.eqb_eq in E. rewrite <- in_rev in Ig. auto.
  - exfalso. rewrite in_rev in I. apply (find_none _ _ E f) in I. rewrite String.eqb_refl in I. discriminate.
Qed.
Print Assumptions C85_no_lost_name.
(** If no two different functions have the same name, the registry does not depend on the order in which the modules are imported. *)
Theorem C85_import_order : forall calls calls', (forall f, In f (registered_fns calls) <-> In f (registered_fns calls')) ->
  (forall f g, In f (registered_fns calls) -> In g (registered_fns calls) -> fn_name f = fn_name g -> f = g) ->
  forall k, dict_get (run_calls calls) k = dict_get (run_calls calls') k.
Proof.
  intros calls calls' E U k. rewrite !C85_last_wins.
  destruct (find (fun f => fn_name f =? k) (rev (registered_fns calls))) as [f|] eqn:F; destruct (find (fun f => fn_name f =? k) (rev (registered_fns calls'))) as [g|] eqn:G; auto.
  - apply find_some in F, G. destruct F as [F1 F2], G as [G1 G2]. rewrite <- in_rev in F1, G1. apply String.eqb_eq in F2, G2. f_equal. apply U; auto; [apply E; auto|congruence].
  - apply find_some in F. destruct F as [F1 F2]. rewrite <- in_rev in F1. apply E in F1. rewrite in_rev in F1. apply (find_none _ _ G) in F1. congruence.
  - apply find_some in G. destruct G as [G1 G2]. rewrite <- in_rev in G1. apply E in G1. rewrite in_rev in G1. apply (find_none _ _ F) in G1. congruence.
Qed.
Print Assumptions C85_import_order.

(** *** The twelve registries *)
Definition fn_eqb (f g : fn) : bool := (fn_file f =? fn_file g) && (fn_name f =? fn_name g).
Lemma fn_eqb_eq f g : fn_eqb f g = true -> f = g.
Proof. unfold fn_eqb. intros H. apply andb_true_iff in H. destruct H as [A B]. apply String.eqb_eq in A, B. destruct f, g. cbn in *. subst. auto. Qed.
Definition ofn_eqb (a b : option fn) : bool := match a, b with Some f, Some g => fn_eqb f g | None, None => true | _, _ => false end.
Lemma ofn_eqb_eq a b : ofn_eqb a b = true -> a = b.
Proof. destruct a, b; cbn; try discriminate; auto. intros H. f_equal. apply fn_eqb_eq. auto. Qed.
(** what looking up the identifier of an entry should give *)
Definition id_answer (file : string) (e : entry) : option fn := if entry_id e =? fn_name (entry_fn file e) then Some (entry_fn file e) else None.
Definition check (calls : list call) : bool :=
  let d := run_calls calls in
  forallb (fun c => forallb (fun e => let f := entry_fn (fst c) e in ofn_eqb (dict_get d (fn_name f)) (Some f) && (match e with own _ => true | from _ _ _ => ofn_eqb (dict_get d (entry_id e)) (id_answer (fst c) e) end)) (snd c)) calls.
Lemma check_all : forallb check domains = true.
Proof. vm_compute. reflexivity. Qed.
Lemma check_entry calls c e : In calls domains -> In c calls -> In e (snd c) ->
  dict_get (run_calls calls) (fn_name (entry_fn (fst c) e)) = Some (entry_fn (fst c) e) /\ dict_get (run_calls calls) (entry_id e) = id_answer (fst c) e.
Proof.
  intros Hd Hc He. assert (K := check_all). rewrite forallb_forall in K. specialize (K _ Hd). unfold check in K. rewrite forallb_forall in K. specialize (K _ Hc). rewrite forallb_forall in K. specialize (K _ He).
  apply andb_true_iff in K. destruct K as [A B]. apply ofn_eqb_eq in A. split; auto. destruct e as [i|i f n]; [|apply ofn_eqb_eq; auto]. unfold id_answer. cbn [entry_id entry_fn fn_name] in *. rewrite String.eqb_refl. auto.
Qed.
Lemma entry_registered calls c e : In c calls -> In e (snd c) -> In (entry_fn (fst c) e) (registered_fns calls).
Proof. intros Hc He. apply in_flat_map. exists c. split; auto. apply in_map. auto. Qed.
Lemma domains_distinct calls : In calls domains -> forall f g, In f (registered_fns calls) -> In g (registered_fns calls) -> fn_name f = fn_name g -> f = g.
Proof.
  intros Hd f g If Ig E. apply in_flat_map in If, Ig. destruct If as (c & Hc & If), Ig as (c' & Hc' & Ig). apply in_map_iff in If, Ig. destruct If as (e & <- & He), Ig as (e' & <- & He').
  destruct (check_entry calls c e Hd Hc He) as [A _]. destruct (check_entry calls c' e' Hd Hc' He') as [B _]. rewrite E in A. congruence.
Qed.
Lemma domains_order calls calls' k : In calls domains -> (forall c, In c calls <-> In c calls') -> dict_get (run_calls calls') k = dict_get (run_calls calls) k.
Proof.
  intros Hd P. symmetry. apply C85_import_order; [|apply domains_distinct; auto]. intros f. unfold registered_fns. rewrite !in_flat_map. split; intros (c & Hc & Hf); exists c; split; auto; apply P; auto.
Qed.
(** In every domain and for every order in which its modules are imported (and even if modules are loaded several times), each
    registered function is found under its own name ... *)
Theorem C85_by_name : forall calls calls' c e, In calls domains -> (forall c, In c calls <-> In c calls') -> In c calls -> In e (snd c) ->
  dict_get (run_calls calls') (fn_name (entry_fn (fst c) e)) = Some (entry_fn (fst c) e).
Proof. intros calls calls' c e Hd P Hc He. rewrite (domains_order calls calls') by auto. apply check_entry; auto. Qed.
Print Assumptions C85_by_name.
(** ... and, exactly, under the identifier in the list given to register if this is the name of the function, and not otherwise. *)
Theorem C85_by_identifier : forall calls calls' c e, In calls domains -> (forall c, In c calls <-> In c calls') -> In c calls -> In e (snd c) ->
  dict_get (run_calls calls') (entry_id e) = if entry_id e =? fn_name (entry_fn (fst c) e) then Some (entry_fn (fst c) e) else None.
Proof. intros calls calls' c e Hd P Hc He. rewrite (domains_order calls calls') by auto. apply check_entry; auto. Qed.
Print Assumptions C85_by_identifier.
(** The identifiers that cannot be looked up: every register() list contains them, but schemes[id] raises KeyError. *)
Definition lost (calls : list call) : list string :=
  flat_map (fun c => map entry_id (filter (fun e => negb (entry_id e =? fn_name (entry_fn (fst c) e))) (snd c))) calls.
Theorem C85_alias_refuted : map lost domains =
  [["dunavant_03"; "stroud_c2_1_2"; "stroud_c2_3_4"; "stroud_c2_3_5"; "stroud_c2_5_1"; "stroud_c2_5_2"; "stroud_c2_5_3";
           "stroud_c2_5_5"; "stroud_c2_5_6"; "stroud_c2_5_7"; "stroud_c2_7_1"; "stroud_c2_7_2"; "stroud_c2_7_3"; "stroud_c2_7_5";
           "stroud_c2_7_6"; "stroud_c2_9_1"; "stroud_c2_11_1"; "stroud_c2_11_2"; "stroud_c2_13_1"; "stroud_c2_15_1";
           "stroud_c2_15_2"];
          ["stroud_c3_3_1"; "stroud_c3_3_4"; "stroud_c3_3_5"; "stroud_c3_3_6"; "stroud_c3_3_7"; "stroud_c3_5_1"; "stroud_c3_5_2";
           "stroud_c3_5_3"; "stroud_c3_5_4"; "stroud_c3_5_5"; "stroud_c3_5_6"; "stroud_c3_5_7"; "stroud_c3_5_8"; "stroud_c3_7_1a";
           "stroud_c3_7_1b"; "stroud_c3_7_2"; "stroud_c3_7_3"; "witherden_vincent_01"; "witherden_vincent_03";
           "witherden_vincent_05"]; ["stroud_5_1"; "stroud_7_1"; "stroud_9_1"; "stroud_11_1"; "stroud_11_2"; "stroud_15_1"];
          ["stroud_5_1"; "stroud_7_1"; "stroud_9_1"; "stroud_11_1"; "stroud_11_2"; "stroud_13_1"; "stroud_15_1"]; [];
          ["stroud_e3r2_5_1"; "stroud_e3r2_5_2a"; "stroud_e3r2_5_2b"; "stroud_e3r2_5_3"; "stroud_e3r2_7_1a"; "stroud_e3r2_7_1b";
           "stroud_e3r2_7_2a"; "stroud_e3r2_7_2b"];
          ["hammer_stroud_11_2"; "stroud_s2_3_1"; "stroud_s2_3_2"; "stroud_s2_4_1"; "stroud_s2_5_2"; "stroud_s2_7_1";
           "stroud_s2_7_2"; "stroud_s2_9_1"; "stroud_s2_9_2"; "stroud_s2_9_4"; "stroud_s2_9_5"; "stroud_s2_11_1"; "stroud_s2_11_2";
           "stroud_s2_11_3"; "stroud_s2_11_4"; "stroud_s2_13_1"; "stroud_s2_13_2"; "stroud_s2_15_1"; "stroud_s2_15_2";
           "stroud_s2_17_1"]; ["stroud_3_1"; "stroud_5_1"; "stroud_5_2"; "stroud_7_1a"; "stroud_7_1b"; "stroud_7_2"; "stroud_7_3"];
          ["strang_fix_cowper_02"; "laursen_gellert_01"; "laursen_gellert_03"; "laursen_gellert_04"; "laursen_gellert_05";
           "liu_vinokur_01"; "liu_vinokur_02"; "liu_vinokur_07"; "lyness_jespersen_04"; "lyness_jespersen_10"; "stroud_t2_3_1";
           "stroud_t2_5_1"]; []; [];
          ["stroud_u3_3_1"; "stroud_u3_5_1"; "stroud_u3_5_2"; "stroud_u3_5_3"; "stroud_u3_5_4"; "stroud_u3_5_5"; "stroud_u3_7_2";
           "stroud_u3_7_1"; "stroud_u3_8_1"; "stroud_u3_9_1"; "stroud_u3_9_2"; "stroud_u3_9_3"; "stroud_u3_11_1"; "stroud_u3_11_3";
           "stroud_u3_14_1"]]
  /\ forall calls calls' id, In calls domains -> (forall c, In c calls <-> In c calls') -> In id (lost calls) -> dict_get (run_calls calls') id = None.
Proof.
  split; [vm_compute; reflexivity|]. intros calls calls' id Hd P I. unfold lost in I. apply in_flat_map in I. destruct I as (c & Hc & I). apply in_map_iff in I. destruct I as (e & <- & I). apply filter_In in I. destruct I as [He N].
  rewrite (C85_by_identifier calls calls' c e Hd P Hc He). apply negb_true_iff in N. rewrite N. auto.
Qed.
Print Assumptions C85_alias_refuted.
(** get_good_scheme never meets a missing name: the names in its tables are keys of the registry. *)
Theorem C85_good_names : forall calls' degree name,
  List.Forall (fun ct : list call * list (Z * string) => (forall c, In c (fst ct) <-> In c calls') -> In (degree, name) (snd ct) ->
     exists f, dict_get (run_calls calls') name = Some f /\ fn_name f = name)
  [(c2_calls, c2_table); (c3_calls, c3_table); (t2_calls, t2_table); (t3_calls, t3_table); (s2_calls, s2_table); (u3_calls, u3_table);
   (e2r_calls, e2r_table); (e2r2_calls, e2r2_table); (e3r_calls, e3r_table); (e3r2_calls, e3r2_table)].
Proof.
  intros calls' degree name. assert (G : forall calls table, In calls domains -> forallb (fun dn => match dict_get (run_calls calls) (snd dn) with Some f => fn_name f =? snd dn | None => false end) table = true ->
    (forall c, In c calls <-> In c calls') -> In (degree, name) table -> exists f, dict_get (run_calls calls') name = Some f /\ fn_name f = name).
  { intros calls table Hd K P I. rewrite forallb_forall in K. specialize (K _ I). cbn [snd] in K. rewrite <- (domains_order calls calls') in K by auto. destruct (dict_get (run_calls calls') name) as [f|]; [|discriminate]. exists f. split; auto. apply String.eqb_eq. auto. }
  repeat (apply List.Forall_cons; [cbn [fst snd]; apply G; [unfold domains; repeat (try (left; reflexivity); right)|vm_compute; reflexivity]|]). constructor.
Qed.
Print Assumptions C85_good_names.
(** Concrete cases. *)
Example C85_ex : dict_get (run_calls t2_calls) "dunavant_05" = Some (mk_fn "t2/_dunavant/__init__.py" "dunavant_05") /\
  dict_get (run_calls c2_calls) "stroud_c2_5_1" = None /\ dict_get (run_calls c2_calls) "albrecht_collatz_2" = Some (mk_fn "c2/_albrecht_collatz.py" "albrecht_collatz_2") /\
  map (fun calls => List.length (run_calls calls)) domains = ([140; 28; 12; 15; 5; 9; 67; 12; 235; 102; 1; 83])%nat.
Proof. vm_compute. auto. Qed.
