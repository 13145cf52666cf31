(* C45 user settings in generate_config, C61 Config as a dictionary, C63 fill_default, C64 merge_config. *)
From Verif Require Import Lib.Base Lib.Str Model.Config.

(* keys that can be used for settings *)
Definition ordinary (k : string) : Prop := dunder k = false /\ is_own k = false.
Lemma ordinary_eq k : ordinary k -> eqb k "call"%string = false /\ eqb k "data"%string = false.
Proof.
  intros [_ H]. unfold is_own, own_attrs in H. cbn [existsb] in H.
  apply orb_false_elim in H as [H1 H]. apply orb_false_elim in H as [H2 H]. apply orb_false_elim in H as [H3 H]. apply orb_false_elim in H as [H4 _]. auto.
Qed.
Lemma set_ordinary data const cl k v : ordinary k -> ~ In k const -> set_item (CConf data const cl) k v = (CConf (dset k v data) const cl, Ok tt).
Proof.
  intros O N. destruct (ordinary_eq k O) as [A B]. destruct O as [D I]. cbn [set_item]. rewrite D, A, B, I.
  replace (existsb (eqb k) const) with false; auto. symmetry. apply Bool.not_true_is_false. intros H.
  apply existsb_exists in H as (x & Ix & E). destruct (eqb_spec k x); [subst; auto|discriminate].
Qed.

(* dictionary { ** a, ** b }: entries of b win *)
Lemma fold_dset_get (b : list (string * val)) k : forall acc,
  (~ In k (dkeys b) -> dget k (fold_left (fun acc kv => dset (fst kv) (snd kv) acc) b acc) = dget k acc) /\
  (NoDup (dkeys b) -> forall v, In (k, v) b -> dget k (fold_left (fun acc kv => dset (fst kv) (snd kv) acc) b acc) = Some v).
Proof.
  induction b as [|[k' v'] b IH]; intros acc; cbn; [split; auto; intros _ v []|]. split.
  - intros N. destruct (IH (dset k' v' acc)) as [H _]. rewrite H by tauto. apply dget_dset_other. tauto.
  - intros ND v I. inversion ND as [|? ? N1 N2]; subst. destruct (IH (dset k' v' acc)) as [H1 H2].
    destruct I as [[= -> ->]|I]; [|auto]. rewrite H1 by auto. apply dget_dset_same.
Qed.
Lemma dict_merge_get a b k : NoDup (dkeys a) -> NoDup (dkeys b) ->
  dget k (dict_merge a b) = match dget k b with Some v => Some v | None => dget k a end.
Proof.
  intros Na Nb. unfold dict_merge. set (acc := fold_left _ a []).
  destruct (dget k b) as [v|] eqn:E.
  - apply (proj2 (fold_dset_get b k acc) Nb). now apply dget_Some_In.
  - rewrite (proj1 (fold_dset_get b k acc)) by (now apply dget_None). unfold acc.
    destruct (dget k a) as [v|] eqn:Ea; [apply (proj2 (fold_dset_get a k [])); auto; now apply dget_Some_In|].
    rewrite (proj1 (fold_dset_get a k [])) by (now apply dget_None). reflexivity.
Qed.

(* the frame_config of a configuration *)
Definition frame_config (c : conf) : option val :=
  match c with CDict d => dget "frame_config"%string d | CConf d _ _ => dget "frame_config"%string d end.
(* dict, or Config without const attributes *)
Definition free (c : conf) : Prop := match c with CDict _ => True | CConf _ const _ => const = [] end.

Lemma generate_merge frame defaults c d : free c -> frame_config c = Some (VDict d) ->
  exists c', generate_config frame defaults c = Ok c' /\ frame_config c' = Some (VDict (dict_merge d defaults)).
Proof.
  intros F H. unfold generate_config. destruct c as [dd|data const cl]; cbn [set_item frame_config] in *.
  - cbn [contains bind]. unfold dmem. cbn [get_item]. rewrite !dget_dset_other by discriminate. rewrite H. cbn [bind].
    eexists. split; [reflexivity|]. cbn [frame_config]. apply dget_dset_same.
  - cbn in F. subst const. cbn. unfold get_item. cbn.
    change (existsb _ _) with false. rewrite (dget_dset_other (k:="frame"%string) (k':="frame_config"%string)) by discriminate. rewrite H. cbn [bind].
    cbn. eexists. split; [reflexivity|]. cbn [frame_config]. apply dget_dset_same.
Qed.

(* Every setting for which the algorithm has a default value is replaced by the default. *)
Theorem C45_refuted : forall frame defaults c d k dv uv,
  free c -> NoDup (dkeys defaults) -> NoDup (dkeys d) ->
  frame_config c = Some (VDict d) -> In (k, uv) d -> In (k, dv) defaults ->
  exists c' d', generate_config frame defaults c = Ok c' /\ frame_config c' = Some (VDict d') /\ dget k d' = Some dv.
Proof.
  intros frame defaults c d k dv uv F N1 N2 H I1 I2. destruct (generate_merge frame defaults c d F H) as (c' & E & E').
  exists c', (dict_merge d defaults). split; auto. split; auto. rewrite dict_merge_get by auto.
  now rewrite (dget_In k dv defaults N1 I2).
Qed.
Print Assumptions C45_refuted.
(* A Config object without frame_config makes generate_config fail. *)
Theorem C45_config_refuted : forall frame defaults data, dget "frame_config"%string data = None ->
  generate_config frame defaults (CConf data [] false) = Err EType.
Proof.
  intros frame defaults data H. unfold generate_config. cbn. unfold get_item. cbn.
  change (existsb _ _) with false. rewrite (dget_dset_other (k:="frame"%string) (k':="frame_config"%string)) by discriminate. now rewrite H.
Qed.
Print Assumptions C45_config_refuted.
(* What holds: settings without a default value are kept, missing ones are filled in; a plain dict
   without frame_config gets the defaults. Missing: settings that have a default value. *)
Theorem C45_partial : forall frame defaults, NoDup (dkeys defaults) ->
  (forall c d, free c -> NoDup (dkeys d) -> frame_config c = Some (VDict d) ->
     exists c' d', generate_config frame defaults c = Ok c' /\ frame_config c' = Some (VDict d') /\
       (forall k, ~ In k (dkeys defaults) -> dget k d' = dget k d) /\
       (forall k v, In (k, v) defaults -> ~ In k (dkeys d) -> dget k d' = Some v)) /\
  (forall d, dget "frame_config"%string d = None ->
     exists c', generate_config frame defaults (CDict d) = Ok c' /\ frame_config c' = Some (VDict defaults)).
Proof.
  intros frame defaults ND. split.
  - intros c d F Nd H. destruct (generate_merge frame defaults c d F H) as (c' & E & E').
    exists c', (dict_merge d defaults). split; auto. split; auto. split.
    + intros k N. rewrite dict_merge_get by auto. apply dget_None in N. now rewrite N.
    + intros k v I _. rewrite dict_merge_get by auto. now rewrite (dget_In k v defaults ND I).
  - intros d H. unfold generate_config. cbn [set_item contains bind]. unfold dmem.
    rewrite (dget_dset_other (k:="frame"%string) (k':="frame_config"%string)) by discriminate. rewrite H. cbn [bind].
    eexists. split; [reflexivity|]. cbn [frame_config]. apply dget_dset_same.
Qed.
Print Assumptions C45_partial.
Example C45_nonvacuous :
  let defaults := [("batch_size", VOther 100); ("mode", VOther 1)]%string in
  (generate_config (VOther 7) defaults (CDict [("frame_config", VDict [("batch_size", VOther 32); ("mine", VOther 5)])]%string),
   generate_config (VOther 7) defaults (CDict [])) =
  (Ok (CDict [("frame_config", VDict [("batch_size", VOther 100); ("mine", VOther 5); ("mode", VOther 1)]); ("frame", VOther 7)]%string),
   Ok (CDict [("frame", VOther 7); ("frame_config", VDict defaults)]%string)).
Proof. reflexivity. Qed.

(* C61 *)
(* the last value assigned to k *)
Definition assigned (kvs : list (string * val)) (k : string) : option val := dget k (rev kvs).
Lemma set_all_data const cl kvs : (forall k v, In (k, v) kvs -> ordinary k /\ ~ In k const) -> forall data,
  set_all (CConf data const cl) kvs = (CConf (fold_left (fun acc kv => dset (fst kv) (snd kv) acc) kvs data) const cl, Ok tt).
Proof.
  induction kvs as [|[k v] kvs IH]; intros H data; [reflexivity|].
  cbn [set_all]. rewrite set_ordinary by (apply (H k v); left; auto). cbn [fold_left fst snd]. apply IH. intros k' v' I. apply (H k' v'). right; auto.
Qed.
Lemma dget_app {V} (a b : list (string * V)) k : dget k (a ++ b) = match dget k a with Some v => Some v | None => dget k b end.
Proof. induction a as [|[k' v'] a IH]; cbn; auto. destruct (String.eqb k k'); auto. Qed.
Lemma fold_assigned kvs k : forall data,
  dget k (fold_left (fun acc kv => dset (fst kv) (snd kv) acc) kvs data) =
  match assigned kvs k with Some v => Some v | None => dget k data end.
Proof.
  unfold assigned. induction kvs as [|[k' v'] kvs IH]; intros data; cbn; auto.
  rewrite IH, dget_app. destruct (dget k (rev kvs)); auto. cbn. destruct (String.eqb_spec k k') as [->|N].
  - apply (dget_dset_same k').
  - apply dget_dset_other. auto.
Qed.
(* c[k] is the last value assigned, None if there is none. Missing: membership, get and iteration. *)
Theorem C61_item_partial : forall kvs, (forall k v, In (k, v) kvs -> ordinary k) ->
  exists c, set_all (CConf [] [] false) kvs = (c, Ok tt) /\
    forall k, ordinary k -> get_item c k = Ok (match assigned kvs k with Some v => v | None => VNone end).
Proof.
  intros kvs H. eexists. split; [apply set_all_data; intros k v I; split; [eauto|auto]|].
  intros k [D O]. cbn [get_item]. rewrite D, O, fold_assigned. cbn [dget]. destruct (assigned kvs k); reflexivity.
Qed.
Print Assumptions C61_item_partial.
(* Every key is a member, get never returns its default, and iteration does not depend on what was
   assigned. *)
Theorem C61_refuted : forall kvs c k default, (forall k v, In (k, v) kvs -> ordinary k) -> ordinary k ->
  set_all (CConf [] [] false) kvs = (c, Ok tt) ->
  contains c k = Ok true /\
  (assigned kvs k = None -> conf_get c k default = Ok VNone) /\
  conf_iter c = ["const_attrs"; "data"]%string.
Proof.
  intros kvs c k default H O E. rewrite set_all_data in E by (intros k' v I; split; [eauto|auto]). injection E as <-.
  destruct O as [D O']. cbn [contains]. rewrite D. split; auto. split; auto.
  intros N. unfold conf_get. cbn [contains]. rewrite D. cbn [bind get_item]. rewrite D, O', fold_assigned, N. reflexivity.
Qed.
Print Assumptions C61_refuted.
(* Keys that begin with two underscores are ordinary keys of a dictionary; here every access fails with an
   AssertionError and nothing is stored. *)
Theorem C61_dunder_refuted : forall data const called k v default,
  let c := CConf data const called in let k' := String.append "__" k in
  set_item c k' v = (c, Err EAssert) /\ get_item c k' = Err EAssert /\ contains c k' = Err EAssert /\ conf_get c k' default = Err EAssert.
Proof.
  intros data const called k v default c k'. assert (D : dunder k' = true) by (unfold k'; destruct k; reflexivity).
  unfold c. cbn [set_item get_item]. unfold conf_get. cbn [contains]. rewrite D. auto.
Qed.
Print Assumptions C61_dunder_refuted.
(* Nor can the names of the attributes of a Config be used: "call" is kept outside the data (and then iterated over, with
   the value out of reach of item access), "data" replaces all settings, the others are refused. *)
Theorem C61_reserved_refuted : forall data const called v (k : string),
  let c := CConf data const called in
  set_item c "call" v = (CConf data const true, Ok tt) /\
  conf_iter (fst (set_item c "call" v)) = ["const_attrs"; "data"; "call"]%string /\
  (forall d, set_item c "data" (VDict d) = (CConf d const called, Ok tt)) /\
  (forall n, set_item c "data" (VOther n) = (c, Err EValue)) /\ set_item c "data" VNone = (c, Err EValue) /\
  (In k ["get"; "attr"; "const_attrs"]%string -> set_item c k v = (c, Err ERuntime)) /\
  (In k ["get"; "attr"; "const_attrs"; "call"; "data"]%string -> get_item c k = Ok VAttr).
Proof.
  intros data const called v k. cbv zeta. repeat (split; [reflexivity|]). split.
  - intros [<-|[<-|[<-|[]]]]; reflexivity.
  - intros [<-|[<-|[<-|[<-|[<-|[]]]]]]; reflexivity.
Qed.
Print Assumptions C61_reserved_refuted.
Example C61_nonvacuous :
  let (c, _) := set_all (CConf [] [] false) [("a", VOther 1); ("b", VOther 2); ("a", VOther 3)]%string in
  (map (get_item c) ["a"; "b"; "z"]%string, contains c "z"%string, conf_get c "z"%string (VOther 9), conf_iter c) =
  ([Ok (VOther 3); Ok (VOther 2); Ok VNone], Ok true, Ok VNone, ["const_attrs"; "data"]%string).
Proof. reflexivity. Qed.

(* C63 *)
Lemma fill_keys_dict D keys : NoDup keys -> incl keys (dkeys D) -> forall d,
  exists d', fill_keys (CDict D) keys (CDict d) = Ok (CDict d') /\
    forall k, dget k d' = match dget k d with Some v => Some v | None => if existsb (eqb k) keys then dget k D else None end.
Proof.
  induction keys as [|k keys IH]; intros ND Inc d; cbn [fill_keys].
  - exists d. split; auto. intros k. cbn. destruct (dget k d); auto.
  - inversion ND as [|? ? N1 N2]; subst. assert (Inc' : incl keys (dkeys D)) by (intros x I; apply Inc; right; auto).
    cbn [contains bind]. unfold dmem. destruct (dget k d) as [v|] eqn:E.
    + destruct (IH N2 Inc' d) as (d' & E1 & E2). exists d'. split; auto. intros k'. rewrite E2. cbn [existsb].
      destruct (dget k' d) eqn:E'; auto. destruct (eqb_spec k' k) as [->|N]; [congruence|]. reflexivity.
    + cbn [get_item]. destruct (dget k D) as [v|] eqn:ED.
      2:{ exfalso. apply dget_None in ED. apply ED, Inc. left; auto. }
      cbn [bind set_item]. destruct (IH N2 Inc' (dset k v d)) as (d' & E1 & E2). exists d'. split; auto.
      intros k'. rewrite E2. cbn [existsb]. destruct (eqb_spec k' k) as [->|N].
      * rewrite dget_dset_same, E. cbn. auto.
      * rewrite dget_dset_other by auto. reflexivity.
Qed.
(* With plain dictionaries. Missing: Config objects, see below. *)
Theorem C63_dict_partial : forall D d, NoDup (dkeys D) ->
  exists d', fill_default (CDict D) (CDict d) = Ok (CDict d') /\
    forall k, dget k d' = match dget k d with Some v => Some v | None => dget k D end.
Proof.
  intros D d ND. destruct (fill_keys_dict D (dkeys D) ND (fun x I => I) d) as (d' & E & H). exists d'. split; auto.
  intros k. rewrite H. destruct (dget k d); auto. destruct (existsb (eqb k) (dkeys D)) eqn:X; auto.
  symmetry. apply dget_None. intros I. assert (existsb (eqb k) (dkeys D) = true); [|congruence].
  apply existsb_exists. exists k. split; auto. apply eqb_refl.
Qed.
Print Assumptions C63_dict_partial.
(* Nothing is filled into a Config, whatever is missing; and a Config given as defaults contributes
   only the keys "const_attrs" and "data". *)
Theorem C63_config_refuted : forall D data const cl, (forall k, In k (dkeys D) -> dunder k = false) ->
  fill_default (CDict D) (CConf data const cl) = Ok (CConf data const cl) /\
  fill_default (CConf data const false) (CDict []) = Ok (CDict [("const_attrs", VAttr); ("data", VAttr)]%string).
Proof.
  intros D data const cl H. split; [|reflexivity]. unfold fill_default. cbn [conf_iter].
  assert (G : forall keys, (forall k, In k keys -> dunder k = false) -> fill_keys (CDict D) keys (CConf data const cl) = Ok (CConf data const cl)).
  { induction keys as [|k keys IH]; intros Hk; [reflexivity|]. cbn [fill_keys contains]. rewrite (Hk k) by (left; auto). cbn [bind].
    apply IH. intros k' I. apply Hk. right; auto. }
  now apply G.
Qed.
Print Assumptions C63_config_refuted.
Example C63_nonvacuous :
  fill_default (CDict [("a", VOther 1); ("b", VOther 2)]%string) (CDict [("b", VOther 5)]%string) = Ok (CDict [("b", VOther 5); ("a", VOther 1)]%string).
Proof. reflexivity. Qed.

(* C64 *)
Theorem C64_merge : forall data const cl kvs,
  (forall k v, In (k, v) kvs -> ordinary k /\ ~ In k const) ->
  exists data', merge_config (CConf data const cl) (CDict kvs) = Ok (CConf data' const cl) /\
    forall k, dget k data' = match assigned kvs k with Some v => Some v | None => dget k data end.
Proof.
  intros data const cl kvs H. eexists. split; [cbn [merge_config]; rewrite set_all_data; auto|]. intros k. apply fold_assigned.
Qed.
Print Assumptions C64_merge.
(* merging a Config leaves const keys alone *)
Theorem C64_const_kept : forall data const cl data2 const2 cl2,
  (forall k v, In (k, v) data2 -> ordinary k) ->
  exists data', merge_config (CConf data const cl) (CConf data2 const2 cl2) = Ok (CConf data' const cl) /\
    (forall k, In k const -> dget k data' = dget k data) /\
    (NoDup (dkeys data2) -> forall k, ~ In k const -> dget k data' = match dget k data2 with Some v => Some v | None => dget k data end).
Proof.
  intros data const cl data2 const2 cl2 H. cbn [merge_config].
  set (kvs := filter _ data2).
  assert (K : forall k v, In (k, v) kvs <-> In (k, v) data2 /\ ~ In k const).
  { intros k v. unfold kvs. rewrite filter_In. cbn [fst]. rewrite negb_true_iff. split; intros [A B]; split; auto.
    - intros I. assert (existsb (eqb k) const = true); [|congruence]. apply existsb_exists. exists k. split; auto. apply eqb_refl.
    - apply Bool.not_true_is_false. intros E. apply existsb_exists in E as (x & Ix & E). destruct (eqb_spec k x); [subst; auto|discriminate]. }
  rewrite set_all_data by (intros k v I; apply K in I as [I N]; split; eauto).
  eexists. split; [reflexivity|]. split.
  - intros k I. rewrite fold_assigned. unfold assigned. replace (dget k (rev kvs)) with (@None val); auto. symmetry. apply dget_None.
    intros J. unfold dkeys in J. rewrite map_rev, <- in_rev in J. apply in_map_iff in J as ([k' v'] & E & J). cbn in E. subst. apply K in J as [_ J]. auto.
  - intros ND k N. rewrite fold_assigned. unfold assigned.
    assert (NDr : NoDup (dkeys (rev kvs))).
    { unfold dkeys. rewrite map_rev. apply NoDup_rev. clear -ND. unfold kvs, dkeys in *. induction data2 as [|[k v] l IH]; cbn; [constructor|].
      inversion ND; subst. destruct (negb (existsb (String.eqb k) const)); cbn; auto. constructor; auto.
      intros I. apply in_map_iff in I as (x & E & I). apply filter_In in I as [I _]. apply H1. rewrite <- E. now apply in_map. }
    destruct (dget k data2) as [v|] eqn:E.
    + apply dget_Some_In in E. rewrite (dget_In k v (rev kvs) NDr); auto. rewrite <- in_rev. apply K. auto.
    + replace (dget k (rev kvs)) with (@None val); auto. symmetry. apply dget_None. intros J. unfold dkeys in J. rewrite map_rev, <- in_rev in J.
      apply in_map_iff in J as ([k' v'] & Ek & J). cbn in Ek. subst. apply K in J as [J _]. apply dget_None in E. apply E. apply (in_map fst) in J. exact J.
Qed.
Print Assumptions C64_const_kept.
(* a Config cannot be merged into a plain dictionary, unless it is empty *)
Theorem C64_dict_target : forall d data const cl,
  merge_config (CDict d) (CConf data const cl) = (match data with [] => Ok (CDict d) | _ => Err EAttr end).
Proof. intros d [|kv data] const cl; reflexivity. Qed.
Print Assumptions C64_dict_target.
Example C64_nonvacuous :
  merge_config (CConf [("a", VOther 1); ("b", VOther 2)]%string ["b"%string] false) (CConf [("a", VOther 5); ("b", VOther 6); ("c", VOther 7)]%string [] false)
  = Ok (CConf [("a", VOther 5); ("b", VOther 2); ("c", VOther 7)]%string ["b"%string] false).
Proof. reflexivity. Qed.
