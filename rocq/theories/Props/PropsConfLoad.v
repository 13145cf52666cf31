(* C177 settings from the command line, C178 configurations in files. *)
From Coq Require Import String Ascii.
From Verif Require Import Lib.Base Lib.Str Model.Config Model.ConfLoad Props.PropsConfig.

(* ---------------- C177 ---------------- *)
(* the setting name=expr *)
Definition setting (name expr : string) : string := String.append name (String "="%char expr).
Fixpoint equals (s : string) : nat :=                                  (* number of "=" *)
  match s with EmptyString => 0 | String c r => (if Ascii.eqb c "="%char then 1 else 0) + equals r end.
Lemma split_length s : length (split_eq s) = S (equals s).
Proof.
  induction s as [|c s IH]; cbn; auto. destruct (split_eq s) as [|w ws]; [discriminate|].
  destruct (Ascii.eqb c "="%char); cbn in *; lia.
Qed.
Lemma split_none s : equals s = 0 -> split_eq s = [s].
Proof.
  induction s as [|c s IH]; cbn; auto. destruct (Ascii.eqb c "="%char); [discriminate|]. intros H. now rewrite (IH H).
Qed.
Lemma split_setting name expr : equals name = 0 -> equals expr = 0 -> split_eq (setting name expr) = [name; expr].
Proof.
  intros N X. unfold setting. induction name as [|c name IH]; cbn.
  - now rewrite (split_none expr X).
  - cbn in N. destruct (Ascii.eqb c "="%char); [discriminate|]. now rewrite (IH N).
Qed.
Lemma equals_app a b : equals (String.append a b) = equals a + equals b.
Proof. induction a as [|c a IH]; cbn; auto. rewrite IH. lia. Qed.

(* well-formed settings: no further "=" and an expression that can be evaluated *)
Definition fine (eval : string -> res val) (x : string * string * val) : Prop :=
  equals (fst (fst x)) = 0 /\ equals (snd (fst x)) = 0 /\ eval (snd (fst x)) = Ok (snd x).
Definition args_of (xs : list (string * string * val)) : list string := map (fun x => setting (fst (fst x)) (snd (fst x))) xs.
Definition values_of (xs : list (string * string * val)) : list (string * val) := map (fun x => (fst (fst x), snd x)) xs.
Lemma parse_fine eval xs more : Forall (fine eval) xs -> forall d,
  parse_confs eval (args_of xs ++ more) d = parse_confs eval more (fold_left (fun acc kv => dset (fst kv) (snd kv) acc) (values_of xs) d).
Proof.
  induction 1 as [|[[n e] v] xs (H1 & H2 & H3) F IH]; intros d; [reflexivity|]. cbn [args_of map app parse_confs values_of fold_left] in *.
  cbn [fst snd] in *. rewrite split_setting by assumption. rewrite H3. cbn [bind]. apply IH.
Qed.
Lemma assigned_fold l : forall k, dget k (fold_left (fun acc kv => dset (fst kv) (snd kv) acc) l []) = assigned l k.
Proof. intros k. rewrite fold_assigned. cbn. now destruct (assigned l k). Qed.
Lemma NoDup_fold (l : list (string * val)) : forall d, NoDup (dkeys d) -> NoDup (dkeys (fold_left (fun acc kv => dset (fst kv) (snd kv) acc) l d)).
Proof. induction l as [|[k v] l IH]; intros d N; cbn; auto. apply IH. now apply NoDup_dset. Qed.
Lemma dget_rev_NoDup {V} (d : list (string * V)) k : NoDup (dkeys d) -> dget k (rev d) = dget k d.
Proof.
  intros N. destruct (dget k d) as [v|] eqn:E.
  - apply dget_In.
    + unfold dkeys. rewrite map_rev. apply NoDup_rev. exact N.
    + apply -> in_rev. now apply dget_Some_In.
  - apply dget_None. apply dget_None in E. unfold dkeys in *. rewrite map_rev. intros I. apply E. now apply in_rev.
Qed.

(* All settings are merged into the given configuration, the last one of several settings of a name counts, everything
   else is kept. *)
Theorem C177_partial : forall eval xs data const cl, Forall (fine eval) xs ->
  (forall x, In x xs -> ordinary (fst (fst x)) /\ ~ In (fst (fst x)) const) ->
  exists data', load_config_cmd eval (Some (args_of xs)) (Some (CConf data const cl)) = Ok (CConf data' const cl) /\
    forall k, dget k data' = match assigned (values_of xs) k with Some v => Some v | None => dget k data end.
Proof.
  intros eval xs data const cl F O. unfold load_config_cmd. rewrite <- (app_nil_r (args_of xs)), (parse_fine eval xs [] F).
  cbn [parse_confs bind base_of]. set (d := fold_left _ (values_of xs) []).
  assert (ND : NoDup (dkeys d)) by (apply NoDup_fold; constructor).
  assert (A : forall k, dget k d = assigned (values_of xs) k) by apply assigned_fold.
  destruct (C64_merge data const cl d) as (data' & E & G).
  - intros k v I. assert (K : assigned (values_of xs) k = Some v) by (rewrite <- A; now apply dget_In).
    unfold assigned in K. apply dget_Some_In, in_rev in K. unfold values_of in K. apply in_map_iff in K as (x & [= <- <-] & I'). now apply O.
  - exists data'. split; [exact E|]. intros k. rewrite G. unfold assigned at 1. rewrite dget_rev_NoDup by exact ND. now rewrite A.
Qed.
Print Assumptions C177_partial.
(* without any setting the configuration is returned unchanged, a new one if none is given *)
Theorem C177_none : forall eval c, load_config_cmd eval None (Some c) = Ok c /\ load_config_cmd eval None None = Ok (CConf [] [] false)
  /\ load_config_cmd eval (Some []) (Some c) = Ok c.
Proof. intros eval c. unfold load_config_cmd. cbn. now destruct c. Qed.
Print Assumptions C177_none.
(* A setting whose expression (or name) contains another "=", as in flags="a=b" or test=x==y or f=dict(a=1), or one
   without any "=", makes the whole call fail. *)
Theorem C177_refuted : forall eval xs s more merge_conf, Forall (fine eval) xs -> equals s <> 1 ->
  load_config_cmd eval (Some (args_of xs ++ s :: more)) merge_conf = Err EValue.
Proof.
  intros eval xs s more m F N. unfold load_config_cmd. rewrite (parse_fine eval xs (s :: more) F). cbn [parse_confs].
  pose proof (split_length s) as L. destruct (split_eq s) as [|a [|b [|c r]]]; cbn in L; try reflexivity. exfalso. apply N. lia.
Qed.
Print Assumptions C177_refuted.
Theorem C177_equals_refuted : forall eval name expr merge_conf, equals expr <> 0 ->
  load_config_cmd eval (Some [setting name expr]) merge_conf = Err EValue.
Proof.
  intros eval name expr m N. apply (C177_refuted eval [] (setting name expr) [] m); [constructor|].
  unfold setting. rewrite equals_app. cbn. lia.
Qed.
Print Assumptions C177_equals_refuted.
Definition ex_eval (s : string) : res val := if eqb s "3"%string then Ok (VOther 3) else if eqb s "5"%string then Ok (VOther 5) else Err EOther.
Example C177_nonvacuous :
  load_config_cmd ex_eval (Some ["a=3"; "b=5"; "a=5"]%string) (Some (CConf [("c", VOther 1); ("b", VNone)]%string [] false))
    = Ok (CConf [("c", VOther 1); ("b", VOther 5); ("a", VOther 5)]%string [] false)
  /\ load_config_cmd ex_eval (Some ["a=3"; "b=dict(x=5)"]%string) None = Err EValue.
Proof. split; reflexivity. Qed.

(* ---------------- C178 ---------------- *)
(* what is found in a nested value by following keys: another dictionary, or a leaf *)
Inductive leaf := LDict | LVal (v : val).
Fixpoint look (path : list string) (v : val) : option leaf :=
  match path, v with
  | [], VDict _ => Some LDict
  | [], _ => Some (LVal v)
  | k :: r, VDict d => match dget k d with Some v' => look r v' | None => None end
  | _ :: _, _ => None
  end.
(* json can write a value: it contains no attribute and no other object that json refuses, at any depth *)
Inductive inside (x : val) : val -> Prop :=
| In_self : inside x x
| In_dict k v d : In (k, v) d -> inside x v -> inside x (VDict d).
Definition writable (plain : nat -> bool) (v : val) : Prop :=
  ~ inside VAttr v /\ forall n, inside (VOther n) v -> plain n = true.
Lemma jsonable_spec plain : forall v, jsonable plain v = true <-> writable plain v.
Proof.
  unfold writable. fix IH 1. intros v. destruct v as [|d|n|].
  - cbn. split; auto. intros _. split; [|intros n]; intros I; inversion I.
  - cbn [jsonable].
    assert (Forall (fun kv => jsonable plain (snd kv) = true <-> ~ inside VAttr (snd kv) /\ forall n, inside (VOther n) (snd kv) -> plain n = true) d) as A.
    { induction d as [|[k v] d IHd]; constructor; [apply (IH v)|exact IHd]. }
    rewrite Forall_forall in A. rewrite forallb_forall. split.
    + intros B. split; [|intros n]; intros I; inversion I as [|k v d' J K]; subst.
      * exact (proj1 (proj1 (A (k, v) J) (B (k, v) J)) K).
      * exact (proj2 (proj1 (A (k, v) J) (B (k, v) J)) n K).
    + intros [B C] [k v] J. apply (A (k, v) J). split; [intros I; apply B|intros n I; apply (C n)]; econstructor; eauto.
  - cbn. split.
    + intros E. split; [|intros m]; intros I; inversion I; subst; auto.
    + intros [_ C]. apply C. constructor.
  - cbn. split; [discriminate|]. intros [B _]. exfalso. apply B. constructor.
Qed.
Lemma keq_sym (a b : string) : eqb a b = eqb b a.
Proof. destruct (eqb_spec a b), (eqb_spec b a); congruence. Qed.
Lemma insert_get k kv l : dget k (insert kv l) = if eqb (fst kv) k then Some (snd kv) else dget k l.
Proof.
  destruct kv as [k1 v1]. cbn [fst snd]. induction l as [|[k2 v2] l IH].
  - cbn [insert dget]. rewrite (keq_sym k k1). now destruct (eqb k1 k).
  - cbn [insert fst]. destruct (eqb_spec k1 k2) as [->|N]; cbn [orb].
    + cbn [dget]. rewrite (keq_sym k k2). destruct (eqb k2 k); auto.
    + destruct (String.leb k1 k2); [cbn [dget]; rewrite (keq_sym k k1); now destruct (eqb k1 k)|].
      cbn [dget]. rewrite IH. destruct (eqb_spec k k2) as [->|N2]; [|reflexivity].
      destruct (eqb_spec k1 k2); [contradiction|reflexivity].
Qed.
Lemma sort_get k l : dget k (sort l) = dget k l.
Proof.
  induction l as [|[k1 v1] l IH]; [reflexivity|]. cbn [sort fold_right]. fold (sort l). rewrite insert_get, IH. cbn [fst snd dget].
  rewrite (keq_sym k1 k). reflexivity.
Qed.
Lemma map_get (f : val -> val) k (d : list (string * val)) : dget k (map (fun kv => (fst kv, f (snd kv))) d) = option_map f (dget k d).
Proof. induction d as [|[k1 v1] d IH]; cbn [map dget fst snd]; [reflexivity|]. destruct (eqb k k1); auto. Qed.
Lemma look_sort path : forall v, look path (sort_val v) = look path v.
Proof.
  induction path as [|k path IH]; intros v; destruct v; cbn [sort_val look]; auto.
  rewrite sort_get, map_get. destruct (dget k d) as [v|]; cbn [option_map]; auto.
Qed.
Lemma insert_In x kv l : In x (insert kv l) <-> x = kv \/ In x l.
Proof.
  induction l as [|y l IH]; cbn [insert]; [cbn; intuition|]. destruct (eqb (fst kv) (fst y) || String.leb (fst kv) (fst y))%bool.
  - cbn. intuition.
  - cbn. rewrite IH. intuition.
Qed.
Lemma sort_In x l : In x (sort l) <-> In x l.
Proof. induction l as [|y l IH]; cbn [sort fold_right]; [reflexivity|]. fold (sort l). rewrite insert_In, IH. cbn. intuition. Qed.
Lemma sort_keys_In k l : In k (dkeys (sort l)) <-> In k (dkeys l).
Proof. unfold dkeys. rewrite !in_map_iff. split; intros (x & E & I); exists x; (split; [exact E|]); now apply sort_In. Qed.
Lemma insert_NoDup kv l : ~ In (fst kv) (dkeys l) -> NoDup (dkeys l) -> NoDup (dkeys (insert kv l)).
Proof.
  intros N D. induction l as [|y l IH]; cbn [insert]; [constructor; [tauto|constructor]|].
  destruct (eqb (fst kv) (fst y) || String.leb (fst kv) (fst y))%bool; [constructor; auto|].
  cbn in *. inversion D as [|? ? N1 D1]; subst. constructor.
  - intros I. unfold dkeys in I. apply in_map_iff in I as (x & E & I). apply insert_In in I as [->|I]; [apply N; auto|].
    apply N1. rewrite <- E. now apply in_map.
  - apply IH; tauto.
Qed.
Lemma sort_NoDup l : NoDup (dkeys l) -> NoDup (dkeys (sort l)).
Proof.
  induction l as [|y l IH]; intros D; [constructor|]. cbn [sort fold_right]. fold (sort l). inversion D; subst.
  apply insert_NoDup; [now rewrite sort_keys_In|auto].
Qed.

(* Saving and loading restores every setting, at every depth; another configuration given to load keeps its other
   settings. *)
Definition look_conf (path : list string) (c : conf) : option leaf :=
  match path, c with
  | k :: r, CConf data _ _ => match dget k data with Some v => look r v | None => None end
  | _, _ => None
  end.
Theorem C178_partial : forall plain data const cl path fs mdata mconst mcl,
  NoDup (dkeys data) -> (forall k v, In (k, v) data -> ordinary k /\ ~ In k mconst /\ writable plain v) ->
  exists fs' c', save_config plain (CConf data const cl) path fs = (fs', Ok tt) /\
    load_config_file path (Some (CConf mdata mconst mcl)) fs' = Ok c' /\
    (forall other, other <> path -> dget other fs' = dget other fs) /\
    forall k r, look_conf (k :: r) c' = if dmem k data then look_conf (k :: r) (CConf data const cl) else look_conf (k :: r) (CConf mdata mconst mcl).
Proof.
  intros plain data const cl path fs mdata mconst mcl ND H. cbn [save_config].
  replace (forallb (fun kv => jsonable plain (snd kv)) data) with true.
  2:{ symmetry. apply forallb_forall. intros [k v] I. apply jsonable_spec. now apply (H k v). }
  set (f := fun kv : string * val => (fst kv, sort_val (snd kv))). set (d := sort (map f data)).
  assert (Kf : dkeys (map f data) = dkeys data) by (unfold dkeys; rewrite map_map; reflexivity).
  assert (Nd : NoDup (dkeys d)) by (apply sort_NoDup; now rewrite Kf).
  destruct (C64_merge mdata mconst mcl d) as (data' & E & G).
  { intros k v I. apply sort_In, in_map_iff in I as ([k' v'] & [= <- <-] & I). destruct (H k' v' I) as (A & B & _). auto. }
  eexists. exists (CConf data' mconst mcl). split; [reflexivity|]. unfold load_config_file. rewrite dget_dset_same. cbn [base_of].
  split; [exact E|]. split; [intros o N; apply dget_dset_other; congruence|].
  intros k r. cbn [look_conf]. rewrite G. unfold assigned. rewrite dget_rev_NoDup by exact Nd. unfold d. rewrite sort_get. unfold f.
  rewrite map_get. unfold dmem. destruct (dget k data) as [v|]; cbn [option_map]; [apply look_sort|reflexivity].
Qed.
Print Assumptions C178_partial.

Lemma set_all_app c a b : set_all c (a ++ b) = match set_all c a with (c', Ok _) => set_all c' b | r => r end.
Proof.
  revert c. induction a as [|[k v] a IH]; intros c; cbn [app set_all]; [reflexivity|].
  destruct (set_item c k v) as [c' [u|e]]; auto.
Qed.
(* A configuration made with a key that is also the name of an attribute (get, attr or const_attrs), or that begins with
   two underscores, can be saved but not loaded. *)
Definition unloadable (k : string) (e : err) : Prop :=
  (In k ["get"; "attr"; "const_attrs"]%string /\ e = ERuntime) \/ (dunder k = true /\ e = EAssert).
Theorem C178_keys_refuted : forall plain data const cl path fs k v e,
  NoDup (dkeys data) -> In (k, v) data -> unloadable k e ->
  (forall k' v', In (k', v') data -> (k' <> k -> ordinary k') /\ writable plain v') ->
  exists fs', save_config plain (CConf data const cl) path fs = (fs', Ok tt) /\ load_config_file path None fs' = Err e.
Proof.
  intros plain data const cl path fs k v e ND I U H. cbn [save_config].
  replace (forallb (fun kv => jsonable plain (snd kv)) data) with true.
  2:{ symmetry. apply forallb_forall. intros [k' v'] I'. apply jsonable_spec. now apply (H k' v'). }
  eexists. split; [reflexivity|]. unfold load_config_file. rewrite dget_dset_same. cbn [base_of merge_config].
  set (f := fun kv : string * val => (fst kv, sort_val (snd kv))). set (d := sort (map f data)).
  assert (Kf : dkeys (map f data) = dkeys data) by (unfold dkeys; rewrite map_map; reflexivity).
  assert (Nd : NoDup (dkeys d)) by (apply sort_NoDup; now rewrite Kf).
  assert (Id : In (k, sort_val v) d) by (apply sort_In; apply in_map_iff; exists (k, v); auto).
  apply in_split in Id as (a & b & Ed). rewrite Ed in *.
  assert (Oa : forall k' v', In (k', v') a -> ordinary k' /\ ~ In k' []).
  { intros k' v' Ia. split; [|auto]. assert (I' : In (k', v') d) by (rewrite Ed; apply in_or_app; auto).
    apply sort_In, in_map_iff in I' as ([k2 v2] & [= <- <-] & I'). apply (H k2 v2 I'). intros ->.
    unfold dkeys in Nd. rewrite map_app in Nd. cbn in Nd. apply NoDup_remove_2 in Nd. apply Nd. apply in_or_app. left.
    change k with (fst (k, sort_val v2)). now apply in_map. }
  rewrite set_all_app. unfold empty_config. rewrite set_all_data by exact Oa. cbn [set_all].
  destruct U as [[K ->]|[K ->]].
  - cbn in K. destruct K as [<-|[<-|[<-|[]]]]; reflexivity.
  - cbn [set_item]. now rewrite K.
Qed.
Print Assumptions C178_keys_refuted.
(* Saving a value that json cannot write fails, but the old file is gone and what is left cannot be loaded. *)
Theorem C178_destroyed_refuted : forall plain data const cl path fs k v m,
  In (k, v) data -> ~ writable plain v ->
  exists fs', save_config plain (CConf data const cl) path fs = (fs', Err EType) /\ load_config_file path m fs' = Err EValue.
Proof.
  intros plain data const cl path fs k v m I J. cbn [save_config].
  replace (forallb (fun kv => jsonable plain (snd kv)) data) with false.
  2:{ symmetry. apply Bool.not_true_is_false. intros F. rewrite forallb_forall in F. specialize (F (k, v) I). apply jsonable_spec in F. now apply J. }
  eexists. split; [reflexivity|]. unfold load_config_file. now rewrite dget_dset_same.
Qed.
Print Assumptions C178_destroyed_refuted.
(* The same happens for a plain dictionary instead of a Config. *)
Theorem C178_dict_refuted : forall plain d path fs m,
  exists fs', save_config plain (CDict d) path fs = (fs', Err EAttr) /\ load_config_file path m fs' = Err EValue.
Proof. intros plain d path fs m. eexists. split; [reflexivity|]. unfold load_config_file. now rewrite dget_dset_same. Qed.
Print Assumptions C178_dict_refuted.
(* reading what was never written: FileNotFoundError, whatever is merged *)
Theorem C178_missing : forall plain c path other m fs fs' r, dget other fs = None -> other <> path ->
  save_config plain c path fs = (fs', r) -> load_config_file other m fs' = Err EOther.
Proof.
  intros plain c path other m fs fs' r N D E. unfold load_config_file. replace (dget other fs') with (dget other fs); [now rewrite N|].
  unfold save_config in E. destruct c as [d|data const cl]; [|destruct (forallb _ data)]; injection E as <- _; now rewrite dget_dset_other by auto.
Qed.
Print Assumptions C178_missing.
Definition ex_conf : conf := CConf [("b", VOther 2); ("a", VDict [("z", VNone); ("y", VOther 7)])]%string [] false.
Example C178_nonvacuous :
  let '(fs, r) := save_config (fun _ => true) ex_conf "f" [("f", Torn)]%string in
  r = Ok tt /\ load_config_file "f" None fs = Ok (CConf [("a", VDict [("y", VOther 7); ("z", VNone)]); ("b", VOther 2)]%string [] false)
  /\ look_conf ["a"; "y"]%string ex_conf = Some (LVal (VOther 7))
  /\ fst (save_config (fun n => negb (n =? 7)) ex_conf "f"%string fs) = [("f"%string, Torn)].
Proof. cbn. auto. Qed.
