(* C43 version selection when loading models, C59 save / load round trip. *)
From Coq Require Import Ascii.
From Verif Require Import Lib.Base Model.LoadSave Spec.LoadSaveSpec Proofs.LoadSaveProofs.

(* [stored d n v]: the directory holds a file with version v of network n *)
Definition stored {C} (d : list (list ascii * option C)) (n : list ascii) (v : nat) : Prop :=
  exists ds, In (model_file n ds) (map fst d) /\ reads ds v.
(* the content of the file "n_v.pt" *)
Definition content {C} (d : list (list ascii * option C)) (n : list ascii) (v : nat) (c : C) : Prop :=
  exists ds, plain ds /\ reads ds v /\ dget (model_file n ds) d = Some (Some c).

Lemma have_stored {C} (d : dir C) mm : (forall n r, In (n, r) mm -> good_name n) -> forall v,
  have d mm v <-> forall n r, In (n, r) mm -> stored d n v.
Proof.
  intros G v. unfold have, stored. split; intros H n r I.
  - apply (proj1 (versions_spec d n v)). eauto.
  - apply versions_spec. split; eauto.
Qed.

(* Version numbers without superfluous leading zeros, readable files, network names made of
   letters, digits, "_" and "-". Missing: other directories and names, see the theorems below. *)
Theorem C43_partial : forall C (d : list (list ascii * option C)) mm version quiet (st : store C),
  mm <> [] -> NoDup (map snd mm) ->
  (forall n r, In (n, r) mm -> good_name n) ->
  (forall n r ds v, In (n, r) mm -> In (model_file n ds) (map fst d) -> reads ds v ->
     plain ds /\ exists c, dget (model_file n ds) d = Some (Some c)) ->
  let all v := forall n r, In (n, r) mm -> stored d n v in
  let chosen v :=
    (version = Some (Z.of_nat v) /\ all v) \/
    ((forall v', version = Some (Z.of_nat v') -> ~ all v') /\ all v /\ forall v', all v' -> v' <= v) in
  (forall v, chosen v -> exists st',
     prep_load_model (Some d) mm version quiet st = (st', Ok tt) /\
     (forall n r, In (n, r) mm -> exists c, content d n v c /\ dget r st' = Some c) /\
     (forall r, ~ In r (map snd mm) -> dget r st' = dget r st)) /\
  ((forall v, ~ all v) ->
     prep_load_model (Some d) mm version quiet st = (st, if quiet then Ok tt else Err ERuntime)).
Proof.
  intros C d mm version quiet st Hm ND G P all chosen.
  pose proof (have_stored d mm G) as HS. fold (all) in HS.
  destruct (@prep_cases C d mm version quiet st Hm) as [A B].
  set (ask := match version with Some z => if (0 <=? z)%Z then Some (Z.to_nat z) else None | None => None end) in *.
  assert (Ask : forall v, ask = Some v <-> version = Some (Z.of_nat v)).
  { intros v. unfold ask. destruct version as [z|]; [|split; discriminate]. destruct (Z.leb_spec 0 z).
    - split; intros [= E]; f_equal; lia.
    - split; [discriminate|]. intros [= E]. lia. }
  assert (L : forall v, all v -> exists st', load_all d (show v) mm st = (st', Ok tt) /\
     (forall n r, In (n, r) mm -> exists c, content d n v c /\ dget r st' = Some c) /\
     (forall r, ~ In r (map snd mm) -> dget r st' = dget r st)).
  { intros v Hv.
    assert (F : forall n r, In (n, r) mm -> exists c, dget (file n (show v)) d = Some (Some c)).
    { intros n r I. destruct (Hv n r I) as (ds & Ids & R). destruct (P n r ds v I Ids R) as (Pl & c & E).
      rewrite (show_reads R Pl). exists c. exact E. }
    destruct (load_all_ok d (show v) mm st F ND) as (st' & E1 & E2 & E3). exists st'. split; auto. split; auto.
    intros n r I. destruct (F n r I) as (c & E). exists c. split; [|eapply E2; eauto].
    exists (show v). split; [apply plain_show|]. split; [apply reads_show|exact E]. }
  split.
  - intros v [[E Hv]|(N & Hv & Mx)].
    + destruct (L v Hv) as (st' & L1 & L2). exists st'. split; [|exact L2].
      exact (eq_trans (A v (proj2 (Ask v) E) (proj2 (HS v) Hv)) L1).
    + assert (N' : forall v, ask = Some v -> ~ have d mm v) by (intros v' Ev Hv'; apply (N v'); [now apply Ask|exact (proj1 (HS v') Hv')]).
      destruct (B N') as [B1 _]. destruct (L v Hv) as (st' & L1 & L2). exists st'. split; [|exact L2].
      exact (eq_trans (B1 v (proj2 (HS v) Hv) (fun v' Hv' => Mx v' (proj1 (HS v') Hv'))) L1).
  - intros N. assert (N' : forall v, ~ have d mm v) by (intros v Hv; exact (N v (proj1 (HS v) Hv))).
    destruct (B (fun v _ => N' v)) as [_ B2]. auto.
Qed.
Print Assumptions C43_partial.

(* Without any assumption on the directory: a load that returns has restored all networks from one
   and the same version, or has changed nothing. *)
Theorem C43_one_version : forall C (d : list (list ascii * option C)) mm version quiet (st st' : store C),
  mm <> [] -> NoDup (map snd mm) ->
  prep_load_model (Some d) mm version quiet st = (st', Ok tt) ->
  (st' = st /\ quiet = true) \/
  exists v, forall n r, In (n, r) mm -> exists c, content d n v c /\ dget r st' = Some c.
Proof.
  intros C d mm version quiet st st' Hm ND E.
  assert (L : forall v, load_all d (show v) mm st = (st', Ok tt) ->
     exists v, forall n r, In (n, r) mm -> exists c, content d n v c /\ dget r st' = Some c).
  { intros v Hl. exists v. intros n r I.
    destruct (load_all_ok d (show v) mm st (load_all_sound _ _ _ _ Hl) ND) as (st2 & E1 & E2 & _).
    rewrite E1 in Hl. injection Hl as ->. destruct (load_all_sound _ _ _ _ E1 _ _ I) as (c & Ec).
    exists c. split; [|eapply E2; eauto]. exists (show v). split; [apply plain_show|]. split; [apply reads_show|exact Ec]. }
  assert (A : auto_find d mm quiet st = (st', Ok tt) -> (st' = st /\ quiet = true) \/
     exists v, forall n r, In (n, r) mm -> exists c, content d n v c /\ dget r st' = Some c).
  { unfold auto_find. destruct (common d mm) as [[|v vs]|]; [|eauto|discriminate].
    destruct quiet; [|discriminate]. intros [= ->]. auto. }
  unfold prep_load_model in E. destruct version as [z|]; auto.
  destruct (forallb _ mm) eqn:F; auto.
  destruct mm as [|nr mm]; [congruence|]. cbn in F. destruct (Z.leb_spec 0 z); [|discriminate].
  unfold show_z in E. destruct (Z.ltb_spec z 0); [lia|]. eauto.
Qed.
Print Assumptions C43_one_version.

Section Witness.
  Local Open Scope char_scope.
  Let pt : list ascii := ["."; "p"; "t"].
  (* "b_7.pt" and "a_07.pt" both count as version 7, but only "a_7.pt" is tried: network b has been
     restored from version 7 when the load fails, and network a is left as it was, although version 1
     exists for both *)
  Theorem C43_leading_zero_refuted : exists (d : list (list ascii * option nat)) mm st,
    (forall n r, In (n, r) mm -> stored d n 1) /\
    prep_load_model (Some d) mm None false st = ([(["b"], 72); (["a"], 0)], Err EOther) /\ st = [(["b"], 0); (["a"], 0)].
  Proof.
    exists [(["b"; "_"; "1"] ++ pt, Some 12); (["a"; "_"; "1"] ++ pt, Some 11);
            (["b"; "_"; "7"] ++ pt, Some 72); (["a"; "_"; "0"; "7"] ++ pt, Some 71)],
           [(["b"], ["b"]); (["a"], ["a"])], [(["b"], 0); (["a"], 0)].
    split; [|split; [vm_compute; reflexivity|reflexivity]].
    intros n r [[= <- <-]|[[= <- <-]|[]]]; exists ["1"]; (split; [cbn; auto|now constructor]).
  Qed.
End Witness.
Print Assumptions C43_leading_zero_refuted.
(* files of a network whose name has another character are never found *)
Theorem C43_name_refuted : forall C (d : list (list ascii * option C)) n r version quiet (st : store C),
  ~ good_name n ->
  prep_load_model (Some d) [(n, r)] version quiet st = (st, if quiet then Ok tt else Err ERuntime).
Proof.
  intros C d n r version quiet st N.
  assert (V : forall v, ~ have d [(n, r)] v).
  { intros v H. specialize (H n r (or_introl eq_refl)). apply versions_spec in H as [G _]. auto. }
  destruct (@prep_cases C d [(n, r)] version quiet st) as [_ B]; [discriminate|].
  destruct (B (fun v _ => V v)) as [_ B2]. auto.
Qed.
Print Assumptions C43_name_refuted.
Section Ex43.
  Local Open Scope char_scope.
  Let pt : list ascii := ["."; "p"; "t"].
  Let d : list (list ascii * option nat) :=
    [(["a"; "_"; "2"] ++ pt, Some 2); (["a"; "_"; "1"; "0"] ++ pt, Some 10); (["a"; "_"; "b"; "_"; "1"; "0"] ++ pt, Some 11);
     (["a"; "_"; "3"] ++ pt, Some 3); (["n"; "o"; "t"; "e"], None); (["a"; "_"; "b"; "_"; "2"] ++ pt, Some 20)].
  Let mm : list (list ascii * list ascii) := [(["a"], ["x"]); (["a"; "_"; "b"], ["y"])].
  Example C43_nonvacuous :
    (prep_load_model (Some d) mm (Some 2%Z) false [], prep_load_model (Some d) mm (Some 3%Z) false [],
     prep_load_model (Some d) [(["q"], ["q"])] None false [], prep_load_model (Some d) [(["q"], ["q"])] None true []) =
    (([(["x"], 2); (["y"], 20)], Ok tt), ([(["x"], 10); (["y"], 11)], Ok tt), ([], Err ERuntime), ([], Ok tt)).
  Proof. vm_compute. reflexivity. Qed.
End Ex43.

(* C59 *)
Lemma restore_map_fresh network_map restorable acc :
  NoDup (map (saved_name network_map) restorable) ->
  (forall r, In r restorable -> ~ In (saved_name network_map r) (dkeys acc)) ->
  fold_left (fun m r => dset (saved_name network_map r) r m) restorable acc =
  acc ++ map (fun r => (saved_name network_map r, r)) restorable.
Proof.
  revert acc. induction restorable as [|r rs IH]; intros acc ND H; cbn; [now rewrite app_nil_r|].
  inversion ND as [|? ? N1 N2]; subst. rewrite (dset_new (saved_name network_map r)) by (apply H; left; auto).
  rewrite IH; [now rewrite <- app_assoc|auto|].
  intros r' I'. unfold dkeys. rewrite map_app. cbn. intros I. apply in_app_or in I as [I|[E|[]]].
  - apply (H r' (or_intror I') I).
  - apply N1. rewrite E. apply in_map. auto.
Qed.
Lemma model_file_inj n n' ds : model_file n ds = model_file n' ds -> n = n'.
Proof. unfold model_file. apply app_inv_tail. Qed.
Lemma fw_save_ok {C} (st : store C) nm version restorable d :
  (forall r, In r restorable -> exists c, dget r st = Some c) ->
  NoDup (map (saved_name nm) restorable) ->
  exists d', fw_save restorable d nm version st = (d', Ok tt) /\
    (forall r c, In r restorable -> dget r st = Some c -> dget (model_file (saved_name nm r) (version_text version)) d' = Some (Some c)) /\
    (forall m, (forall r, In r restorable -> m <> model_file (saved_name nm r) (version_text version)) -> dget m d' = dget m d).
Proof.
  revert d. induction restorable as [|r rs IH]; intros d H ND; cbn [fw_save].
  - exists d. split; auto. split; auto. intros r c [].
  - destruct (H r (or_introl eq_refl)) as (c & E). rewrite E. inversion ND as [|? ? N1 N2]; subst.
    destruct (IH (dset (file (saved_name nm r) (version_text version)) (Some c) d) (fun r' I => H r' (or_intror I)) N2) as (d' & E1 & E2 & E3).
    exists d'. split; auto. split.
    + intros r' c' [<-|I] Hc; [|auto]. rewrite E3.
      * change (file (saved_name nm r) (version_text version)) with (model_file (saved_name nm r) (version_text version)). rewrite dget_dset_same. congruence.
      * intros r' I' M. apply model_file_inj in M. apply N1. rewrite M. now apply in_map.
    + intros m Hm. rewrite E3 by (intros; apply Hm; right; auto). apply dget_dset_other.
      intros M. apply (Hm r (or_introl eq_refl)). symmetry. exact M.
Qed.

(* save(version = v), v >= 0, followed by load(version = v) into any framework with the same
   restorable modules gives every module its saved content; nothing else in the directory changes.
   Missing: negative versions, names with other characters, several modules under one name. *)
Theorem C59_round_trip_partial : forall C restorable network_map (d : list (list ascii * option C)) v (st st2 : store C),
  restorable <> [] ->
  (forall r, In r restorable -> exists c, dget r st = Some c) ->
  NoDup (map (saved_name network_map) restorable) ->
  (forall r, In r restorable -> good_name (saved_name network_map r)) ->
  exists d' st', fw_save restorable d network_map (Z.of_nat v) st = (d', Ok tt) /\
    fw_load restorable (Some d') network_map (Z.of_nat v) st2 = (st', Ok tt) /\
    (forall r, In r restorable -> dget r st' = dget r st) /\
    (forall r, ~ In r restorable -> dget r st' = dget r st2) /\
    (forall m, (forall r, In r restorable -> m <> model_file (saved_name network_map r) (show v)) -> dget m d' = dget m d).
Proof.
  intros C rs nm d v st st2 Hne H ND G.
  assert (Tv : version_text (Z.of_nat v) = show v).
  { unfold version_text, show_z. destruct (Z.eqb_spec (Z.of_nat v) (-1)); [lia|]. destruct (Z.ltb_spec (Z.of_nat v) 0); [lia|]. now rewrite Nat2Z.id. }
  destruct (fw_save_ok st nm (Z.of_nat v) rs d H ND) as (d' & E1 & E2 & E3). rewrite Tv in *.
  assert (M : restore_map nm rs = map (fun r => (saved_name nm r, r)) rs).
  { unfold restore_map. rewrite restore_map_fresh; auto. }
  assert (Hv : have d' (restore_map nm rs) v).
  { rewrite M. intros n r I. apply in_map_iff in I as (r' & [= <- <-] & I). destruct (H r' I) as (c & Ec).
    apply versions_spec. split; [auto|]. exists (show v). split; [|apply reads_show].
    apply dmem_true. unfold dmem. now rewrite (E2 r' c I Ec). }
  destruct (@prep_cases C d' (restore_map nm rs) (Some (Z.of_nat v)) false st2) as [A _].
  { rewrite M. destruct rs; [congruence|discriminate]. }
  destruct (@load_all_ok C d' (show v) (restore_map nm rs) st2) as (st' & L1 & L2 & L3).
  { rewrite M. intros n r I. apply in_map_iff in I as (r' & [= <- <-] & I). destruct (H r' I) as (c & Ec).
    exists c. now apply E2. }
  { rewrite M, map_map. cbn. rewrite map_id. eapply NoDup_map_inv; eauto. }
  exists d', st'. split; [exact E1|]. split.
  { unfold fw_load. rewrite (A v); auto. destruct (Z.leb_spec 0 (Z.of_nat v)); [now rewrite Nat2Z.id|lia]. }
  split; [|split; [|exact E3]].
  - intros r I. destruct (H r I) as (c & Ec). rewrite Ec. eapply L2; [|apply E2; eauto]. rewrite M. apply in_map_iff. eauto.
  - intros r N. apply L3. rewrite M, map_map. cbn. now rewrite map_id.
Qed.
Print Assumptions C59_round_trip_partial.

Lemma neg_file_no_match n z : (z < 0)%Z -> fullmatch (model_file n (version_text z)) = None.
Proof.
  intros Hz. destruct (fullmatch (model_file n (version_text z))) as [[n' v]|] eqn:E; auto. exfalso.
  apply fullmatch_spec in E as (_ & ds & M & R). apply reads_int in R as (Hd & F & _).
  unfold model_file in M. rewrite !app_assoc in M. apply app_inv_tail in M.
  unfold version_text, show_z in M. destruct (Z.eqb_spec z (-1)).
  - (* "default" *)
    destruct ds as [|c ds] using rev_ind; [congruence|]. rewrite !app_assoc in M.
    change ["d"; "e"; "f"; "a"; "u"; "l"; "t"]%char with (["d"; "e"; "f"; "a"; "u"; "l"]%char ++ ["t"%char]) in M.
    rewrite !app_assoc in M. apply app_inj_tail in M as [_ <-]. apply Forall_app in F as [_ F]. inversion F; subst. discriminate.
  - destruct (Z.ltb_spec z 0); [|lia]. clear Hz.
    assert (S : Forall (fun c => is_digit c = true) (show (Z.to_nat (- z)))) by apply of_dec_digits.
    revert M S. generalize (show (Z.to_nat (- z))). clear -F. intros s M S.
    rewrite <- !app_assoc in M. cbn [app] in M.
    apply (f_equal (@rev _)) in M. rewrite !rev_app_distr in M. cbn [rev] in M. rewrite <- !app_assoc in M. cbn [app] in M.
    assert (S1 := @span_unique (rev s) "-"%char ("_"%char :: rev n) (Forall_rev S) eq_refl).
    assert (S2 := @span_unique (rev ds) "_"%char (rev n') (Forall_rev F) eq_refl).
    rewrite M in S1. rewrite S2 in S1. injection S1 as _ X _. discriminate.
Qed.
(* save(version = -1), or any other negative version, writes files that load never finds: saving into
   an empty directory and loading with the same arguments raises *)
Theorem C59_default_version_refuted : forall C restorable network_map z (st st2 : store C) d',
  (z < 0)%Z -> restorable <> [] ->
  fw_save restorable [] network_map z st = (d', Ok tt) ->
  fw_load restorable (Some d') network_map z st2 = (st2, Err ERuntime) /\
  d' <> [].
Proof.
  intros C rs nm z st st2 d' Hz Hne E.
  assert (K : forall rs (d : dir C), (forall m, In m (dkeys d) -> fullmatch m = None) -> forall d', fw_save rs d nm z st = (d', Ok tt) ->
     (forall m, In m (dkeys d') -> fullmatch m = None) /\ (d <> [] -> d' <> [])).
  { clear rs Hne E. induction rs as [|r rs IH]; cbn [fw_save]; intros d H d2 E; [injection E as <-; auto|].
    destruct (dget r st) as [c|]; [|discriminate].
    destruct (IH (dset (file (saved_name nm r) (version_text z)) (Some c) d)) with (d' := d2) as [A1 A2]; auto.
    - intros m I. apply In_dkeys_dset in I as [->|I]; auto. exact (neg_file_no_match _ _ Hz).
    - split; auto. intros Hd. apply A2. destruct d as [|[k w] d]; [congruence|]. cbn. destruct (list_eqb _ _); discriminate. }
  assert (V : (forall m, In m (dkeys d') -> fullmatch m = None) /\ d' <> []).
  { destruct rs as [|r rs]; [congruence|]. cbn [fw_save] in E. destruct (dget r st) as [c|]; [|discriminate].
    apply K in E as [E1 E2]; [split; auto; apply E2; discriminate|].
    intros m [<-|[]]. cbn [fst]. exact (neg_file_no_match _ _ Hz). }
  destruct V as [V1 V2]. split; auto. unfold fw_load.
  destruct (@prep_cases C d' (restore_map nm rs) (Some z) false st2) as [_ B].
  { unfold restore_map. destruct rs as [|r rs]; [congruence|]. cbn [fold_left].
    assert (X : forall l (m : list (name * name)), m <> [] -> fold_left (fun m r => dset (saved_name nm r) r m) l m <> []).
    { induction l as [|x l IH]; intros m Hm; cbn; auto. apply IH. destruct m as [|[a b] m]; [congruence|]. cbn. destruct (list_eqb _ _); discriminate. }
    apply X. discriminate. }
  assert (N : forall v, ~ have d' (restore_map nm rs) v).
  { intros v H. unfold have in H. destruct (restore_map nm rs) as [|[n r] mm] eqn:M.
    - revert M. unfold restore_map. destruct rs as [|r rs]; [congruence|]. cbn [fold_left].
      assert (X : forall l (m : list (name * name)), m <> [] -> fold_left (fun m r => dset (saved_name nm r) r m) l m <> []).
      { induction l as [|x l IH]; intros m Hm; cbn; auto. apply IH. destruct m as [|[a b] m]; [congruence|]. cbn. destruct (list_eqb _ _); discriminate. }
      intros Y. apply X in Y; [auto|discriminate].
    - specialize (H n r (or_introl eq_refl)). unfold versions in H. apply in_flat_map in H as (m & I & Hm).
      rewrite (V1 m I) in Hm. destruct Hm. }
  destruct (B (fun v _ => N v)) as [_ B2]. auto.
Qed.
Print Assumptions C59_default_version_refuted.

(* two modules saved under one name: the second overwrites the first, and load restores only the second *)
Theorem C59_same_name_refuted : forall C (r1 r2 n : list ascii) (c1 c2 : C) v st2,
  r1 <> r2 -> good_name n ->
  exists d', fw_save [r1; r2] [] [(r1, n); (r2, n)] (Z.of_nat v) [(r1, c1); (r2, c2)] = (d', Ok tt) /\
    fw_load [r1; r2] (Some d') [(r1, n); (r2, n)] (Z.of_nat v) st2 = (dset r2 c2 st2, Ok tt).
Proof.
  intros C r1 r2 n c1 c2 v st2 N G. cbn [fw_save dget]. rewrite (eqb_refl r1), (eqb_neq (k:=r2) (k':=r1)) by congruence. rewrite eqb_refl.
  eexists. split; [reflexivity|].
  assert (Tv : version_text (Z.of_nat v) = show v).
  { unfold version_text, show_z. destruct (Z.eqb_spec (Z.of_nat v) (-1)); [lia|]. destruct (Z.ltb_spec (Z.of_nat v) 0); [lia|]. now rewrite Nat2Z.id. }
  unfold saved_name. cbn [dget dset]. rewrite (eqb_refl r1), (eqb_neq (k:=r2) (k':=r1)) by congruence. rewrite (eqb_refl r2), eqb_refl, Tv.
  unfold fw_load, restore_map. cbn [fold_left saved_name dget dset]. unfold saved_name. cbn [dget dset].
  rewrite (eqb_refl r1), (eqb_neq (k:=r2) (k':=r1)) by congruence. rewrite (eqb_refl r2), (eqb_refl n).
  destruct (@prep_cases C [(file n (show v), Some c2)] [(n, r2)] (Some (Z.of_nat v)) false st2) as [A _]; [discriminate|].
  refine (eq_trans (A v _ _) _).
  - destruct (Z.leb_spec 0 (Z.of_nat v)); [now rewrite Nat2Z.id|lia].
  - intros n' r' [[= <- <-]|[]]. apply versions_spec. split; auto. exists (show v). split; [left; reflexivity|apply reads_show].
  - cbn [load_all dget]. now rewrite eqb_refl.
Qed.
Print Assumptions C59_same_name_refuted.
Section Ex59.
  Local Open Scope char_scope.
  Example C59_nonvacuous :
    let st := [(["a"], 5); (["b"], 6)] in
    let (d', _) := fw_save [["a"]; ["b"]] [(["b"; "_"; "9"; "."; "p"; "t"], Some 7)] [(["a"], ["q"])] 12 st in
    (dkeys d', fw_load [["a"]; ["b"]] (Some d') [(["a"], ["q"])] 12 [], fw_load [["a"]; ["b"]] (Some d') [] (-1) [(["a"], 1)]) =
    ([["b"; "_"; "9"; "."; "p"; "t"]; ["q"; "_"; "1"; "2"; "."; "p"; "t"]; ["b"; "_"; "1"; "2"; "."; "p"; "t"]],
     (st, Ok tt), ([(["a"], 1)], Err ERuntime)).
  Proof. vm_compute. reflexivity. Qed.
End Ex59.
