(* C202: group objects received from other processes. RpcGroup.__reduce__ (_world.py 975-977) makes a second object of
   the group, which is not the one in WORLD.groups. *)
From Verif Require Import Lib.Base Model.World.
Set Implicit Arguments.

Section Copies.
  Context {V : Type}.
  (* a call that runs to its end without anything between; the answer *)
  Definition alone (c : call V) (n : nat) (s : lst V) : lst V * option (call V) :=
    let i := length (w_calls s) in
    let s' := fold_left (@wstep V) (WCall c :: repeat (WStep V i) n) s in (s', nth_error (w_calls s') i).
  Definition with_call (s : lst V) (c : call V) : lst V :=
    {| w_luts := w_luts s; w_groups := w_groups s; w_objs := w_objs s; w_calls := w_calls s ++ [c]; w_log := w_log s |}.
  Lemma upd_last {A} (l : list A) x y : upd (length l) y (l ++ [x]) = l ++ [y].
  Proof. rewrite upd_app2 by lia. now rewrite Nat.sub_diag. Qed.
  Lemma set_with n s c c' : n = length (w_calls s) -> set_call n c' (with_call s c) = with_call s c'.
  Proof. intros ->. unfold set_call, with_call. cbn. now rewrite upd_last. Qed.
  Lemma luts_with l q s c : set_luts l q (with_call s c) = with_call (set_luts l q s) c. Proof. reflexivity. Qed.
  Lemma obj_with i o s c : set_obj i o (with_call s c) = with_call (set_obj i o s) c. Proof. reflexivity. Qed.
  Lemma step_with n s c : n = length (w_calls s) -> wstep (with_call s c) (WStep V n) = advance n c (with_call s c).
  Proof. intros ->. cbn. rewrite nth_error_app2 by lia. now rewrite Nat.sub_diag. Qed.
  Lemma call_with s c : starts c = true -> wstep s (WCall c) = with_call s c.
  Proof. intros E. cbn. now rewrite E. Qed.
  Lemma last_with n s c : n = length (w_calls s) -> nth_error (w_calls (with_call s c)) n = Some c.
  Proof. intros ->. cbn. rewrite nth_error_app2 by lia. now rewrite Nat.sub_diag. Qed.
End Copies.


Section Runs.
  Context {V : Type}.
  Ltac begin := unfold alone; cbn [repeat fold_left]; rewrite call_with by reflexivity.
  Ltac one := rewrite step_with by reflexivity; cbn [advance w_objs with_call w_groups w_luts].
  Ltac next := rewrite ?luts_with, ?obj_with, set_with by reflexivity.
  Lemma run_pair t (s : lst V) o ob k v : nth_error (w_objs s) o = Some ob -> dget k (oget t ob) = None -> get_entry t (okey ob k) (w_luts s) = None ->
    alone (CPair t o k v) 3 s =
    (with_call (set_obj o (oput t (dset k v (oget t ob)) ob)
       (set_luts (tput t (dset (okey ob k) (o_proc ob) (tget t (w_luts s))) (w_luts s)) (QSet t (okey ob k) (o_proc ob) true) s)) (CDone (RDone V)),
     Some (CDone (RDone V))).
  Proof.
    intros E N G. begin. one. rewrite E. unfold dmem. rewrite N. next. one. rewrite E. unfold set_entry, dmem. unfold get_entry in G. rewrite G.
    next. one. cbn [w_objs set_luts]. rewrite E. next. rewrite last_with by reflexivity. reflexivity.
  Qed.
  Lemma run_pair_taken t (s : lst V) o ob k v p : nth_error (w_objs s) o = Some ob -> get_entry t (okey ob k) (w_luts s) = Some p ->
    snd (alone (CPair t o k v) (if dmem k (oget t ob) then 1 else 3) s) = Some (CDone (RExc V EKey)).
  Proof.
    intros E G. destruct (dmem k (oget t ob)) eqn:D.
    - begin. one. rewrite E, D. next. cbn [snd]. now rewrite last_with by reflexivity.
    - begin. one. rewrite E, D. next. one. rewrite E. unfold set_entry, dmem. unfold get_entry in G. rewrite G.
      next. one. cbn [w_objs set_luts]. rewrite E. next. cbn [snd]. now rewrite last_with by reflexivity.
  Qed.
  Lemma run_unpair_lost t (s : lst V) o ob k v : nth_error (w_objs s) o = Some ob -> dget k (oget t ob) = Some v -> get_entry t (okey ob k) (w_luts s) = None ->
    snd (alone (CUnpair V t o k) 3 s) = Some (CDone (RExc V ERuntime)).
  Proof.
    intros E N G. begin. one. rewrite E. unfold dmem. rewrite N. next. one. rewrite E. unfold unset_entry. unfold get_entry in G. rewrite G.
    next. one. cbn [w_objs set_luts]. rewrite E. next. cbn [snd]. now rewrite last_with by reflexivity.
  Qed.
  (* looked up in the table, or known to the object itself *)
  Definition found t (s : lst V) q (oq : obj V) k p : Prop :=
    nth_error (w_objs s) q = Some oq /\ (if dmem k (oget t oq) then o_proc oq = p else get_entry t (okey oq k) (w_luts s) = Some p).
  Definition asked t (s : lst V) (oq : obj V) k p : lst V := if dmem k (oget t oq) then s else set_luts (w_luts s) (QGet t (okey oq k) (Some p)) s.
  Lemma run_get_missing t (s : lst V) q oq k p o' ob' : found t s q oq k p -> dget (p, o_grp oq) (w_groups s) = Some o' ->
    nth_error (w_objs s) o' = Some ob' -> dget k (oget t ob') = None ->
    alone (CGet V t q k) (if dmem k (oget t oq) then 3 else 4) s =
    (with_call (let (l, ok) := unset_entry TVal (o_grp oq, k) p (w_luts s) in set_luts l (QUnset OPurge TVal (o_grp oq, k) p ok) (asked t s oq k p)) (CDone (RExc V EKey)),
     Some (CDone (RExc V EKey))).
  Proof.
    intros (E & F) P E' N. unfold asked. destruct (dmem k (oget t oq)) eqn:D.
    - begin. one. rewrite E, D, F. next. one. rewrite P, E', N. next. one.
      destruct (unset_entry _ _ _ _) as [l ok]. next. rewrite last_with by reflexivity. reflexivity.
    - begin. one. rewrite E, D. next. one. rewrite E. rewrite F. next. one. cbn [w_objs w_groups set_luts]. rewrite P, E', N. next. one. cbn [w_luts set_luts].
      destruct (unset_entry _ _ _ _) as [l ok]. next. rewrite last_with by reflexivity. reflexivity.
  Qed.
  Lemma run_get_found t (s : lst V) q oq k p o' ob' v : found t s q oq k p -> dget (p, o_grp oq) (w_groups s) = Some o' ->
    nth_error (w_objs s) o' = Some ob' -> dget k (oget t ob') = Some v ->
    snd (alone (CGet V t q k) (if dmem k (oget t oq) then 2 else 3) s) = Some (CDone (RVal v)).
  Proof.
    intros (E & F) P E' N. destruct (dmem k (oget t oq)) eqn:D.
    - begin. one. rewrite E, D, F. next. one. rewrite P, E', N. next. cbn [snd]. now rewrite last_with by reflexivity.
    - begin. one. rewrite E, D. next. one. rewrite E. rewrite F. next. one. cbn [w_objs w_groups set_luts]. rewrite P, E', N. next. cbn [snd]. now rewrite last_with by reflexivity.
  Qed.
  Lemma ddel_dset {K B} `{Eqb K} (d : list (K * B)) k x : dget k d = None -> dget k (ddel k (dset k x d)) = None.
  Proof.
    induction d as [|[a y] d IH]; cbn [dget dset ddel]; intros N; [now rewrite eqb_refl|]. destruct (eqb k a) eqn:E; [discriminate|]. cbn [dget ddel]. rewrite E. cbn [dget]. rewrite E. auto.
  Qed.
  Lemma tget_tput t d l : tget t (tput t d l) = d. Proof. now destruct t. Qed.
  Lemma oget_oput t d (o : obj V) : oget t (oput t d o) = d. Proof. now destruct t. Qed.
  Lemma oput_grp t d (o : obj V) : o_grp (oput t d o) = o_grp o /\ o_proc (oput t d o) = o_proc o. Proof. now destruct t. Qed.
End Runs.

(* Pairing (or registering) through an object which is not the one its process has in WORLD.groups succeeds, but nobody
   can use the key, not even through this object. The failed use withdraws a paired value, whereupon it cannot be
   unpaired either; a service entry stays and blocks the key. *)
Theorem C202_refuted : forall V t (s : lst V) o ob o' ob' k v,
  nth_error (w_objs s) o = Some ob -> dget (o_proc ob, o_grp ob) (w_groups s) = Some o' -> o' <> o ->
  nth_error (w_objs s) o' = Some ob' -> dget k (oget t ob') = None -> dget k (oget t ob) = None ->
  get_entry t (o_grp ob, k) (w_luts s) = None ->
  let (s1, r1) := alone (CPair t o k v) 3 s in
  r1 = Some (CDone (RDone V)) /\ get_entry t (o_grp ob, k) (w_luts s1) = Some (o_proc ob) /\
  forall q oq, nth_error (w_objs s1) q = Some oq -> o_grp oq = o_grp ob -> q = o \/ dget k (oget t oq) = None ->
  let n := if q =? o then 3 else 4 in
  let (s2, r2) := alone (CGet V t q k) n s1 in
  r2 = Some (CDone (RExc V EKey)) /\
  get_entry t (o_grp ob, k) (w_luts s2) = match t with TVal => None | TSvc => Some (o_proc ob) end /\
  (t = TVal -> snd (alone (CUnpair V t o k) 3 s2) = Some (CDone (RExc V ERuntime))) /\
  (t = TSvc -> forall p op w, nth_error (w_objs s2) p = Some op -> o_grp op = o_grp ob ->
     snd (alone (CPair t p k w) (if dmem k (oget t op) then 1 else 3) s2) = Some (CDone (RExc V EKey))).
Proof.
  intros V t s o ob o' ob' k v E P Ne E' N' N G. rewrite (@run_pair V t s o ob k v E N G). set (s1 := with_call _ _).
  assert (Lo : o < length (w_objs s)) by (apply nth_error_Some; congruence).
  assert (X1 : nth_error (w_objs s1) o = Some (oput t (dset k v (oget t ob)) ob)) by (cbn; now apply upd_same).
  assert (X2 : nth_error (w_objs s1) o' = Some ob') by (cbn; rewrite upd_other by auto; exact E').
  assert (X3 : get_entry t (o_grp ob, k) (w_luts s1) = Some (o_proc ob)) by (unfold get_entry; cbn; rewrite tget_tput; unfold okey; apply dget_dset_same).
  split; [reflexivity|]. split; [exact X3|]. intros q oq Eq Gq Hq.
  assert (K : dmem k (oget t oq) = (q =? o) /\ found t s1 q oq k (o_proc ob)).
  { destruct (Nat.eqb_spec q o) as [->|Nq].
    - assert (oq = oput t (dset k v (oget t ob)) ob) by congruence. subst oq. unfold found, dmem. rewrite oget_oput, dget_dset_same. repeat split; auto. apply oput_grp.
    - destruct Hq as [?|Hq]; [congruence|]. unfold found, dmem. rewrite Hq. repeat split; auto. unfold okey. now rewrite Gq. }
  destruct K as (K1 & K2). cbv zeta. rewrite <- K1. rewrite (@run_get_missing V t s1 q oq k (o_proc ob) o' ob'); auto; [|rewrite Gq; exact P].
  set (s2 := with_call _ _). split; [reflexivity|].
  assert (Y0 : w_objs s2 = w_objs s1) by (unfold s2, asked; destruct (unset_entry _ _ _ _), (dmem k (oget t oq)); reflexivity).
  assert (Y : get_entry t (o_grp ob, k) (w_luts s2) = match t with TVal => None | TSvc => Some (o_proc ob) end).
  { unfold s2. rewrite Gq. destruct t.
    - unfold unset_entry. unfold get_entry in X3. rewrite X3, Nat.eqb_refl. cbn [w_luts with_call set_luts]. unfold get_entry. rewrite tget_tput. unfold s1. cbn [w_luts with_call set_obj set_luts]. rewrite tget_tput. apply ddel_dset. exact G.
    - unfold unset_entry. destruct (dget _ (tget TVal (w_luts s1))) as [p|]; [destruct (p =? _)|]; cbn [w_luts with_call set_luts]; unfold get_entry in *; cbn [tget tput l_svc] in *; auto;
      unfold asked; destruct (dmem k (oget TSvc oq)); auto. }
  split; [exact Y|]. split.
  - intros ->. apply (@run_unpair_lost V TVal s2 o (oput TVal (dset k v (oget TVal ob)) ob) k v); [now rewrite Y0| |].
    + rewrite oget_oput. apply dget_dset_same.
    + exact Y.
  - intros -> p op w Ep Gp. apply (@run_pair_taken V TSvc s2 p op k w (o_proc ob) Ep). unfold okey. rewrite Gp. exact Y.
Qed.
Print Assumptions C202_refuted.

(* Through the object in WORLD.groups the key can be used by every object of the group on every process, copies included. *)
Theorem C202_partial : forall V t (s : lst V) o ob k v,
  nth_error (w_objs s) o = Some ob -> dget (o_proc ob, o_grp ob) (w_groups s) = Some o ->
  dget k (oget t ob) = None -> get_entry t (o_grp ob, k) (w_luts s) = None ->
  let (s1, r1) := alone (CPair t o k v) 3 s in
  r1 = Some (CDone (RDone V)) /\
  forall q oq, nth_error (w_objs s1) q = Some oq -> o_grp oq = o_grp ob -> q = o \/ dget k (oget t oq) = None ->
  snd (alone (CGet V t q k) (if q =? o then 2 else 3) s1) = Some (CDone (RVal v)).
Proof.
  intros V t s o ob k v E P N G. rewrite (@run_pair V t s o ob k v E N G). set (s1 := with_call _ _).
  assert (Lo : o < length (w_objs s)) by (apply nth_error_Some; congruence).
  assert (X1 : nth_error (w_objs s1) o = Some (oput t (dset k v (oget t ob)) ob)) by (cbn; now apply upd_same).
  assert (X3 : get_entry t (o_grp ob, k) (w_luts s1) = Some (o_proc ob)) by (unfold get_entry; cbn; rewrite tget_tput; unfold okey; apply dget_dset_same).
  split; [reflexivity|]. intros q oq Eq Gq Hq.
  assert (K : dmem k (oget t oq) = (q =? o) /\ found t s1 q oq k (o_proc ob)).
  { destruct (Nat.eqb_spec q o) as [->|Nq].
    - assert (oq = oput t (dset k v (oget t ob)) ob) by congruence. subst oq. unfold found, dmem. rewrite oget_oput, dget_dset_same. repeat split; auto. apply oput_grp.
    - destruct Hq as [?|Hq]; [congruence|]. unfold found, dmem. rewrite Hq. repeat split; auto. unfold okey. now rewrite Gq. }
  destruct K as (K1 & K2). rewrite <- K1. apply (@run_get_found V t s1 q oq k (o_proc ob) o (oput t (dset k v (oget t ob)) ob)); auto; [rewrite Gq; exact P|].
  rewrite oget_oput. apply dget_dset_same.
Qed.
Print Assumptions C202_partial.

(* processes 0 and 1 of group 7; object 2 is a copy that came back to process 0 *)
Example C202_nonvacuous :
  let s := wrun [WNew nat 0 7; WPublish nat 0; WNew nat 1 7; WPublish nat 1; WNew nat 0 7] in
  let (s1, r1) := alone (CPair TVal 2 5 99) 3 s in
  let (s2, r2) := alone (CGet nat TVal 1 5) 4 s1 in
  r1 = Some (CDone (RDone nat)) /\ r2 = Some (CDone (RExc nat EKey)) /\ snd (alone (CGet nat TVal 2 5) 3 s1) = Some (CDone (RExc nat EKey)) /\
  snd (alone (CUnpair nat TVal 2 5) 3 s2) = Some (CDone (RExc nat ERuntime)) /\
  (let (s3, r3) := alone (CPair TVal 0 6 98) 3 s in snd (alone (CGet nat TVal 2 6) 3 s3) = Some (CDone (RVal 98))).
Proof. vm_compute. repeat split. Qed.
