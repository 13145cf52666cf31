(* C77: constant keys of Object / Config; C78: counters and triggers. *)
From Verif Require Import Lib.Base Lib.Str Model.Config Model.Helper.

(* C77 *)
(* assignments one after the other, errors caught by the caller *)
Definition assign (c : conf) (kv : string * val) : conf := fst (set_item c (fst kv) (snd kv)).
(* Missing: assignments to the attribute data, see below. *)
Theorem C77_partial : forall kvs data const called k, In k const -> dunder k = false -> is_own k = false ->
  (forall kv, In kv kvs -> fst kv <> "data"%string) ->
  let c := fold_left assign kvs (CConf data const called) in
  get_item c k = get_item (CConf data const called) k /\
  forall v, set_item c k v = (c, Err ERuntime).
Proof.
  intros kvs data const called k I D O N. cbn zeta.
  assert (G : exists data' called', fold_left assign kvs (CConf data const called) = CConf data' const called' /\
              dget k data' = dget k data).
  { revert data called N. induction kvs as [|[k' v] r IH]; intros data called N; cbn; [eauto|].
    assert (N' : forall kv, In kv r -> fst kv <> "data"%string) by (intros; apply N; cbn; auto).
    assert (Nd : k' <> "data"%string) by (apply (N (k', v)); cbn; auto).
    unfold assign at 2. cbn [fst snd set_item].
    destruct (dunder k'); [apply IH; auto|]. destruct (eqb_spec k' "call"%string); [apply IH; auto|].
    destruct (eqb_spec k' "data"%string); [congruence|]. destruct (is_own k'); [apply IH; auto|].
    destruct (existsb (eqb k') const) eqn:X; [apply IH; auto|].
    destruct (IH (dset k' v data) called N') as (d1 & c1 & E & G). exists d1, c1. split; auto. rewrite G.
    apply dget_dset_other. intros ->. apply not_true_iff_false in X. apply X. apply existsb_exists. exists k.
    split; auto. apply eqb_refl. }
  destruct G as (d1 & c1 & -> & G). split.
  - cbn [get_item]. rewrite D, O, G. reflexivity.
  - intros v. cbn [set_item]. rewrite D, O.
    assert (X : existsb (eqb k) const = true) by (apply existsb_exists; exists k; split; auto; apply eqb_refl).
    destruct (eqb_spec k "call"%string) as [->|_]; [discriminate|]. destruct (eqb_spec k "data"%string) as [->|_]; [discriminate|].
    now rewrite X.
Qed.
Print Assumptions C77_partial.
(* Assigning the attribute data replaces every value, constant or not. *)
Theorem C77_refuted : forall data const called k v, dunder k = false -> is_own k = false ->
  exists c, set_item (CConf data const called) "data"%string (VDict [(k, v)]) = (c, Ok tt) /\ get_item c k = Ok v.
Proof.
  intros data const called k v D O. eexists. split; [reflexivity|]. cbn [get_item]. rewrite D, O. cbn [dget]. now rewrite eqb_refl.
Qed.
Print Assumptions C77_refuted.
Example C77_nonvacuous :
  let c := fold_left assign [("a", VOther 5); ("b", VOther 6); ("call", VNone)]%string
             (CConf [("a"%string, VOther 1)] ["a"%string] false) in
  (get_item c "a"%string, get_item c "b"%string) = (Ok (VOther 1), Ok (VOther 6)) /\
  get_item (assign c ("data"%string, VDict [("a"%string, VOther 2)])) "a"%string = Ok (VOther 2).
Proof. split; reflexivity. Qed.

(* C78 *)
Fixpoint counts_since_reset (newest_first : list cop) : Z :=
  match newest_first with Count :: r => (1 + counts_since_reset r)%Z | _ => 0%Z end.
Theorem C78_counter : forall s d os, count (c_run (c_new s d) os) = (s + d * counts_since_reset (rev os))%Z.
Proof.
  intros s d os. assert (G : start (c_run (c_new s d) os) = s /\ cstep (c_run (c_new s d) os) = d /\
    count (c_run (c_new s d) os) = (s + d * counts_since_reset (rev os))%Z); [|tauto].
  induction os as [|o r (A & B & C)] using rev_ind; cbn [rev].
  - cbn. repeat split; lia.
  - unfold c_run in *. rewrite fold_left_app, rev_app_distr. cbn [fold_left rev app].
    destruct o; cbn [c_do count start cstep counts_since_reset]; rewrite ?A, ?B, ?C; repeat split; ring.
Qed.
Print Assumptions C78_counter.

Definition activates (o : top) : bool := match o with On | Flip => true | _ => false end.
Definition tally {A} (p : A -> bool) (l : list A) : nat := length (filter p l).
Definition b2n (b : bool) : nat := if b then 1 else 0.
(* every activation is reported at most once, and is reported by the next get if nothing turns it off *)
Theorem C78_trigger_once : forall on os, tally id (snd (t_run on os)) + b2n (fst (t_run on os)) <= b2n on + tally activates os.
Proof.
  intros on os. unfold t_run, tally. induction os as [|o r IH] using rev_ind; cbn; [lia|].
  rewrite fold_left_app, filter_app, app_length. destruct (fold_left t_do r (on, [])) as [b got]. cbn in *.
  destruct o; cbn; rewrite ?filter_app, ?app_length; destruct b; cbn in *; lia.
Qed.
Print Assumptions C78_trigger_once.
Theorem C78_trigger_reports : forall on os os', (forall o, In o os' -> o = On) ->
  exists earlier, snd (t_run on (os ++ [On] ++ os' ++ [Get])) = earlier ++ [true].
Proof.
  intros on os os' H. unfold t_run. rewrite !fold_left_app. cbn [fold_left].
  destruct (fold_left t_do os (on, [])) as [b got]. exists got. cbn.
  replace (fold_left t_do os' (true, got)) with (true, got); [reflexivity|].
  induction os' as [|o r IH]; cbn; auto. rewrite (H o) by (cbn; auto). apply IH. intros. apply H. cbn; auto.
Qed.
Print Assumptions C78_trigger_reports.
(* whether a trigger is active: from the newest operation backwards *)
Fixpoint active (on : bool) (newest_first : list top) : bool :=
  match newest_first with
  | [] => on | On :: _ => true | Off :: _ | Get :: _ => false | Flip :: r => negb (active on r)
  end.
Theorem C78_trigger_exact : forall on os,
  snd (t_run on (os ++ [Get])) = snd (t_run on os) ++ [active on (rev os)] /\
  (forall o, o <> Get -> snd (t_run on (os ++ [o])) = snd (t_run on os)).
Proof.
  intros on os. assert (E : forall os, fst (t_run on os) = active on (rev os)).
  { clear os. induction os as [|o r IH] using rev_ind; auto. unfold t_run in *. rewrite fold_left_app, rev_app_distr. cbn [fold_left rev app].
    destruct (fold_left t_do r (on, [])) as [b got]. cbn [fst] in IH. subst b. destruct o; cbn; auto.
    destruct (active on (rev r)); auto. }
  rewrite <- E. unfold t_run. setoid_rewrite fold_left_app. cbn [fold_left].
  destruct (fold_left t_do os (on, [])) as [b got]. cbn. split; auto. intros [] H; cbn; congruence.
Qed.
Print Assumptions C78_trigger_exact.
Example C78_nonvacuous :
  count (c_run (c_new 5 3) [Count; Count; Reset; Count; Count; Count]) = 14%Z /\
  snd (t_run false [Get; On; Get; Get; Flip; Get; On; Off; Get]) = [false; true; false; true; false].
Proof. split; reflexivity. Qed.
