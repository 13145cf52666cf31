(* C28 - C30, C56: RPC lookup tables, barrier, group creation. *)
From Verif Require Import Lib.Base Model.World Spec.WorldSpec Proofs.WorldProofs Proofs.WorldHold
  Proofs.BarrierProofs Proofs.CreateProofs.

(* ---- C28 ---- *)
(* the manager's tables always say who announced a key last without withdrawing it *)
Theorem C28_tables_match_history : forall V (ls : list (wlabel V)) t gk p,
  get_entry t gk (w_luts (wrun ls)) = Some p <-> owned_by (w_log (wrun ls)) t gk p.
Proof. intros V ls t gk p. destruct (wi_run ls) as [(_ & _ & A) _]. apply A. Qed.
Print Assumptions C28_tables_match_history.

Theorem C28_one_owner : forall V (ls : list (wlabel V)) t gk p p',
  owned_by (w_log (wrun ls)) t gk p -> owned_by (w_log (wrun ls)) t gk p' -> p = p'.
Proof. intros V ls t gk p p' H H'. apply C28_tables_match_history in H, H'. congruence. Qed.
Print Assumptions C28_one_owner.

(* every answer of the manager, under every interleaving: an announcement succeeds iff the
   key has no owner, a withdrawal iff the requester is the owner, lookups return the owner *)
Theorem C28_answers : forall V (ls : list (wlabel V)) i r,
  nth_error (w_log (wrun ls)) i = Some r -> right_answer (firstn i (w_log (wrun ls))) r.
Proof. intros V ls. apply (wi_run ls). Qed.
Print Assumptions C28_answers.

(* an owner loses a key only by a withdrawal executed for the owner itself *)
Theorem C28_only_owner_withdraws : forall V (ls : list (wlabel V)) l t gk p,
  let s := wrun ls in
  get_entry t gk (w_luts s) = Some p ->
  get_entry t gk (w_luts (wstep s l)) = Some p \/
  (get_entry t gk (w_luts (wstep s l)) = None /\ withdraws s l t gk p).
Proof. intros V ls l t gk p s. apply owner_step. apply wi_run. Qed.
Print Assumptions C28_only_owner_withdraws.

Section Calls.
  Variable V : Type.
  Implicit Types s : lst V.

  Lemma nth_snoc {T} (l : list T) x : nth_error (l ++ [x]) (length l) = Some x.
  Proof. rewrite nth_error_app2, Nat.sub_diag; auto. Qed.
  Lemma upd_snoc {T} (l : list T) x y : upd (length l) y (l ++ [x]) = l ++ [y].
  Proof. rewrite upd_app2, Nat.sub_diag; auto. Qed.
  Lemma alone_done c i s a : nth_error (w_calls s) i = Some (CDone a) -> alone c i s = s.
  Proof. induction c; cbn; intro H; auto. rewrite H. cbn. auto. Qed.
End Calls.
Ltac stp := repeat (progress cbn [set_call set_luts set_obj w_calls w_objs w_luts w_groups advance] || rewrite upd_snoc || rewrite nth_snoc).

(* pairing a key that has an owner raises KeyError and changes nothing *)
Theorem C28_pair_existing : forall V (s : lst V) t o ob k v q,
  nth_error (w_objs s) o = Some ob -> get_entry t (o_grp ob, k) (w_luts s) = Some q ->
  let s' := call_now 3 (CPair t o k v) s in
  result s' (length (w_calls s)) = Some (RExc _ EKey) /\ w_luts s' = w_luts s /\ w_objs s' = w_objs s.
Proof.
  intros V s t o ob k v q Ho G. pose proof (@set_taken t (okey ob k) (o_proc ob) q _ G) as U. unfold call_now. cbn [wstep starts alone].
  repeat (stp; rewrite ?Ho). destruct (dmem k (oget t ob)) eqn:D; repeat (stp; rewrite ?Ho, ?U); unfold result; stp; auto.
Qed.
Print Assumptions C28_pair_existing.

(* pairing a free key makes the caller's process its owner and stores the value there *)
Theorem C28_pair_free : forall V (s : lst V) t o ob k v,
  nth_error (w_objs s) o = Some ob -> get_entry t (o_grp ob, k) (w_luts s) = None ->
  dget k (oget t ob) = None ->
  let s' := call_now 3 (CPair t o k v) s in
  result s' (length (w_calls s)) = Some (RDone V) /\
  get_entry t (o_grp ob, k) (w_luts s') = Some (o_proc ob) /\
  (exists ob', holds s' t o ob' k v /\ o_proc ob' = o_proc ob /\ o_grp ob' = o_grp ob) /\
  (forall t' gk', (t', gk') <> (t, (o_grp ob, k)) -> get_entry t' gk' (w_luts s') = get_entry t' gk' (w_luts s)).
Proof.
  intros V s t o ob k v Ho G Lk. pose proof (@set_free t (okey ob k) (o_proc ob) _ G) as U.
  assert (Dm : dmem k (oget t ob) = false) by (unfold dmem; now rewrite Lk). unfold call_now. cbn [wstep starts alone].
  repeat (stp; rewrite ?Ho, ?Dm, ?U). unfold result. stp.
  split; auto. split; [unfold get_entry; rewrite tget_tput_same; apply dget_dset_same|]. split.
  - eexists. split; [split; [stp; apply upd_same; apply nth_error_Some; cbn; congruence|]|].
    + rewrite oget_oput_same. apply dget_dset_same.
    + now destruct t.
  - intros t' gk' N. unfold get_entry. destruct (tbl_dec t t') as [<-|Nt]; [|now rewrite tget_tput_other].
    rewrite tget_tput_same. apply dget_dset_other. unfold okey. congruence.
Qed.
Print Assumptions C28_pair_free.

(* a process that is not the owner cannot unpair: an exception, and nothing changes *)
Theorem C28_unpair_not_owner : forall V (s : lst V) t o ob k,
  nth_error (w_objs s) o = Some ob -> get_entry t (o_grp ob, k) (w_luts s) <> Some (o_proc ob) ->
  let s' := call_now 3 (CUnpair V t o k) s in
  result s' (length (w_calls s)) = Some (RExc _ (match dget k (oget t ob) with None => EKey | Some _ => ERuntime end)) /\
  w_luts s' = w_luts s /\ w_objs s' = w_objs s.
Proof.
  intros V s t o ob k Ho G. assert (M : dmem k (oget t ob) = match dget k (oget t ob) with None => false | Some _ => true end) by (unfold dmem; destruct (dget k (oget t ob)); auto). pose proof (@unset_not_owner t (okey ob k) (o_proc ob) _ G) as U. unfold call_now. cbn [wstep starts alone].
  repeat (stp; rewrite ?Ho). destruct (dmem k (oget t ob)) eqn:D; repeat (stp; rewrite ?Ho, ?U); unfold result; stp; destruct (dget k (oget t ob)); try discriminate; auto.
Qed.
Print Assumptions C28_unpair_not_owner.

(* is_paired and its counterpart for services say whether the key has an owner *)
Theorem C28_is_paired : forall V (s : lst V) t o ob k, nth_error (w_objs s) o = Some ob ->
  let s' := call_now 1 (CHas V t o k) s in
  w_luts s' = w_luts s /\ w_objs s' = w_objs s /\
  ((exists p, get_entry t (o_grp ob, k) (w_luts s) = Some p) -> result s' (length (w_calls s)) = Some (RBool _ true)) /\
  (get_entry t (o_grp ob, k) (w_luts s) = None -> result s' (length (w_calls s)) = Some (RBool _ false)).
Proof.
  intros V s t o ob k Ho. unfold call_now. cbn [wstep starts alone]. repeat (stp; rewrite ?Ho). unfold result, okey. stp.
  repeat split.
  - intros (p & G). rewrite G. reflexivity.
  - intros G. rewrite G. reflexivity.
Qed.
Print Assumptions C28_is_paired.

(* the owner can *)
Theorem C28_unpair_owner : forall V (ls : list (wlabel V)) t o ob k v,
  let s := wrun ls in
  holds s t o ob k v -> get_entry t (o_grp ob, k) (w_luts s) = Some (o_proc ob) ->
  let s' := call_now 3 (CUnpair V t o k) s in
  result s' (length (w_calls s)) = Some (RDone V) /\ get_entry t (o_grp ob, k) (w_luts s') = None.
Proof.
  intros V ls t o ob k v s [Ho D] G. destruct (wi_run ls) as [A _]. fold s in A. clearbody s.
  pose proof (@unset_owner t (okey ob k) (o_proc ob) _ G) as U.
  assert (Dm : dmem k (oget t ob) = true) by (unfold dmem; now rewrite D).
  assert (Dp : dpop k (oget t ob) = Ok (ddel k (oget t ob))) by (unfold dpop; now rewrite Dm).
  unfold call_now. cbn [wstep starts alone].
  repeat (stp; rewrite ?Ho, ?Dm, ?U, ?Dp). unfold result. stp.
  split; auto. unfold get_entry. rewrite tget_tput_same. apply dget_ddel_same. eapply nodup_tget; eauto.
Qed.
Print Assumptions C28_unpair_owner.

(* a lookup from another process returns the value stored on the owner *)
Theorem C28_lookup_value : forall V (s : lst V) t o ob k p op obp v,
  nth_error (w_objs s) o = Some ob -> dget k (oget t ob) = None ->
  get_entry t (o_grp ob, k) (w_luts s) = Some p ->
  dget (p, o_grp ob) (w_groups s) = Some op -> holds s t op obp k v ->
  result (call_now 3 (CGet V t o k) s) (length (w_calls s)) = Some (RVal v).
Proof.
  intros V s t o ob k p op obp v Ho Lk G Gr [Hp D]. assert (Dm : dmem k (oget t ob) = false) by (unfold dmem; now rewrite Lk). unfold call_now. cbn [wstep starts alone].
  change (get_entry t (okey ob k) (w_luts s) = Some p) in G.
  repeat (stp; rewrite ?Ho, ?Dm, ?G, ?Gr, ?Hp, ?D). unfold result. now stp.
Qed.
Print Assumptions C28_lookup_value.

(* Beyond the table: the value itself.  When the calls changing one group object do not
   overlap and no failed lookup withdraws an entry, a key is stored by one object only. *)
Theorem C28_single_holder_partial : forall V (s : lst V) t o1 o2 ob1 ob2 k v1 v2,
  orderly s -> holds s t o1 ob1 k v1 -> holds s t o2 ob2 k v2 -> o_grp ob1 = o_grp ob2 ->
  (forall i, nth_error (w_calls s) i <> Some (CUnpair2 V t o1 k true)) ->
  (forall i, nth_error (w_calls s) i <> Some (CUnpair2 V t o2 k true)) ->
  o1 = o2 /\ get_entry t (o_grp ob1, k) (w_luts s) = Some (o_proc ob1).
Proof.
  intros V s t o1 o2 ob1 ob2 k v1 v2 Or [H1 D1] [H2 D2] Eg N1 N2. apply J_orderly in Or.
  assert (C1 : claim s t o1 k).
  { left. split; [exists ob1; unfold dmem; now rewrite D1|]. intros (i & Hi). now apply (N1 i). }
  assert (C2 : claim s t o2 k).
  { left. split; [exists ob2; unfold dmem; now rewrite D2|]. intros (i & Hi). now apply (N2 i). }
  split; [|apply (j_own Or C1 H1)].
  apply (@j_one _ _ Or t o1 o2 k (o_grp ob1)); auto; [exists ob1|exists ob2]; auto.
Qed.
Print Assumptions C28_single_holder_partial.

(* Without those conditions two processes can store the same key.  First: a lookup that
   arrives between the announcement and the local store of pair() withdraws the entry. *)
Theorem C28_pair_lookup_race_refuted :
  exists (ls : list (wlabel nat)) ob0 ob1,
    let s := wrun ls in
    holds s TVal 0 ob0 5 100 /\ holds s TVal 1 ob1 5 200 /\ o_grp ob0 = o_grp ob1 /\ o_proc ob0 <> o_proc ob1 /\
    result s 0 = Some (RDone nat) /\ result s 2 = Some (RDone nat) /\
    result (call_now 3 (CGet nat TVal 0 5) s) 3 = Some (RVal 100) /\
    result (call_now 3 (CGet nat TVal 1 5) s) 3 = Some (RVal 200).
Proof.
  exists ([WNew _ 0 0; WNew _ 1 0; WPublish _ 0; WPublish _ 1;
          WCall (CPair TVal 0 5 100); WStep _ 0; WStep _ 0;
          WCall (CGet _ TVal 1 5); WStep _ 1; WStep _ 1; WStep _ 1; WStep _ 1; WStep _ 0;
          WCall (CPair TVal 1 5 200); WStep _ 2; WStep _ 2; WStep _ 2]).
  eexists. eexists. vm_compute. repeat split; discriminate.
Qed.
Print Assumptions C28_pair_lookup_race_refuted.

Definition fin {V} (i : nat) (c : call V) : list (wlabel V) := WCall c :: repeat (WStep V i) 4.

(* Second, without any overlap of calls: a call of a service that its process no longer has
   withdraws that process's *value* of the same key.  (Keys 1, 2 are the barrier services of
   process 0; they are looked up by process 1 after process 0 destroyed the group.) *)
Theorem C28_stale_service_call_refuted :
  exists (ls : list (wlabel nat)) ob1 ob2,
    let s := wrun ls in
    holds s TVal 2 ob2 5 100 /\ holds s TVal 1 ob1 5 200 /\ o_grp ob2 = o_grp ob1 /\ o_proc ob2 <> o_proc ob1 /\
    (forall c, In c (w_calls s) -> exists a, c = CDone a).
Proof.
  exists ([WNew _ 0 0] ++ fin 0 (CPair TSvc 0 1 7) ++ fin 1 (CPair TSvc 0 2 7) ++ [WPublish _ 0] ++
          [WNew _ 1 0] ++ fin 2 (CPair TSvc 1 3 7) ++ fin 3 (CPair TSvc 1 4 7) ++ [WPublish _ 1] ++
          fin 4 (CPair TSvc 0 5 8) ++ [WDestroy _ 0] ++
          fin 5 (CGet _ TSvc 1 1) ++ fin 6 (CGet _ TSvc 1 2) ++
          [WNew _ 0 0] ++ fin 7 (CPair TSvc 2 1 7) ++ fin 8 (CPair TSvc 2 2 7) ++ [WPublish _ 2] ++
          fin 9 (CPair TVal 2 5 100) ++ fin 10 (CGet _ TSvc 1 5) ++ fin 11 (CPair TVal 1 5 200)).
  eexists. eexists. vm_compute. repeat split; try discriminate.
  intros c H. repeat (destruct H as [<-|H]; [eexists; reflexivity|]). destruct H.
Qed.
Print Assumptions C28_stale_service_call_refuted.

Example C28_nonvacuous :
  let s := wrun ([WNew _ 3 0; WNew _ 4 0; WPublish nat 0; WPublish _ 1] ++
           fin 0 (CPair TVal 0 5 100) ++ fin 1 (CPair TVal 1 5 200) ++ fin 2 (CGet _ TVal 1 5) ++
           fin 3 (CUnpair _ TVal 1 5) ++ fin 4 (CUnpair _ TVal 0 5) ++ fin 5 (CPair TVal 1 5 200)) in
  map (result s) [0;1;2;3;4;5] = [Some (RDone _); Some (RExc _ EKey); Some (RVal 100);
    Some (RExc _ EKey); Some (RDone _); Some (RDone _)] /\
  get_entry TVal (0, 5) (w_luts s) = Some 4 /\
  w_log s = [QSet TVal (0,5) 3 true; QSet TVal (0,5) 4 false; QGet TVal (0,5) (Some 3);
             QUnset OUnpair TVal (0,5) 3 true; QSet TVal (0,5) 4 true].
Proof. vm_compute. auto. Qed.

(* ---- C56: destroying a group releases the names its process announced ---- *)
(* refuted: every key stays announced, so pairing or registering it on a new group object
   (the constructor registers the barrier services) raises KeyError *)
Theorem C56_not_released_refuted : forall V (s : lst V) t o ob k v,
  nth_error (w_objs s) o = Some ob -> get_entry t (o_grp ob, k) (w_luts s) = Some (o_proc ob) ->
  let s1 := wstep (wstep s (WDestroy V o)) (WNew V (o_proc ob) (o_grp ob)) in
  result (call_now 3 (CPair t (length (w_objs s)) k v) s1) (length (w_calls s)) = Some (RExc _ EKey).
Proof.
  intros V s t o ob k v Ho G s1.
  assert (E : w_luts s1 = w_luts s /\ w_calls s1 = w_calls s /\
              nth_error (w_objs s1) (length (w_objs s)) =
              Some {| o_proc := o_proc ob; o_grp := o_grp ob; o_val := []; o_svc := []; o_dead := false |}).
  { unfold s1. cbn [wstep]. rewrite Ho. destruct (o_dead ob); cbn; (split; [auto|split; [auto|]]).
    - apply nth_snoc.
    - rewrite nth_error_app2; rewrite upd_length; auto. now rewrite Nat.sub_diag. }
  destruct E as (E1 & E2 & E3). rewrite <- E2. eapply C28_pair_existing; [exact E3|]. cbn [o_grp]. rewrite E1. exact G.
Qed.
Print Assumptions C56_not_released_refuted.

(* they are released one by one, when some process looks them up *)
Theorem C56_released_by_lookup_partial : forall V (ls : list (wlabel V)) t p o ob k,
  let s := wrun ls in
  nth_error (w_objs s) o = Some ob -> dget k (oget t ob) = None ->
  get_entry t (o_grp ob, k) (w_luts s) = Some p -> dget (p, o_grp ob) (w_groups s) = None ->
  let s' := call_now 4 (CGet V t o k) s in
  result s' (length (w_calls s)) = Some (RExc _ EKey) /\ get_entry t (o_grp ob, k) (w_luts s') = None.
Proof.
  intros V ls t p o ob k s Ho Lk G Gr. destruct (wi_run ls) as [A _]. fold s in A. clearbody s.
  assert (Dm : dmem k (oget t ob) = false) by (unfold dmem; now rewrite Lk). unfold call_now. cbn [wstep starts alone].
  pose proof (@unset_owner t (o_grp ob, k) p _ G) as U.
  change (get_entry t (okey ob k) (w_luts s) = Some p) in G.
  repeat (stp; rewrite ?Ho, ?Dm, ?G, ?Gr, ?U). unfold result. stp.
  split; auto. unfold get_entry. rewrite tget_tput_same. apply dget_ddel_same. eapply nodup_tget; eauto.
Qed.
Print Assumptions C56_released_by_lookup_partial.

Example C56_nonvacuous :
  let s := wrun ([WNew _ 3 0; WNew _ 4 0; WPublish nat 0; WPublish _ 1] ++
           fin 0 (CPair TSvc 0 5 100) ++ [WDestroy _ 0; WNew _ 3 0] ++ fin 1 (CPair TSvc 2 5 100) ++
           fin 2 (CGet _ TSvc 1 5) ++ fin 3 (CPair TSvc 2 5 100)) in
  map (result s) [0;1;2;3] = [Some (RDone _); Some (RExc _ EKey); Some (RExc _ EKey); Some (RDone _)].
Proof. reflexivity. Qed.

(* ---- C29 ---- *)
Lemma along_impl n (P Q : bst -> blabel -> Prop) (H : forall s l, P s l -> Q s l) ls :
  forall s, along n P s ls -> along n Q s ls.
Proof. induction ls as [|l ls IH]; cbn; intros s A; auto. destruct A. auto. Qed.

(* nobody returns from its j-th barrier before everybody entered theirs, provided a member
   does not run between the set() and the clear() on its own event *)
Theorem C29_separates_partial : forall n ls,
  0 < n -> along n calm_label binit ls -> bar_separates n (brun n binit ls).
Proof.
  intros n ls Np A. apply BI_separates with (Pr := false); auto. apply BI_run; auto; [apply BI_init|].
  eapply along_impl; [|exact A]. intros s l H. split; [exact H|discriminate].
Qed.
Print Assumptions C29_separates_partial.

(* once everybody has entered, everybody can return, provided also that releases find their
   member already waiting *)
Theorem C29_all_can_return_partial : forall n ls j,
  0 < n -> along n (fun s l => calm_label s l /\ prompt_label s l) binit ls ->
  (forall m, m < n -> j <= b_ent (brun n binit ls) m) ->
  exists ls', along n (fun s l => calm_label s l /\ prompt_label s l) (brun n binit ls) ls' /\
              forall m, m < n -> j <= b_ex (brun n binit (ls ++ ls')) m.
Proof.
  intros n ls j Np A E.
  assert (I : BI n true (brun n binit ls)).
  { apply BI_run; auto; [apply BI_init|]. eapply along_impl; [|exact A]. intros s l [H1 H2]. split; auto. }
  destruct (all_return Np I E) as (ls' & A' & R). exists ls'. split.
  - eapply along_impl; [|exact A']. intros s l [H1 H2]. auto.
  - intros m Hm. rewrite brun_app. auto.
Qed.
Print Assumptions C29_all_can_return_partial.

(* a member that runs between set() and clear() passes the next barrier alone *)
Theorem C29_early_return_refuted :
  exists ls, b_ex (brun 2 binit ls) 1 = 2 /\ b_ent (brun 2 binit ls) 0 = 1.
Proof. exists ([BMem 1; BMem 1] ++ repeat BLead 9 ++ [BMem 1; BMem 1; BMem 1]). vm_compute. auto. Qed.
Print Assumptions C29_early_return_refuted.

(* a member released before it waits on its event never returns, whatever happens later *)
Theorem C29_lost_wakeup_refuted :
  exists ls, along 2 calm_label binit ls /\
    (forall m, m < 2 -> b_ent (brun 2 binit ls) m = 1) /\ b_ex (brun 2 binit ls) 0 = 1 /\
    forall ls', b_ex (brun 2 binit (ls ++ ls')) 1 = 0.
Proof.
  exists (BMem 1 :: repeat BLead 11). split; [vm_compute; auto 20|]. split.
  { intros [|[|m]] H; [reflexivity|reflexivity|lia]. }
  split; [reflexivity|]. intro ls'. rewrite brun_app.
  assert (G : forall ls s, b_status s 1 = false -> b_flag s 1 = false -> (b_pc s 1 = FEntered \/ b_pc s 1 = FWaiting) ->
             b_ex s 1 = 0 -> (b_lead s = BOut \/ b_lead s = BPoll 0 \/ b_lead s = BPoll 1) -> b_ex (brun 2 s ls) 1 = 0).
  { clear. induction ls as [|l ls IH]; intros s S F P X L; auto. cbn [brun fold_left].
    change (b_ex (brun 2 (bstep 2 s l) ls) 1 = 0). destruct l as [|m]; cbn [bstep].
    - destruct L as [L|[L|L]]; rewrite L; cbn -[Nat.eqb]; apply IH; auto; try (rewrite S; auto; fail).
      destruct (b_status s 0); auto.
    - destruct m as [|[|m]]; cbn -[Nat.eqb]; try (apply IH; auto; fail). rewrite F.
      destruct P as [P|P]; rewrite P; apply IH; auto. }
  apply G; vm_compute; auto.
Qed.
Print Assumptions C29_lost_wakeup_refuted.

Example C29_nonvacuous :
  let ls := [BMem 2; BLead; BMem 2; BLead; BLead; BMem 1; BMem 1] ++ repeat BLead 14 ++ [BMem 1; BMem 2] in
  along 3 (fun s l => calm_label s l /\ prompt_label s l) binit ls /\
  map (b_ex (brun 3 binit ls)) [0;1;2] = [1;1;1] /\
  map (b_ex (brun 3 binit (firstn 6 ls))) [0;1;2] = [0;0;0].
Proof. vm_compute. repeat split; auto; lia. Qed.

(* the same in every group and after every history: whenever member 0 is about to release a waiting member, that
   member can return, enter and return again before member 0 goes on *)
Theorem C29_any_early_return_refuted : forall n ls m,
  0 < m < n -> along n calm_label binit ls ->
  let s := brun n binit ls in
  b_lead s = BExit m E2 -> b_pc s m = FWaiting ->
  let s' := brun n s [BLead; BMem m; BMem m; BMem m] in
  b_ex s' m = S (b_ent s' 0) /\ ~ bar_separates n s'.
Proof.
  intros n ls m [M0 Mn] A s L P s'.
  assert (I : BI n false s).
  { apply BI_run; [lia|apply BI_init|]. clear -A. revert A. generalize binit as s0. induction ls as [|l ls IH]; cbn; intros s0 H; auto.
    destruct H as [H H']. split; [split; [exact H|discriminate]|auto]. }
  destruct I as [LK MK]. specialize (MK m M0 Mn). unfold lead_ok in LK. rewrite L in LK.
  unfold mem_ok in MK. rewrite L in MK. rewrite (Nat.ltb_irrefl m) in MK.
  destruct LK as (E0 & _). destruct MK as (_ & _ & _ & Em & Xm).
  assert (Rg : ((0 <? m) && (m <? n))%bool = true) by (apply andb_true_intro; split; apply Nat.ltb_lt; auto).
  assert (Q : b_ex s' m = S (b_ent s' 0)).
  { unfold s', brun. cbn [fold_left bstep]. rewrite L, P, Rg. cbn [b_pc b_flag b_ex b_ent b_lead b_status].
    rewrite !fupd_same. cbn [b_pc b_flag b_ex b_ent b_lead b_status]. rewrite !fupd_same.
    cbn [b_pc b_flag b_ex b_ent b_lead b_status]. rewrite !fupd_same. cbn [b_pc b_flag b_ex b_ent b_lead b_status].
    rewrite !fupd_same. rewrite !fupd_other by lia. lia. }
  split; auto. intros Sep. specialize (Sep (S (b_ent s' 0)) m 0 Mn ltac:(lia)). lia.
Qed.
Print Assumptions C29_any_early_return_refuted.
(* and in every group: a member that has entered but does not wait yet when it is released never returns *)
Theorem C29_any_lost_wakeup_refuted : forall n ls m,
  0 < m < n -> along n calm_label binit ls ->
  let s := brun n binit ls in
  b_lead s = BExit m E2 -> b_pc s m = FEntered ->
  forall ls', let s' := brun n s (BLead :: BLead :: ls') in
  b_ex s' m = b_ex s m /\ b_ent s' m = S (b_ex s' m).
Proof.
  intros n ls m [M0 Mn] A s L P ls'.
  assert (I : BI n false s).
  { apply BI_run; [lia|apply BI_init|]. clear -A. revert A. generalize binit as s0. induction ls as [|l ls IH]; cbn; intros s0 H; auto.
    destruct H as [H H']. split; [split; [exact H|discriminate]|auto]. }
  destruct I as [LK MK]. specialize (MK m M0 Mn). unfold mem_ok in MK. rewrite L in MK. rewrite (Nat.ltb_irrefl m) in MK.
  destruct MK as (_ & Sm & _ & Em & Xm). cbv zeta.
  assert (G : forall ls s1, b_status s1 m = false -> b_flag s1 m = false -> (b_pc s1 m = FEntered \/ b_pc s1 m = FWaiting) ->
    (match b_lead s1 with BOut => True | BPoll i => i <= m | BExit i _ => m < i end) ->
    b_ex (brun n s1 ls) m = b_ex s1 m /\ b_ent (brun n s1 ls) m = b_ent s1 m).
  { clear -M0 Mn. induction ls as [|l ls IH]; intros s1 St F Pc Ld; [split; reflexivity|].
    change (brun n s1 (l :: ls)) with (brun n (bstep n s1 l) ls).
    assert (K : b_status (bstep n s1 l) m = false /\ b_flag (bstep n s1 l) m = false /\
      (b_pc (bstep n s1 l) m = FEntered \/ b_pc (bstep n s1 l) m = FWaiting) /\
      match b_lead (bstep n s1 l) with BOut => True | BPoll i => i <= m | BExit i _ => m < i end /\
      b_ex (bstep n s1 l) m = b_ex s1 m /\ b_ent (bstep n s1 l) m = b_ent s1 m).
    { destruct l as [|k]; cbn [bstep].
      - destruct (b_lead s1) as [|i|i st].
        + cbn [b_status b_flag b_pc b_lead b_ex b_ent]. rewrite !fupd_other by lia. repeat split; auto. lia.
        + destruct (Nat.ltb_spec i n); [|lia]. unfold set_lead. cbn [b_status b_flag b_pc b_lead b_ex b_ent]. repeat split; auto.
          destruct (Nat.eq_dec i m) as [->|N]; [rewrite St; lia|]. destruct (b_status s1 i); lia.
        + destruct st; [destruct (Nat.ltb_spec i n)| |]; cbn [b_status b_flag b_pc b_lead b_ex b_ent]; rewrite ?fupd_other by lia;
            repeat split; auto; try lia.
          destruct (b_pc s1 i); auto. now rewrite fupd_other by lia.
      - destruct ((0 <? k) && (k <? n))%bool; [|repeat split; auto]. destruct (Nat.eq_dec k m) as [->|N].
        + rewrite F. destruct Pc as [Pc|Pc]; rewrite Pc; cbn [b_status b_flag b_pc b_lead b_ex b_ent]; rewrite ?fupd_same; repeat split; auto.
        + destruct (b_pc s1 k); [|destruct (b_flag s1 k)| |]; cbn [b_status b_flag b_pc b_lead b_ex b_ent]; rewrite ?fupd_other by auto; repeat split; auto. }
    destruct K as (K1 & K2 & K3 & K4 & K5 & K6). destruct (IH _ K1 K2 K3 K4) as [-> ->]. auto. }
  change (brun n s (BLead :: BLead :: ls')) with (brun n (bstep n (bstep n s BLead) BLead) ls').
  destruct (G ls' (bstep n (bstep n s BLead) BLead)) as [-> ->].
  - cbn [bstep]. rewrite L. exact Sm.
  - cbn [bstep]. rewrite L. cbn. apply fupd_same.
  - cbn [bstep]. rewrite L, P. cbn. left. exact P.
  - cbn [bstep]. rewrite L. cbn. lia.
  - cbn [bstep]. rewrite L. cbn. split; auto. lia.
Qed.
Print Assumptions C29_any_lost_wakeup_refuted.
Example C29_any_nonvacuous :
  let enter := [BMem 1; BMem 1; BMem 2] ++ repeat BLead 9 in
  (along 3 calm_label binit enter /\ b_lead (brun 3 binit enter) = BExit 1 E2 /\ b_pc (brun 3 binit enter) 1 = FWaiting) /\
  (along 3 calm_label binit (enter ++ repeat BLead 3) /\ b_lead (brun 3 binit (enter ++ repeat BLead 3)) = BExit 2 E2 /\
   b_pc (brun 3 binit (enter ++ repeat BLead 3)) 2 = FEntered).
Proof. vm_compute. repeat split; auto; lia. Qed.

(* ---- C30 ---- *)
Theorem C30_waits_for_all : forall n ls, 0 < n -> creation_waits n (grun n ginit ls).
Proof. intros n ls Np. apply GI_waits; auto. apply GI_run; auto. apply GI_init. Qed.
Print Assumptions C30_waits_for_all.

(* and when every member has called, all of them can return *)
Theorem C30_can_return : forall n ls j, 0 < n ->
  (forall m, m < n -> j <= g_called (grun n ginit ls) m) ->
  exists ls', forall m, m < n -> j <= g_ret (grun n ginit (ls ++ ls')) m.
Proof.
  intros n ls j Np E. destruct (@create_returns n Np (grun n ginit ls) j) as (ls' & H); auto.
  - apply GI_run; auto. apply GI_init.
  - exists ls'. intros m Hm. rewrite grun_app. auto.
Qed.
Print Assumptions C30_can_return.

Example C30_nonvacuous :
  let pre := [ACall 0; ALead; AEval 0; AEval 1; ALead; ALead; ACall 1; ALead] in
  let s := grun 2 ginit (pre ++ [AEval 1; AEval 0; ALead; ALead; ALead; AUnl 1; ARet 1; ACall 1; AUnl 0; ALead; ALead; ALead]) in
  map (g_ret (grun 2 ginit pre)) [0;1] = [0;0] /\
  map (g_ret s) [0;1] = [1;1] /\ map (g_called s) [0;1] = [1;2].
Proof. vm_compute. auto. Qed.
