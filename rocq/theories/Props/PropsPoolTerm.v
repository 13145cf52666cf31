(* C171: terminating a pool. *)
From Verif Require Import Lib.Base Model.Pool Spec.PoolSpec Proofs.PoolProofs Proofs.PoolSysProofs Proofs.PoolFacts.
Set Implicit Arguments.

(* both handler threads look at the state once more, in either order, and then terminate() kills the workers *)
Definition handlers_then_kill {A V E} (ls : list (label A V E)) : Prop :=
  exists a b, ls = a ++ LKill A V E :: b /\ In (LHandler A V E) a /\ In (LResult A V E) a.
(* the parts of a result object which the pool fills: next() only takes items out of it *)
Definition pending {A V E} (s : st A V E) (j : nat) : Prop := exists r, dget j (s_objs s) = Some r /\ obj_get r = None.

Section Term.
  Variables (A V E : Type) (procs : nat).
  Notation st := (st A V E).
  Notation step := (@step A V E procs).
  Notation label := (label A V E).
  Definition steps (s : st) (ls : list label) : st := fold_left (fun s l => fst (step s l)) ls s.
  Definition pool_dead (s : st) : Prop := Forall (fun w => w = @WDead A V E) (s_pool s).

  Lemma logs_frame (l : list (event A V E)) : forall s : st,
    let s' := fold_left (fun s e => add_log e s) l s in
    s_state s' = s_state s /\ s_pool s' = s_pool s /\ s_objs s' = s_objs s /\ s_cache s' = s_cache s /\ s_in s' = s_in s
    /\ s_wh s' = s_wh s /\ s_rh s' = s_rh s /\ s_ctr s' = s_ctr s /\ s_out s' = s_out s.
  Proof. induction l as [|e l IH]; intros s; [cbn; auto 12|]. exact (IH (add_log e s)). Qed.

  (* one step of a terminated pool *)
  Lemma step_frame (s : st) l : s_state s = PTerm ->
    let s' := fst (step s l) in
    s_state s' = PTerm /\ s_ctr s' = s_ctr s /\ s_cache s' = s_cache s
    /\ length (s_pool s') = length (s_pool s)
    /\ (forall w, nth_error (s_pool s) w = Some (@WDead A V E) -> nth_error (s_pool s') w = Some (@WDead A V E))
    /\ (s_wh s = false -> s_wh s' = false) /\ (s_rh s = false -> s_rh s' = false)
    /\ (forall j r, dget j (s_objs s) = Some r -> exists r', dget j (s_objs s') = Some r' /\ obj_get r' = obj_get r)
    /\ (l = LHandler A V E -> s_wh s' = false) /\ (l = LResult A V E -> s_rh s' = false)
    /\ (l = LKill A V E -> s_wh s = false -> s_rh s = false -> pool_dead s').
  Proof.
    intros T. assert (R : running s = false) by (unfold running; now rewrite T).
    assert (K : keep_going s = false) by (unfold keep_going; now rewrite T).
    assert (U : forall w w' x, nth_error (s_pool s) w' = Some x -> x <> @WDead A V E -> forall y,
               nth_error (s_pool s) w = Some (@WDead A V E) -> nth_error (upd w' y (s_pool s)) w = Some (@WDead A V E)).
    { intros w w' x Hx Nx y Hw. rewrite upd_other; [auto|]. intros ->. congruence. }
    destruct l; cbn [Pool.step]; rewrite ?R.
    - cbn [fst]. repeat split; eauto; discriminate.
    - cbn [fst]. repeat split; eauto; discriminate.
    - cbn [fst]. repeat split; eauto; discriminate.
    - destruct (dget j (s_objs s)) as [r|] eqn:G; [|repeat split; eauto; discriminate].
      destruct (obj_next r) as [r' a] eqn:N. destruct a; try (cbn [fst]; repeat split; eauto; discriminate).
      cbn [fst add_log set_objs s_state s_ctr s_cache s_pool s_wh s_rh s_objs]. repeat split; eauto; try discriminate.
      intros i q Q. destruct (Nat.eq_dec j i) as [->|D].
      + rewrite dget_dset_same. exists r'. split; auto. rewrite G in Q. injection Q as <-.
        destruct r as [| |? ? ? [|] ?]; cbn in N; try discriminate; injection N as <- _; reflexivity.
      + rewrite dget_dset_other by auto. eauto.
    - destruct (nth_error (s_pool s) w) as [[|t|]|] eqn:W; try (repeat split; eauto; discriminate).
      destruct (s_in s) as [|[t|] q]; [repeat split; eauto; discriminate| |];
        cbn [fst set_in set_pool s_state s_ctr s_cache s_pool s_wh s_rh s_objs]; repeat split; eauto; try discriminate; try apply upd_length;
        intros v Hv; eapply U; eauto; discriminate.
    - destruct (nth_error (s_pool s) w) as [[|t|]|] eqn:W; try (repeat split; eauto; discriminate).
      cbn [fst set_out set_pool s_state s_ctr s_cache s_pool s_wh s_rh s_objs]; repeat split; eauto; try discriminate; try apply upd_length.
      intros v Hv; eapply U; eauto; discriminate.
    - destruct (nth_error (s_pool s) w) as [[|t|]|] eqn:W; try (repeat split; eauto; discriminate);
      cbn [fst add_log set_pool s_state s_ctr s_cache s_pool s_wh s_rh s_objs]; repeat split; eauto; try discriminate; try apply upd_length;
      intros v Hv; eapply U; eauto; discriminate.
    - rewrite K. destruct (s_rh s) eqn:H; cbn [fst set_threads s_state s_ctr s_cache s_pool s_wh s_rh s_objs]; repeat split; eauto; discriminate.
    - rewrite K. destruct (s_wh s) eqn:H; cbn [fst set_threads set_in s_state s_ctr s_cache s_pool s_wh s_rh s_objs]; repeat split; eauto; discriminate.
    - cbn [fst]. repeat split; eauto; discriminate.
    - cbn [fst set_state s_state s_ctr s_cache s_pool s_wh s_rh s_objs]. repeat split; eauto; discriminate.
    - rewrite T. destruct (s_wh s || s_rh s)%bool eqn:H.
      + cbn [fst]. repeat split; eauto; try discriminate. intros _ a b. rewrite a, b in H. discriminate.
      + cbn [fst]. destruct (logs_frame (flat_map (@lost_of A V E) (s_pool s)) (set_pool (map (fun _ => @WDead A V E) (s_pool s)) s))
          as (a & b & c & d & e & f & g & h & i). rewrite a, b, c, d, f, g, h.
        cbn [set_pool s_state s_ctr s_cache s_pool s_wh s_rh s_objs]. rewrite map_length. repeat split; eauto; try discriminate.
        * intros w Hw. rewrite nth_error_map, Hw. reflexivity.
        * intros _ _ _. unfold pool_dead. rewrite b. cbn [set_pool s_pool]. apply Forall_map, Forall_forall. auto.
  Qed.

  Lemma steps_frame ls : forall s : st, s_state s = PTerm ->
    let s' := steps s ls in
    s_state s' = PTerm /\ s_ctr s' = s_ctr s /\ s_cache s' = s_cache s
    /\ length (s_pool s') = length (s_pool s)
    /\ (forall w, nth_error (s_pool s) w = Some (@WDead A V E) -> nth_error (s_pool s') w = Some (@WDead A V E))
    /\ (s_wh s = false -> s_wh s' = false) /\ (s_rh s = false -> s_rh s' = false)
    /\ (forall j r, dget j (s_objs s) = Some r -> exists r', dget j (s_objs s') = Some r' /\ obj_get r' = obj_get r)
    /\ (In (LHandler A V E) ls -> s_wh s' = false) /\ (In (LResult A V E) ls -> s_rh s' = false).
  Proof.
    induction ls as [|l ls IH]; intros s T; cbn [steps fold_left].
    - repeat split; eauto; contradiction.
    - destruct (step_frame s l T) as (a & b & c & d & e & f & g & h & i & j & _).
      destruct (IH _ a) as (a' & b' & c' & d' & e' & f' & g' & h' & i' & j'). unfold steps in *.
      repeat split; auto; try congruence.
      + intros k r Q. destruct (h _ _ Q) as (r1 & Q1 & E1). destruct (h' _ _ Q1) as (r2 & Q2 & E2). exists r2. split; congruence.
      + intros [->|I]; auto.
      + intros [->|I]; auto.
  Qed.

  (* all workers of a terminated pool end: both handlers stop at their next look, nothing is started again,
     and the kill that follows them leaves no worker *)
  Theorem C171_workers_end : forall (s : st) ls, s_state s = PTerm -> handlers_then_kill ls ->
    pool_dead (steps s ls) /\ length (s_pool (steps s ls)) = length (s_pool s)
    /\ s_wh (steps s ls) = false /\ s_rh (steps s ls) = false.
  Proof.
    intros s ls T (a & b & -> & Hh & Hr).
    destruct (steps_frame a s T) as (T1 & _ & _ & L1 & _ & _ & _ & _ & W1 & R1). specialize (W1 Hh). specialize (R1 Hr).
    destruct (step_frame (steps s a) (LKill A V E) T1) as (T2 & _ & _ & L2 & _ & W2 & R2 & _ & _ & _ & D2).
    specialize (D2 eq_refl W1 R1). specialize (W2 W1). specialize (R2 R1).
    assert (Q : steps s (a ++ LKill A V E :: b) = steps (fst (step (steps s a) (LKill A V E))) b).
    { unfold steps. now rewrite fold_left_app. }
    rewrite Q. destruct (steps_frame b _ T2) as (_ & _ & _ & L3 & D3 & W3 & R3 & _).
    split; [|split; [congruence|auto]].
    apply Forall_forall. intros w I. apply In_nth_error in I as [i I].
    assert (Li : i < length (s_pool (fst (step (steps s a) (LKill A V E))))) by (rewrite <- L3; apply nth_error_Some; congruence).
    destruct (nth_error (s_pool (fst (step (steps s a) (LKill A V E)))) i) as [v|] eqn:Ev; [|apply nth_error_None in Ev; lia].
    assert (v = @WDead A V E) by (unfold pool_dead in D2; rewrite Forall_forall in D2; apply D2; eapply nth_error_In; eauto). subst v.
    specialize (D3 _ Ev). congruence.
  Qed.

  (* a terminated pool accepts nothing, never runs again and starts no worker in place of a dead one *)
  Theorem C171_stays : forall (s : st) ls, s_state s = PTerm ->
    s_state (steps s ls) = PTerm /\
    (forall w, nth_error (s_pool s) w = Some (@WDead A V E) -> nth_error (s_pool (steps s ls)) w = Some (@WDead A V E)) /\
    (forall f x pf, step (steps s ls) (LApply f x pf) = (steps s ls, ARaise V E EValue)) /\
    (forall f xs c n pf, step (steps s ls) (LMap f xs c n pf) = (steps s ls, ARaise V E EValue)) /\
    (forall o f xs c pf, step (steps s ls) (LIter o f xs c pf) = (steps s ls, ARaise V E EValue)).
  Proof.
    intros s ls T. destruct (steps_frame ls s T) as (T' & _ & _ & _ & D & _).
    split; [exact T'|]. split; [exact D|].
    assert (R : running (steps s ls) = false) by (unfold running; now rewrite T').
    repeat split; intros; cbn [Pool.step]; now rewrite R.
  Qed.

  (* a job without result when the pool is terminated never gets one: get() without a timeout waits for ever;
     a result that is there stays *)
  Theorem C171_results_frozen : forall (s : st) ls j r, s_state s = PTerm -> dget j (s_objs s) = Some r ->
    exists r', dget j (s_objs (steps s ls)) = Some r' /\ obj_get r' = obj_get r.
  Proof. intros s ls j r T. apply (steps_frame ls s T). Qed.
  Theorem C171_pending_refuted : forall (s : st) ls j, pending s j -> pending (steps s (LTerm A V E :: ls)) j.
  Proof.
    intros s ls j (r & G & N).
    destruct (@C171_results_frozen (fst (step s (LTerm A V E))) ls j r eq_refl G) as (r' & G' & N').
    exists r'. split; [exact G'|congruence].
  Qed.
End Term.
Print Assumptions C171_workers_end.
Print Assumptions C171_stays.
Print Assumptions C171_results_frozen.
Print Assumptions C171_pending_refuted.

(* one job done, one being worked on and one waiting: the second worker is killed, the third job is left *)
Example C171_nonvacuous :
  let f := fun x : nat => @Good nat nat x in
  let ap := fun x => LApply f x (fun _ => None) in
  let s := run 2 [ap 1; ap 2; ap 3; LTake _ _ _ 0; LTake _ _ _ 1; LFinish _ _ _ 0; LResult _ _ _; LTerm _ _ _] in
  let s' := steps 2 s [LTake _ _ _ 0; LFinish _ _ _ 0; LResult _ _ _; LHandler _ _ _; LKill _ _ _; LHandler _ _ _] in
  map (fun j => match dget j (s_objs s') with Some r => obj_get r | None => None end) [0; 1; 2] = [Some (GOne _ (PV 1)); None; None]
  /\ s_pool s' = [WDead; WDead] /\ s_log s' <> s_log s.
Proof. vm_compute. repeat split; discriminate. Qed.

(* ---- C205: P2PPool.close ---- *)
Theorem C205_refuted : forall A V E procs (s : st A V E) ls j,
  pending s j -> pending (steps procs s (p2p_close A V E :: ls)) j.
Proof. intros A V E procs. exact (@C171_pending_refuted A V E procs). Qed.
Print Assumptions C205_refuted.
Theorem C205_partial : forall A V E procs (s : st A V E) ls,
  let s' := steps procs s (p2p_close A V E :: ls) in
  (forall j r, dget j (s_objs s) = Some r -> exists r', dget j (s_objs s') = Some r' /\ obj_get r' = obj_get r) /\
  (handlers_then_kill ls -> pool_dead s' /\ s_wh s' = false /\ s_rh s' = false) /\
  (forall f x pf, step procs s' (LApply f x pf) = (s', ARaise V E EValue)).
Proof.
  intros A V E procs s ls. cbv zeta. change (steps procs s (p2p_close A V E :: ls)) with (steps procs (set_state PTerm s) ls).
  assert (T : s_state (set_state PTerm s) = PTerm) by reflexivity.
  split; [intros j r G; apply (@C171_results_frozen A V E procs (set_state PTerm s) ls j r T G)|]. split.
  - intros H. destruct (@C171_workers_end A V E procs _ ls T H) as (a & _ & b & c). auto.
  - apply (@C171_stays A V E procs _ ls T).
Qed.
Print Assumptions C205_partial.
(* the same schedule after close() of P2PPool and of Pool *)
Example C205_nonvacuous :
  let f := fun x : nat => @Good nat nat x in
  let ap := fun x => LApply f x (fun _ => None) in
  let after c := steps 1 (run 1 [ap 1; ap 2; c]) [LTake _ _ _ 0; LFinish _ _ _ 0; LResult _ _ _; LTake _ _ _ 0; LFinish _ _ _ 0; LResult _ _ _] in
  let got s := map (fun j => match dget j (s_objs s) with Some r => obj_get r | None => None end) [0; 1] in
  got (after (p2p_close _ _ _)) = [None; None] /\ got (after (LClose _ _ _)) = [Some (GOne _ (PV 1)); Some (GOne _ (PV 2))].
Proof. vm_compute. repeat split. Qed.
