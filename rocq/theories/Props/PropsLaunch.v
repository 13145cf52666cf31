(* C130-C132: the launchers. *)
From Coq Require Import Lia.
From Verif Require Import Lib.Base Model.Launch.
Set Implicit Arguments.

Section Step.
  Context {F O L : Type}.
  Variables (store : F -> list O -> F * res unit) (update : F -> F * res unit) (log : list L -> res unit).
  Notation event := (@event O L).
  Notation sample := (@sample O L).

  (* ---- C130: what a training step does ---- *)
  (* the intended events for one sample, and for a batch whose first sample has number idx *)
  Definition sample_events (train report : bool) (s : sample) : list event :=
    [Stored (s_obs s)] ++ (if train then repeat (@Updated O L) (length (s_obs s)) else []) ++ (if report then [Reported (s_logs s)] else []).
  Fixpoint batch_events (train : bool) (report : nat -> bool) (idx : nat) (batch : list sample) : list event :=
    match batch with [] => [] | s :: r => sample_events train (report idx) s ++ batch_events train report (S idx) r end.
  Definition prefix {A} (p l : list A) : Prop := exists r, l = p ++ r.

  Lemma updates_spec n : forall f, let '(_, es, r) := updates (O := O) (L := L) update n f in
    match r with Ok _ => es = repeat (@Updated O L) n | Err _ => prefix es (repeat (@Updated O L) n) end.
  Proof.
    induction n as [|n IH]; intros f; cbn [updates]; [reflexivity|]. destruct (update f) as [f1 [[]|e]].
    - specialize (IH f1). destruct (updates update n f1) as [[f2 es] [[]|e]]; cbn.
      + now rewrite IH.
      + destruct IH as [r E]. exists r. cbn. now rewrite E.
    - exists (repeat (@Updated O L) (S n)). reflexivity.
  Qed.
  Lemma one_spec train report s f : let '(_, es, r) := one_sample store update log train report s f in
    match r with Ok _ => es = sample_events train report s | Err _ => prefix es (sample_events train report s) end.
  Proof.
    unfold one_sample, sample_events. destruct (store f (s_obs s)) as [f1 [[]|e]]; [|now exists (sample_events train report s)].
    assert (U := updates_spec (length (s_obs s)) f1).
    destruct train.
    - destruct (updates update (length (s_obs s)) f1) as [[f2 es] [[]|e]].
      + subst es. destruct report; [|now rewrite app_nil_r]. destruct (log (s_logs s)) as [[]|e]; [reflexivity|].
        exists [Reported (s_logs s)]. reflexivity.
      + destruct U as [r E]. exists (r ++ (if report then [Reported (s_logs s)] else [])). cbn. rewrite E, <- app_assoc. reflexivity.
    - destruct report; [|reflexivity]. destruct (log (s_logs s)) as [[]|e]; [reflexivity|]. exists [Reported (s_logs s)]. reflexivity.
  Qed.
  Lemma samples_spec train report batch : forall idx f, let '(_, es, r) := samples store update log train report idx batch f in
    match r with Ok _ => es = batch_events train report idx batch | Err _ => prefix es (batch_events train report idx batch) end.
  Proof.
    induction batch as [|s batch IH]; intros idx f; cbn [samples batch_events]; [reflexivity|].
    pose proof (one_spec train (report idx) s f) as H1. destruct (one_sample store update log train (report idx) s f) as [[f1 es] [[]|e]].
    - rewrite Nat.add_1_r. specialize (IH (S idx) f1). destruct (samples store update log train report (S idx) batch f1) as [[f2 es2] [[]|e]].
      + now rewrite H1, IH.
      + destruct IH as [r E]. exists r. rewrite E, H1. now rewrite app_assoc.
    - destruct H1 as [r E]. exists (r ++ batch_events train report (S idx) batch). rewrite E. now rewrite app_assoc.
  Qed.
  (* Launcher: every episode is stored, then there are as many updates as it has steps, then its logs are reported *)
  Theorem C130_local batch f : let '(_, es, r) := training_step store update log batch f in
    let all := concat (map (fun s => Stored (s_obs s) :: repeat (@Updated O L) (length (s_obs s)) ++ [Reported (s_logs s)]) batch) in
    match r with Ok _ => es = all | Err _ => prefix es all end.
  Proof.
    unfold training_step. pose proof (samples_spec true (fun _ => true) batch 0 f) as H.
    assert (E : forall idx, batch_events true (fun _ => true) idx batch =
      concat (map (fun s => Stored (s_obs s) :: repeat (@Updated O L) (length (s_obs s)) ++ [Reported (s_logs s)]) batch)).
    { clear. induction batch as [|s batch IH]; intros idx; cbn; [reflexivity|]. now rewrite IH. }
    destruct (samples _ _ _ _ _ _ _ _) as [[f1 es] [[]|e]]; rewrite E in H; exact H.
  Qed.
  (* DistributedLauncher: no updates in the very first batch, logs of the first sample only, a barrier at the end *)
  Theorem C130_distributed epoch batch_idx batch f : let '(_, es, r) := dist_training_step store update log epoch batch_idx batch f in
    let train := if (epoch =? 0) && (batch_idx =? 0) then false else true in
    let all := match batch with
               | [] => []
               | s :: rest => sample_events train true s ++ concat (map (sample_events train false) rest)
               end in
    match r with Ok _ => es = all ++ [@Barrier O L] | Err _ => prefix es all end.
  Proof.
    unfold dist_training_step.
    replace (negb (epoch =? 0) || negb (batch_idx =? 0)) with (if (epoch =? 0) && (batch_idx =? 0) then false else true)
      by (destruct (epoch =? 0), (batch_idx =? 0); reflexivity).
    set (train := if (epoch =? 0) && (batch_idx =? 0) then false else true). pose proof (samples_spec train (fun idx => idx =? 0) batch 0 f) as H.
    assert (E : forall idx l, batch_events train (fun idx => idx =? 0) (S idx) l = concat (map (sample_events train false) l)).
    { intros idx l. revert idx. induction l as [|s l IH]; intros idx; [reflexivity|]. cbn [batch_events map concat]. now rewrite IH. }
    assert (E0 : batch_events train (fun idx => idx =? 0) 0 batch = match batch with [] => [] | s :: rest => sample_events train true s ++ concat (map (sample_events train false) rest) end).
    { destruct batch as [|s rest]; [reflexivity|]. cbn [batch_events]. now rewrite E. }
    destruct (samples _ _ _ _ _ _ _ _) as [[f1 es] [[]|e]]; rewrite E0 in H; cbn zeta; [now rewrite H|exact H].
  Qed.
  (* an exception: the barrier is not reached, the other processes wait *)
  Theorem C130_no_barrier epoch batch_idx batch f e f' es : dist_training_step store update log epoch batch_idx batch f = (f', es, Err e) ->
    ~ In (@Barrier O L) es.
  Proof.
    pose proof (C130_distributed epoch batch_idx batch f) as H. intros E. rewrite E in H. cbn zeta in H.
    destruct H as [r H]. intros Hin.
    assert (N : forall train report s, ~ In (@Barrier O L) (sample_events train report s)).
    { intros train report s Z. unfold sample_events in Z. rewrite !in_app_iff in Z.
      destruct Z as [[Z|[]]|[Z|Z]]; [discriminate| |destruct report; [destruct Z as [Z|[]]; discriminate|destruct Z]].
      destruct train; [|destruct Z]. apply repeat_spec in Z. discriminate. }
    assert (Z : In (@Barrier O L) (es ++ r)) by (apply in_or_app; now left). rewrite <- H in Z. destruct batch as [|s rest]; [destruct Z|].
    apply in_app_or in Z as [Z|Z]; [now apply N in Z|]. apply in_concat in Z as (l & Hl & Z). apply in_map_iff in Hl as (s' & <- & _). now apply N in Z.
  Qed.
End Step.
Print Assumptions C130_local.
Print Assumptions C130_distributed.
Print Assumptions C130_no_barrier.
Example C130_nonvacuous :
  let store f (l : list nat) := (f + length l, Ok tt) in let update (f : nat) := (f * 2, if 100 <? f then Err EOther else Ok tt) in
  training_step store update (fun _ : list nat => Ok tt) [MkS [1; 2] [9]; MkS [3] []] 1 =
    (26, [Stored [1; 2]; Updated; Updated; Reported [9]; Stored [3]; Updated; Reported []], Ok tt) /\
  dist_training_step store update (fun _ : list nat => Ok tt) 0 1 [MkS [1; 2] [9]; MkS [3] []] 1 =
    (26, [Stored [1; 2]; Updated; Updated; Reported [9]; Stored [3]; Updated; Barrier], Ok tt) /\
  dist_training_step store update (fun _ : list nat => Ok tt) 0 0 [MkS [1; 2] [9]; MkS [3] []] 1 =
    (4, [Stored [1; 2]; Reported [9]; Stored [3]; Barrier], Ok tt).
Proof. repeat split; reflexivity. Qed.

(* ---- C131: training with the on-policy frameworks ---- *)
Section OnPolicy.
  Context {O L : Type} (log : list L -> res unit).
  Hypothesis logs_fine : forall l, log l = Ok tt.
  Theorem C131_one_step_episodes_partial (batch : list (@sample O L)) b : (forall s, In s batch -> length (s_obs s) = 1) ->
    snd (training_step op_store op_update log batch b) = Ok tt.
  Proof.
    intros H. unfold training_step. generalize 0. revert b H. induction batch as [|s batch IH]; intros b H idx; [reflexivity|].
    cbn [samples]. unfold one_sample. pose proof (H s (or_introl eq_refl)) as E. destruct (s_obs s) as [|o [|]] eqn:Eo; try discriminate.
    cbn [op_store length updates]. destruct (op_update (b ++ [o])) as [b1 r] eqn:Eu.
    unfold op_update in Eu. destruct (b ++ [o]) eqn:Eb; [destruct b; discriminate|]. injection Eu as <- <-.
    rewrite logs_fine. specialize (IH [] (fun s' Hs => H s' (or_intror Hs)) (idx + 1)).
    destruct (samples _ _ _ _ _ _ _ _) as [[f es] r]. exact IH.
  Qed.
  (* the first update clears the buffer: every episode with two steps or more ends the training with a TypeError *)
  Theorem C131_refuted (s : @sample O L) batch b : 2 <= length (s_obs s) ->
    training_step op_store op_update log (s :: batch) b = ([], [Stored (s_obs s); @Updated O L], Err EType).
  Proof.
    intros H. unfold training_step. cbn [samples]. unfold one_sample. destruct (s_obs s) as [|o [|o2 l]] eqn:Eo; cbn in H; try lia.
    cbn [op_store length updates]. destruct (op_update (b ++ o :: o2 :: l)) as [b1 r] eqn:Eu. unfold op_update in Eu.
    destruct (b ++ o :: o2 :: l) eqn:Eb; [destruct b; discriminate|]. injection Eu as <- <-. cbn [op_update]. reflexivity.
  Qed.
  Theorem C131_distributed_refuted (s : @sample O L) batch b epoch batch_idx : 2 <= length (s_obs s) -> epoch <> 0 \/ batch_idx <> 0 ->
    dist_training_step op_store op_update log epoch batch_idx (s :: batch) b = ([], [Stored (s_obs s); @Updated O L], Err EType).
  Proof.
    intros H T. unfold dist_training_step.
    replace (negb (epoch =? 0) || negb (batch_idx =? 0)) with true by (destruct (Nat.eqb_spec epoch 0), (Nat.eqb_spec batch_idx 0); cbn; auto; lia).
    cbn [samples]. unfold one_sample. destruct (s_obs s) as [|o [|o2 l]] eqn:Eo; cbn in H; try lia.
    cbn [op_store length updates]. destruct (op_update (b ++ o :: o2 :: l)) as [b1 r] eqn:Eu. unfold op_update in Eu.
    destruct (b ++ o :: o2 :: l) eqn:Eb; [destruct b; discriminate|]. injection Eu as <- <-. cbn [op_update]. reflexivity.
  Qed.
End OnPolicy.
Print Assumptions C131_one_step_episodes_partial.
Print Assumptions C131_refuted.
Print Assumptions C131_distributed_refuted.
Example C131_nonvacuous :
  training_step op_store op_update (fun _ : list nat => Ok tt) [MkS [1] [7]; MkS [2] [8]] [] =
    ([], [Stored [1]; Updated; Reported [7]; Stored [2]; Updated; Reported [8]], Ok tt) /\
  snd (training_step op_store op_update (fun _ : list nat => Ok tt) [MkS [1; 2] [7]] []) = Err EType.
Proof. split; reflexivity. Qed.

(* ---- C132: every logged value is reported once ---- *)
Section Log.
  Context {K V C : Type} (sync : K -> bool).
  Notation value := (@value V C).
  (* (data, function) is handed to the function, everything else to the logger *)
  Definition wanted (kv : K * value) : @report K V C :=
    match kv with
    | (k, Tuple (x :: EC c :: _)) => Called c k x
    | (k, v) => Logged k v (sync k)
    end.
  Definition long_enough (kv : K * value) : Prop := match snd kv with Tuple l => 2 <= length l | Plain _ => True end.
  Theorem C132_partial (logs : list (list (K * value))) : (forall l kv, In l logs -> In kv l -> long_enough kv) ->
    log_all sync logs = (map wanted (concat logs), Ok tt).
  Proof.
    intros H. unfold log_all.
    assert (H' : forall kv, In kv (concat logs) -> long_enough kv) by (intros kv Z; apply in_concat in Z as (l & Hl & Z); eauto).
    clear H. induction (concat logs) as [|[k v] l IH]; [reflexivity|]. cbn [log_items map].
    assert (E : log_one sync k v = Ok (wanted (k, v))).
    { pose proof (H' (k, v) (or_introl eq_refl)) as Z. unfold long_enough in Z. cbn in Z.
      destruct v as [v|[|x [|[v|c] t]]]; cbn in *; try lia; reflexivity. }
    rewrite E, IH by (intros kv Z; apply H'; now right). reflexivity.
  Qed.
  (* a tuple with fewer than two elements, for instance from the info of the environment, ends the training step *)
  Theorem C132_refuted (before : list (K * value)) k l after rest : length l < 2 -> (forall kv, In kv before -> long_enough kv) ->
    log_all sync ((before ++ (k, Tuple l) :: after) :: rest) = (map wanted before, Err EIndex).
  Proof.
    intros H HB. unfold log_all. cbn [concat]. rewrite <- app_assoc. cbn [app].
    induction before as [|[k' v] before IH]; cbn [app log_items map].
    - unfold log_one. destruct l as [|x [|y l]]; cbn in H |- *; try lia; reflexivity.
    - assert (E : log_one sync k' v = Ok (wanted (k', v))).
      { pose proof (HB (k', v) (or_introl eq_refl)) as Z. unfold long_enough in Z. cbn in Z.
        destruct v as [v|[|x [|[v|c] t]]]; cbn in *; try lia; reflexivity. }
      rewrite E, IH by (intros kv Z; apply HB; now right). reflexivity.
  Qed.
End Log.
Print Assumptions C132_partial.
Print Assumptions C132_refuted.
Example C132_nonvacuous :
  log_all (C := nat) (fun k => k =? 1) [[(1, Plain 5); (2, Tuple [EV 6; EC 100])]; [(3, Tuple [EV 7; EV 8; EV 9])]] =
    ([Logged 1 (Plain 5) true; Called 100 2 (EV 6); Logged 3 (Tuple [EV 7; EV 8; EV 9]) false], Ok tt) /\
  snd (log_all (C := nat) (fun k => k =? 1) [[(1, Plain 5); (2, Tuple [EV 6])]]) = Err EIndex.
Proof. split; reflexivity. Qed.
