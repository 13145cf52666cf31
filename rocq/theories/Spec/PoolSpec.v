(* What the pool properties C24-C27 and C54, C55 talk about, in terms of the
   history of a run: submissions, reports of finished chunks and items handed to
   the consumer. *)
From Coq Require Export Permutation.
From Verif Require Import Lib.Base Model.Pool.
Set Implicit Arguments.

Section PoolSpec.
  Variables A V E : Type.
  Notation event := (event A V E).
  Notation st := (st A V E).

  (* reports received so far for job j, in arrival order *)
  Fixpoint reports (j : nat) (log : list event) : list (nat * outcome E (payload V)) :=
    match log with
    | [] => []
    | EReport _ j' k o :: r => if j' =? j then (k, o) :: reports j r else reports j r
    | _ :: r => reports j r
    end.

  (* items handed out so far by the iterator of job j *)
  Fixpoint yields (j : nat) (log : list event) : list (outcome E (payload V)) :=
    match log with
    | [] => []
    | EYield _ j' o :: r => if j' =? j then o :: yields j r else yields j r
    | _ :: r => yields j r
    end.

  Definition submitted (s : st) (j : nat) (jb : job A V E) (pf : nat -> option E) : Prop :=
    In (ESubmit j jb pf) (s_log s).

  Definition reported (s : st) (j k : nat) : Prop :=
    exists o, In (k, o) (reports j (s_log s)).

  (* no task is queued, being executed, waiting in the result queue, or lost in a
     worker that died: every submitted task has completed and been reported *)
  Definition all_completed (s : st) : Prop :=
    (forall t, ~ In (Some t) (s_in s)) /\
    (forall t, ~ In (WBusy t) (s_pool s)) /\
    s_out s = [] /\
    (forall j k, ~ In (ELost A V E j k) (s_log s)).

  (* chunk k of job j is still queued, executing, on its way back, or was lost *)
  Definition outstanding (s : st) (j k : nat) : Prop :=
    (exists t, t_job t = j /\ t_chunk t = k /\ (In (Some t) (s_in s) \/ In (WBusy t) (s_pool s))) \/
    (exists o, In (j, k, o) (s_out s)) \/
    In (ELost A V E j k) (s_log s).

  Definition pvals (p : payload V) : list V := match p with PV v => [v] | PL l => l end.

  (* the slice of the input that chunk k covers *)
  Definition chunk_of {T} (xs : list T) (c k : nat) : list T := firstn c (skipn (k * c) xs).

  (* o is the outcome of applying f to the elements of a chunk; a chunk whose
     task could not be queued reports that exception *)
  Definition chunk_result (f : A -> outcome E V) (pf : nat -> option E) (xs : list A)
             (c k : nat) (o : outcome E (payload V)) : Prop :=
    k * c < length xs /\
    match pf k, o with
    | Some e, Bad e' => e = e'
    | Some _, Good _ => False
    | None, Good p => Forall2 (fun x v => f x = Good v) (chunk_of xs c k) (pvals p)
    | None, Bad e =>
        exists pre x post, chunk_of xs c k = pre ++ x :: post /\
          Forall (fun y => exists v, f y = Good v) pre /\ f x = Bad e
    end.

  (* a submission of imap / imap_unordered over an empty input *)
  Definition empty_iter (jb : job A V E) : Prop :=
    match jb with JIter _ _ xs _ => xs = [] | _ => False end.

  (* number of workers that still have to be joined *)
  Definition live (s : st) : nat := length (filter (@alive A V E) (s_pool s)).

  (* what join() waits for: both handler threads and every worker *)
  Definition joinable (s : st) : Prop :=
    s_wh s = false /\ s_rh s = false /\ live s = 0.

  Definition waiting_for (s : st) : nat :=
    (if s_wh s then 1 else 0) + (if s_rh s then 1 else 0) + live s.

  (* calls of the completion callbacks made by a result object, with the value
     passed; a failure goes to error_callback *)
  Definition map_callbacks (r : robj V E) : list (got V E) :=
    match r with
    | RMap _ _ _ _ cb => map (fun v => match v with MVals _ l => GList _ l | MExc _ e => GRaise _ e end) cb
    | RApply _ _ cb => map (fun o => match o with Good p => GOne _ p | Bad e => GRaise _ e end) cb
    | RIter _ _ _ _ _ => []
    end.
End PoolSpec.

(* every worker in the list uses its own position of the context list *)
Definition own_context {C} (ctxs : list C) (w : cworker C) : Prop :=
  c_id w < length ctxs /\ c_ctx w = nth_error ctxs (c_id w).

Definition fair_order (l : clabel) : Prop :=
  match l with CDie _ => True | CMaint ord => forall ids, Permutation (ord ids) ids end.

(* every process started by the pool that is still running, listed in _pool or not *)
Definition running_procs {C} (s : cpool C) : list (cworker C) :=
  filter (@c_alive C) (cp_gone s ++ cp_pool s).
