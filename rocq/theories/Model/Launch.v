(* machin/auto/launcher.py: Launcher.training_step 59-64, test_step 66-68, _log 95-101; DistributedLauncher.training_step
   149-170, test_step 172-174, _log 219-239; the buffer part of A2C.update (a2c.py 345-421).

   Simplifications: a frame is a state machine with store_episode and update; what happens is recorded as a list of
   events; the values computed by the networks are left out. *)
From Verif Require Import Lib.Base.
Set Implicit Arguments.

Section Log.
  Context {K V C : Type}.
  (* a logged value: plain, or a tuple; elements are plain or callable *)
  Inductive elem := EV (v : V) | EC (c : C).
  Inductive value := Plain (v : V) | Tuple (l : list elem).
  Inductive report := Logged (k : K) (v : value) (sync : bool) | Called (c : C) (k : K) (x : elem).
  Definition log_one (sync : K -> bool) (k : K) (v : value) : res report :=
    match v with
    | Plain _ => Ok (Logged k v (sync k))
    | Tuple l => match nth_error l 1, nth_error l 0 with
                 | None, _ => Err EIndex                                  (* log_val[1] *)
                 | Some (EC c), Some x => Ok (Called c k x)
                 | _, _ => Ok (Logged k v (sync k))
                 end
    end.
  Fixpoint log_items (sync : K -> bool) (l : list (K * value)) : list report * res unit :=
    match l with
    | [] => ([], Ok tt)
    | (k, v) :: r => match log_one sync k v with
                     | Err e => ([], Err e)
                     | Ok x => let (xs, e) := log_items sync r in (x :: xs, e)
                     end
    end.
  (* both loops of _log *)
  Definition log_all (sync : K -> bool) (logs : list (list (K * value))) : list report * res unit :=
    log_items sync (concat logs).
End Log.

Section Step.
  Context {F O L : Type}.
  Variables (store : F -> list O -> F * res unit) (update : F -> F * res unit) (log : list L -> res unit).
  Record sample := MkS { s_obs : list O; s_logs : list L }.
  Inductive event := Stored (l : list O) | Updated | Reported (l : list L) | Barrier.
  Fixpoint updates (n : nat) (f : F) : F * list event * res unit :=
    match n with
    | 0 => (f, [], Ok tt)
    | S n => match update f with
             | (f, Err e) => (f, [], Err e)
             | (f, Ok _) => let '(f, es, r) := updates n f in (f, Updated :: es, r)
             end
    end.
  (* one sample; train: run the updates, report: log the results *)
  Definition one_sample (train report : bool) (s : sample) (f : F) : F * list event * res unit :=
    match store f (s_obs s) with
    | (f, Err e) => (f, [], Err e)
    | (f, Ok _) =>
        let '(f, es, r) := if train then updates (length (s_obs s)) f else (f, [], Ok tt) in
        match r with
        | Err e => (f, Stored (s_obs s) :: es, Err e)
        | Ok _ => if report then match log (s_logs s) with
                                 | Err e => (f, Stored (s_obs s) :: es, Err e)
                                 | Ok _ => (f, Stored (s_obs s) :: es ++ [Reported (s_logs s)], Ok tt)
                                 end
                  else (f, Stored (s_obs s) :: es, Ok tt)
        end
    end.
  Fixpoint samples (train : bool) (report : nat -> bool) (idx : nat) (batch : list sample) (f : F) : F * list event * res unit :=
    match batch with
    | [] => (f, [], Ok tt)
    | s :: r =>
        let '(f, es, x) := one_sample train (report idx) s f in
        match x with
        | Err e => (f, es, Err e)
        | Ok _ => let '(f, es', x) := samples train report (idx + 1) r f in (f, es ++ es', x)
        end
    end.
  (* 59-64 *)
  Definition training_step (batch : list sample) (f : F) : F * list event * res unit :=
    samples true (fun _ => true) 0 batch f.
  (* 149-170 *)
  Definition dist_training_step (epoch batch_idx : nat) (batch : list sample) (f : F) : F * list event * res unit :=
    let '(f, es, x) := samples (negb (epoch =? 0) || negb (batch_idx =? 0)) (fun idx => idx =? 0) 0 batch f in
    match x with Err e => (f, es, Err e) | Ok _ => (f, es ++ [Barrier], Ok tt) end.
End Step.

(* ---- the replay buffer of A2C, PPO, GAIL and A3C: update samples (passes >= 1) and clears (a2c.py 345-355, 416);
   sampling an empty buffer yields (0, None), unpacking None raises TypeError ---- *)
Section OnPolicy.
  Context {O : Type}.
  Definition op_store (b : list O) (ep : list O) : list O * res unit :=
    match ep with [] => (b, Err EIndex) | _ => (b ++ ep, Ok tt) end.
  Definition op_update (b : list O) : list O * res unit :=
    match b with [] => (b, Err EType) | _ => ([], Ok tt) end.
End OnPolicy.
