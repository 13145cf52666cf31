(* machin/auto/launcher.py: the calls of DistributedLauncher.training_step 152-171, test_step 173-175 and _log 222-239 that involve all
   processes: self.log(..., sync_dist=True) of the monitored keys reduces a value over all processes, self.group.barrier()
   ends the step.

   Simplifications: torch.distributed is initialized; collective calls inside of frame.update() are left out (they happen in
   groups of their own). A collective call returns when all processes have called the same operation. *)
From Verif Require Import Lib.Base Model.Launch.
Set Implicit Arguments.

Inductive coll := Reduce | Bar.
Definition coll_eqb (a b : coll) : bool := match a, b with Reduce, Reduce | Bar, Bar => true | _, _ => false end.

Section Calls.
  Context {K V C : Type}.
  Variable esm : K -> bool.        (* log_key in (self._train_esm, self._test_esm), 229 *)
  Definition synced (r : @report K V C) : bool := match r with Logged _ _ s => s | Called _ _ _ => false end.
  (* one training step: the logs of the samples of the batch; false: it has raised *)
  Definition step_colls (batch : list (list (list (K * @value V C)))) : list coll * bool :=
    match batch with
    | [] => ([Bar], true)
    | logs :: _ =>
        let (rs, e) := log_all esm logs in
        let reds := repeat Reduce (length (filter synced rs)) in
        match e with Ok _ => (reds ++ [Bar], true) | Err _ => (reds, false) end
    end.
  Fixpoint proc_colls (steps : list (list (list (list (K * @value V C))))) : list coll :=
    match steps with
    | [] => []
    | b :: r => let (l, alive) := step_colls b in if alive then l ++ proc_colls r else l
    end.
  (* test_step: all samples are logged, there is no barrier *)
  Fixpoint test_colls (samples : list (list (list (K * @value V C)))) : list coll :=
    match samples with
    | [] => []
    | logs :: r =>
        let (rs, e) := log_all esm logs in
        repeat Reduce (length (filter synced rs)) ++ match e with Ok _ => test_colls r | Err _ => [] end
    end.
  Definition test_run (steps : list (list (list (list (K * @value V C))))) : list coll := test_colls (concat steps).
End Calls.

(* all processes call c and go on *)
Fixpoint pop (c : coll) (ps : list (list coll)) : option (list (list coll)) :=
  match ps with
  | [] => Some []
  | [] :: _ => None
  | (x :: r) :: ps => if coll_eqb c x then match pop c ps with Some q => Some (r :: q) | None => None end else None
  end.
Definition meet (ps : list (list coll)) : option (list (list coll)) :=
  match ps with (c :: _) :: _ => pop c ps | _ => None end.
Fixpoint meets (n : nat) (ps : list (list coll)) : option (list (list coll)) :=
  match n with
  | 0 => Some ps
  | S n => match meet ps with Some q => meets n q | None => None end
  end.
