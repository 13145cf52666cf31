(* machin/env/wrappers/openai_gym.py: ParallelWrapperSubProc._call_gym_env_method 362-381 and _worker
   384-423; the terminal flags of both wrappers (39, 45-57, 75-97, 154-158, 225, 236-238, 268).

   Simplifications: indexes are non-negative; worker processes stay alive (worker.watch() finds
   nothing, no KeyboardInterrupt) and handle one command as one step; a queue delivers in order. *)
From Verif Require Import Lib.Base.
Set Implicit Arguments.

Section Env.
  Context {S Cmd R X : Type}.
  Variable exec : nat -> S -> Cmd -> S * (R + X).      (* getattr(env, method)( *args, ** kwargs) *)

  (* workers: environment state and command queue; the shared result queue *)
  Record st := St { workers : list (S * list Cmd); resq : list (nat * (R + X)) }.
  Inductive event := Work (i : nat) | Get.
  Inductive outcome := Returned (rs : list R) | Raised (x : X) | PyError (e : err) | Blocked.

  (* one iteration of _worker, 396-417 *)
  Definition work (i : nat) (s : st) : st :=
    match nth_error (workers s) i with
    | Some (env, c :: q) =>
        let (env', r) := exec i env c in St (upd i (env', q) (workers s)) (resq s ++ [(i, r)])
    | _ => s
    end.
  (* 373-374 *)
  Fixpoint put_all (idxs : list nat) (cmds : list Cmd) (s : st) : st * res unit :=
    match idxs, cmds with
    | i :: is, c :: cs =>
        match nth_error (workers s) i with
        | Some (env, q) => put_all is cs (St (upd i (env, q ++ [c]) (workers s)) (resq s))
        | None => (s, Err EIndex)
        end
    | _ :: _, [] => (s, Err EIndex)
    | [], _ => (s, Ok tt)
    end.
  (* 381 *)
  Fixpoint pick (result : list (nat * R)) (idxs : list nat) : outcome :=
    match idxs with
    | [] => Returned []
    | i :: is =>
        match dget i result, pick result is with
        | Some r, Returned rs => Returned (r :: rs)
        | _, _ => PyError EKey
        end
    end.
  (* 375-381, with the steps of the workers in between; Get on an empty queue waits *)
  Fixpoint collect (idxs : list nat) (result : list (nat * R)) (sched : list event) (s : st) : st * outcome :=
    if length idxs <=? length result then (s, pick result idxs)
    else match sched with
         | [] => (s, Blocked)
         | Work i :: r => collect idxs result r (work i s)
         | Get :: r =>
             match resq s with
             | [] => collect idxs result r s
             | (i, inl v) :: q => collect idxs (dset i v result) r (St (workers s) q)
             | (i, inr x) :: q => (St (workers s) q, Raised x)
             end
         end.
  (* 362-381 *)
  Definition call (idxs : list nat) (cmds : list Cmd) (sched : list event) (s : st) : st * outcome :=
    match put_all idxs cmds s with
    | (s', Err e) => (s', PyError e)
    | (s', Ok _) => collect idxs [] sched s'
    end.
  Definition new (envs : list S) : st := St (map (fun e => (e, [])) envs) [].
End Env.
Arguments st : clear implicits.
Arguments outcome : clear implicits.

(* ---- terminal flags ---- *)
(* numpy: t[idx] = vs, later entries of a repeated index win *)
Fixpoint assign (t : list bool) (idxs : list nat) (vs : list bool) : list bool :=
  match idxs, vs with i :: is, v :: r => assign (upd i v t) is r | _, _ => t end.
(* t[idx] |= vs : t[idx] = t[idx] | vs *)
Definition or_assign (t : list bool) (idxs : list nat) (vs : list bool) : list bool :=
  assign t idxs (map (fun iv => (nth (fst iv) t false || snd iv)%bool) (combine idxs vs)).
Definition t_reset (t : list bool) (idxs : list nat) : list bool := assign t idxs (map (fun _ => false) idxs).
(* np.arange(size)[~terminal] *)
Definition active (t : list bool) : list nat := filter (fun i => negb (nth i t false)) (seq 0 (length t)).
(* a reset or step call that succeeded; for step the terminal values that the environments returned *)
Inductive tcall := TReset (idxs : list nat) | TStep (idxs : list nat) (terminals : list bool).
(* ParallelWrapperSubProc *)
Definition sub_step (t : list bool) (c : tcall) : list bool :=
  match c with TReset is => t_reset t is | TStep is vs => or_assign t is vs end.
(* ParallelWrapperDummy: step refuses terminated environments, 84-85 *)
Definition dummy_step (t : list bool) (c : tcall) : list bool * bool :=
  match c with
  | TReset is => (t_reset t is, true)
  | TStep is vs => if existsb (fun i => nth i t false) is then (t, false) else (or_assign t is vs, true)
  end.
