(* machin/parallel/queue.py 42-163: SimpleQueue, a pipe shared by several processes on both sides.
   An object is the list of symbols it is serialised to; Connection.send_bytes writes the length and then the
   symbols, and recv_bytes reads the length and then that many symbols.  Every symbol is one step, so that other
   processes may run in between.  The length is a single symbol here.  Locks are those of multiprocessing:
   nobody releases the lock of a dead process. *)
From Verif Require Import Lib.Base.
Set Implicit Arguments.

Definition message := list nat.
Definition frame (m : message) : list nat := length m :: m.

Inductive proc :=
| Idle
| PutWait (m : message)                 (* put, 125-133: waits for _wlock *)
| Putting (rest : list nat)             (* holds _wlock, rest is not written yet *)
| QPutting (rest : list nat)            (* quick_put, 149-160: no lock *)
| GetWait (timed : bool)                (* get, 94-110: waits for _rlock, without time limit in any case *)
| Polling (timed : bool)                (* holds _rlock, recv_bytes 24-34: poll(timeout) *)
| Reading (n : nat) (acc : message)     (* holds _rlock, n symbols to go *)
| QPolling (timed : bool)               (* quick_get, 135-147: no lock *)
| QReading (n : nat) (acc : message)
| Dead.

(* pipe: written and not yet read.  sent, got: the messages in the order in which their sending began and
   their receiving ended (ghost).  late: the processes whose get or quick_get ended with TimeoutError (ghost). *)
Record st := MkSt {
  procs : list (nat * proc); pipe : list nat; wlock : option nat; rlock : option nat;
  sent : list message; got : list message; late : list nat }.
Definition init : st := MkSt [] [] None None [] [] [].

Inductive label :=
| LPut (p : nat) (m : message) | LQPut (p : nat) (m : message)
| LGet (p : nat) (timed : bool) | LQGet (p : nat) (timed : bool)
| LStep (p : nat)                       (* the process goes on *)
| LTimeout (p : nat)                    (* poll() returned False after the time limit *)
| LCrash (p : nat).

Definition proc_of (s : st) (p : nat) : proc := match dget p (procs s) with Some x => x | None => Idle end.
Definition set_proc (p : nat) (x : proc) (s : st) : st :=
  MkSt (dset p x (procs s)) (pipe s) (wlock s) (rlock s) (sent s) (got s) (late s).
Definition set_pipe (l : list nat) (s : st) : st := MkSt (procs s) l (wlock s) (rlock s) (sent s) (got s) (late s).
Definition set_wlock (o : option nat) (s : st) : st := MkSt (procs s) (pipe s) o (rlock s) (sent s) (got s) (late s).
Definition set_rlock (o : option nat) (s : st) : st := MkSt (procs s) (pipe s) (wlock s) o (sent s) (got s) (late s).
Definition add_sent (m : message) (s : st) : st := MkSt (procs s) (pipe s) (wlock s) (rlock s) (sent s ++ [m]) (got s) (late s).
Definition add_got (m : message) (s : st) : st := MkSt (procs s) (pipe s) (wlock s) (rlock s) (sent s) (got s ++ [m]) (late s).
Definition add_late (p : nat) (s : st) : st := MkSt (procs s) (pipe s) (wlock s) (rlock s) (sent s) (got s) (late s ++ [p]).

Definition go (p : nat) (s : st) : st :=
  match proc_of s p with
  | PutWait m => match wlock s with
                 | None => set_proc p (Putting (frame m)) (add_sent m (set_wlock (Some p) s))
                 | Some _ => s
                 end
  | Putting (x :: r) => set_proc p (Putting r) (set_pipe (pipe s ++ [x]) s)
  | Putting [] => set_proc p Idle (set_wlock None s)
  | QPutting (x :: r) => set_proc p (QPutting r) (set_pipe (pipe s ++ [x]) s)
  | QPutting [] => set_proc p Idle s
  | GetWait t => match rlock s with
                 | None => set_proc p (Polling t) (set_rlock (Some p) s)
                 | Some _ => s
                 end
  | Polling _ => match pipe s with x :: r => set_proc p (Reading x []) (set_pipe r s) | [] => s end
  | Reading (S n) acc => match pipe s with x :: r => set_proc p (Reading n (acc ++ [x])) (set_pipe r s) | [] => s end
  | Reading 0 acc => set_proc p Idle (add_got acc (set_rlock None s))
  | QPolling _ => match pipe s with x :: r => set_proc p (QReading x []) (set_pipe r s) | [] => s end
  | QReading (S n) acc => match pipe s with x :: r => set_proc p (QReading n (acc ++ [x])) (set_pipe r s) | [] => s end
  | QReading 0 acc => set_proc p Idle (add_got acc s)
  | Idle | Dead => s
  end.
(* a process begins a call only when it is not in one *)
Definition begin (p : nat) (x : proc) (s : st) : st := match proc_of s p with Idle => set_proc p x s | _ => s end.
Definition step (s : st) (l : label) : st :=
  match l with
  | LPut p m => begin p (PutWait m) s
  | LQPut p m => match proc_of s p with Idle => set_proc p (QPutting (frame m)) (add_sent m s) | _ => s end
  | LGet p t => begin p (GetWait t) s
  | LQGet p t => begin p (QPolling t) s
  | LStep p => go p s
  | LTimeout p => match proc_of s p, pipe s with
                  | Polling true, [] => set_proc p Idle (add_late p (set_rlock None s))
                  | QPolling true, [] => set_proc p Idle (add_late p s)
                  | _, _ => s
                  end
  | LCrash p => set_proc p Dead s
  end.
Definition steps (s : st) (ls : list label) : st := fold_left step ls s.
Definition run (ls : list label) : st := steps init ls.
