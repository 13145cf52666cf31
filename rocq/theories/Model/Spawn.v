(* machin/auto/pl_plugin.py DDPSpawnPlugin._spawn 155-184 together with the part of
   machin/parallel/process.py it uses: watch 52-55, run 71-87.

   Simplifications: every operation of the parent on one process is one step and the processes take
   their steps in between in any order; exception messages fit into the pipe (see Model/Watch.v for
   the case that they do not); terminate() followed by join() ends the process in one step; sleep is
   no step; printing is left out. *)
From Verif Require Export Lib.Base.
Set Implicit Arguments.

Inductive child :=
| Run                (* alive, nothing sent *)
| Sent               (* the exception is in the pipe, the process still lives *)
| Fail               (* the exception is in the pipe, the process has ended *)
| Fine               (* ended without exception *)
| Killed.            (* terminated by the parent *)
Definition alive (c : child) : bool := match c with Run | Sent => true | _ => false end.
Definition message (c : child) : bool := match c with Sent | Fail => true | _ => false end.

Inductive ppc :=
| Watch (i : nat) (should_exit : bool)     (* 169-174 *)
| Check (i : nat) (all_alive : bool)       (* 180: the list comprehension *)
| Join (i : nat)                           (* 183-184 *)
| Kill (i : nat)                           (* 176-178 *)
| Returned
| Raised.                                  (* 179 *)
Record spawn := MkSp { cs : list child; pc : ppc }.

(* 156-167: all processes started *)
Definition spawn0 (n : nat) : spawn := MkSp (repeat Run n) (Watch 0 false).

Definition parent (s : spawn) : spawn :=
  let n := length (cs s) in
  match pc s with
  | Watch i f =>
      match nth_error (cs s) i with
      | Some c =>
          if message c then                                  (* process.py 53 *)
            if alive c then s                                (* 54: join blocks *)
            else MkSp (cs s) (Watch (i + 1) true)            (* 55, caught in pl_plugin.py 172-174 *)
          else MkSp (cs s) (Watch (i + 1) f)
      | None => MkSp (cs s) (if f then Kill 0 else Check 0 true)
      end
  | Check i a =>
      match nth_error (cs s) i with
      | Some c => MkSp (cs s) (Check (i + 1) (a && alive c))
      | None => MkSp (cs s) (if a then Watch 0 false else Join 0)
      end
  | Join i =>
      match nth_error (cs s) i with
      | Some c => if alive c then s else MkSp (cs s) (Join (i + 1))
      | None => MkSp (cs s) Returned
      end
  | Kill i =>
      match nth_error (cs s) i with
      | Some c => MkSp (upd i (if alive c then Killed else c) (cs s)) (Kill (i + 1))
      | None => MkSp (cs s) Raised
      end
  | Returned | Raised => s
  end.

Inductive label :=
| Parent
| Send (k : nat)      (* the target or the cleaner of process k raised, process.py 87 *)
| Exit (k : nat).     (* process k ends *)
Definition step (s : spawn) (l : label) : spawn :=
  match l with
  | Parent => parent s
  | Send k => match nth_error (cs s) k with
              | Some Run => MkSp (upd k Sent (cs s)) (pc s)
              | _ => s
              end
  | Exit k => match nth_error (cs s) k with
              | Some Run => MkSp (upd k Fine (cs s)) (pc s)
              | Some Sent => MkSp (upd k Fail (cs s)) (pc s)
              | _ => s
              end
  end.
Definition run (s : spawn) (ls : list label) : spawn := fold_left step ls s.
