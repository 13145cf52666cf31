(* machin/parallel/thread.py Thread 9-73 and machin/parallel/process.py Process 11-87: reporting of
   exceptions to the owner.

   Simplifications: a message on the pipe is a number of bytes; the pipe holds at most cap bytes
   (the operating system buffer, 64 KiB on Linux); exceptions are opaque; the child is not killed from
   outside; both ends of the pipe stay open. *)
From Verif Require Import Lib.Base.
Set Implicit Arguments.

Section Watch.
  Context {X : Type}.
  (* run: thread.py 57-73, process.py 71-87; outcome of the target, and of the cleaner if there is one *)
  Definition run_exceptions (target : option X) (cleaner : option (option X)) : list X :=
    (match target with Some e => [e] | None => [] end) ++
    (match cleaner with Some (Some e) => [e] | _ => [] end).

  (* Thread: what run() has recorded *)
  Record thread := { exc_str : list X; has_exc : bool }.
  Definition t_new : thread := Build_thread [] false.
  Definition t_finish (target : option X) (cleaner : option (option X)) (t : thread) : thread :=
    match run_exceptions target cleaner with
    | [] => t
    | es => Build_thread es true
    end.
  (* 38-43 *)
  Definition t_exception (t : thread) : option (list X) := if has_exc t then Some (exc_str t) else None.
  (* 45-47: [Some es] = raises *)
  Definition t_watch (t : thread) : option (list X) := if has_exc t then t_exception t else None.
End Watch.

(* Process *)
Inductive child := Running | Sending (rest : nat) | Exited.
Inductive parent :=
| Idle
| Joining                               (* watch, line 54 *)
| Reading (raise : bool) (got : nat).   (* recv, line 49; from watch or from the property *)
Inductive answer := Raised | Silent | Some_exception | No_exception.
Record pst := { ch : child; pipe : nat; par : parent; cached : bool; answers : list answer }.
Definition p_new : pst := Build_pst Running 0 Idle false [].

Inductive plabel :=
| ChildEnd              (* target and cleaner are done, 71-85 *)
| ChildWrite (n : nat)  (* part of 87 *)
| Watch                 (* 52-53: poll *)
| Joined                (* 54-55, then 44-46 *)
| Exception             (* the property, 43-50 *)
| Read (n : nat).       (* part of recv *)

Section Process.
  Variables cap size : nat.       (* of the pipe; of the message *)
  Variable fails : bool.          (* the target or the cleaner raises *)
  Definition pstep (s : pst) (a : plabel) : pst :=
    match a with
    | ChildEnd =>
        match ch s with
        | Running => Build_pst (if fails then Sending size else Exited) (pipe s) (par s) (cached s) (answers s)
        | _ => s
        end
    | ChildWrite n =>
        match ch s with
        | Sending rest =>
            if ((1 <=? n) && (n <=? rest) && (pipe s + n <=? cap))%bool then
              Build_pst (if n =? rest then Exited else Sending (rest - n)) (pipe s + n) (par s) (cached s) (answers s)
            else s
        | _ => s
        end
    | Watch =>
        match par s with
        | Idle => if 1 <=? pipe s then Build_pst (ch s) (pipe s) Joining (cached s) (answers s)
                  else Build_pst (ch s) (pipe s) Idle (cached s) (answers s ++ [Silent])
        | _ => s
        end
    | Joined =>
        match par s, ch s with
        | Joining, Exited =>
            if cached s then Build_pst (ch s) (pipe s) Idle true (answers s ++ [Raised])
            else Build_pst (ch s) (pipe s) (Reading true 0) false (answers s)
        | _, _ => s
        end
    | Exception =>
        match par s with
        | Idle => if cached s then Build_pst (ch s) (pipe s) Idle true (answers s ++ [Some_exception])
                  else if 1 <=? pipe s then Build_pst (ch s) (pipe s) (Reading false 0) false (answers s)
                  else Build_pst (ch s) (pipe s) Idle false (answers s ++ [No_exception])
        | _ => s
        end
    | Read n =>
        match par s with
        | Reading raise got =>
            if ((1 <=? n) && (n <=? pipe s))%bool then
              if got + n =? size then
                Build_pst (ch s) (pipe s - n) Idle true (answers s ++ [if raise then Raised else Some_exception])
              else Build_pst (ch s) (pipe s - n) (Reading raise (got + n)) (cached s) (answers s)
            else s
        | _ => s
        end
    end.
  Definition prun (s : pst) (ls : list plabel) : pst := fold_left pstep ls s.
End Process.
