(* machin/parallel/queue.py: MultiP2PQueue 245-281, on top of SimpleP2PQueue 169-242.

   Simplifications: a sub queue delivers whole objects in order (a pipe); one reader at a time, as in
   the result handler of P2PPool; quick_get without timeout. *)
From Verif Require Import Lib.Base.
Set Implicit Arguments.

Section P2P.
  Context {X : Type}.
  Record mq := {
    counter : nat;
    queues : list (list X);
    scan : option nat;            (* inside quick_get: the sub queue looked at next *)
    log_put : list (nat * X);     (* history: sub queue and object *)
    log_got : list (nat * X)
  }.
  (* 251-255 *)
  Definition mq_new (n : nat) : mq := Build_mq 0 (repeat [] n) None [] [].
  Inductive qlabel :=
  | QuickPut (x : X)        (* 257-261 *)
  | SubPut (i : nat) (x : X)(* get_sub_queue(i).put(x) in a worker *)
  | GetBegin                (* quick_get, 263-265 *)
  | Poll.                   (* one iteration of 268-273 *)
  Definition put (i : nat) (x : X) (s : mq) (c : nat) : mq :=
    Build_mq c (upd i (nth i (queues s) [] ++ [x]) (queues s)) (scan s) (log_put s ++ [(i, x)]) (log_got s).
  Definition qstep (s : mq) (a : qlabel) : mq :=
    match a with
    | QuickPut x =>
        if counter s <? length (queues s) then put (counter s) x s ((counter s + 1) mod length (queues s)) else s
    | SubPut i x => if i <? length (queues s) then put i x s (counter s) else s
    | GetBegin => match scan s with
                  | None => Build_mq (counter s) (queues s) (Some 0) (log_put s) (log_got s)
                  | Some _ => s
                  end
    | Poll =>
        match scan s with
        | None => s
        | Some i =>
            match nth i (queues s) [] with
            | [] => Build_mq (counter s) (queues s) (Some (if S i <? length (queues s) then S i else 0))
                             (log_put s) (log_got s)
            | x :: r => Build_mq (counter s) (upd i r (queues s)) None (log_put s) (log_got s ++ [(i, x)])
            end
        end
    end.
  Definition qrun (s : mq) (ls : list qlabel) : mq := fold_left qstep ls s.
End P2P.
