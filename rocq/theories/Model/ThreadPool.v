(* machin/parallel/pool.py: ThreadPool 1240-1326 (setup_queues 1250-1251, pool_inqueue_put 1253-1254, pool_outqueue_get
   1256-1260, terminate_workers 1262-1266, join_workers 1268-1273, maintain_pool 1275-1293, repopulate_pool 1295-1321),
   with worker 722-765, _handle_workers 788-803, _handle_results 806-825, close 576-587, terminate 589-597, join 599-609
   and _finalize_pool 845-868 of BasePool.

   Simplifications.  A task is its job index; jobs of several chunks are several tasks here, and the cache is the list of
   the tasks whose results were not set (a job leaves the cache with its last chunk, Pool.v).  A submission is one step:
   the threads that submit do not race with close and terminate.  The pool is listed by worker ids, so that removing an
   exited thread and starting one for the missing id is a replacement in place.  terminate() sets the state and then waits
   for the two handlers and the workers, as join() does after close(). *)
From Verif Require Import Lib.Base.
Set Implicit Arguments.

Section TPool.
  Variable procs : nat.
  Variable maxtasks : option nat.

  Inductive item := Task (t : nat) | Stop.
  (* a worker with the number of its completed tasks; Gone: the thread has ended *)
  Inductive worker := Idle (k : nat) | Busy (t k : nat) | Gone.
  Inductive pstate := PRun | PClose | PTerm.
  (* top of the loop, in the loop, ended *)
  Inductive pc := Top | Within | Out.
  Record tpool := MkTp { tp_state : pstate; tp_jobs : nat; tp_cache : list nat;
    tp_in : list item; tp_out : list nat; tp_pool : list worker; tp_hnd : pc; tp_res : pc;
    tp_began : list nat;         (* ghost: tasks taken by workers *)
    tp_done : list nat }.        (* ghost: tasks whose results were set *)
  (* 300-351 *)
  Definition tp_new : tpool := MkTp PRun 0 [] [] [] (repeat (Idle 0) procs) Top Top [] [].

  Inductive label :=
  | Submit                       (* a task is submitted *)
  | Close | Terminate
  | Take (w : nat)               (* get() of worker w returns *)
  | Finish (w : nat)             (* the task of worker w returns or raises; its result is put *)
  | Fail (w : nat)               (* the initializer raises in worker w *)
  | Handler                      (* the worker handler proceeds *)
  | Result.                      (* the result handler proceeds *)

  (* 794-796, 807-809 *)
  Definition keep_on (s : tpool) : bool :=
    match tp_state s with PRun => true | PTerm => false | PClose => match tp_cache s with [] => false | _ => true end end.
  (* 749 *)
  Definition retires (k : nat) : bool := match maxtasks with None => false | Some m => m <=? k end.
  Definition renew (w : worker) : worker := match w with Gone => Idle 0 | w => w end.

  Definition set_pool (s : tpool) (p : list worker) : tpool :=
    MkTp (tp_state s) (tp_jobs s) (tp_cache s) (tp_in s) (tp_out s) p (tp_hnd s) (tp_res s) (tp_began s) (tp_done s).
  Definition set_state (s : tpool) (x : pstate) : tpool :=
    MkTp x (tp_jobs s) (tp_cache s) (tp_in s) (tp_out s) (tp_pool s) (tp_hnd s) (tp_res s) (tp_began s) (tp_done s).
  Definition set_hnd (s : tpool) (h : pc) (q : list item) : tpool :=
    MkTp (tp_state s) (tp_jobs s) (tp_cache s) q (tp_out s) (tp_pool s) h (tp_res s) (tp_began s) (tp_done s).
  Definition set_res (s : tpool) (r : pc) : tpool :=
    MkTp (tp_state s) (tp_jobs s) (tp_cache s) (tp_in s) (tp_out s) (tp_pool s) (tp_hnd s) r (tp_began s) (tp_done s).

  Definition tstep (s : tpool) (l : label) : tpool :=
    match l with
    | Submit =>
        match tp_state s with
        | PRun => MkTp PRun (S (tp_jobs s)) (tp_cache s ++ [tp_jobs s]) (tp_in s ++ [Task (tp_jobs s)]) (tp_out s) (tp_pool s)
                       (tp_hnd s) (tp_res s) (tp_began s) (tp_done s)
        | _ => s                                                                      (* ValueError, 388-389 *)
        end
    | Close => match tp_state s with PRun => set_state s PClose | _ => s end          (* 586-587 *)
    | Terminate => set_state s PTerm                                                  (* 595 *)
    | Take w =>
        match nth_error (tp_pool s) w, tp_in s with
        | Some (Idle k), Task t :: q =>
            MkTp (tp_state s) (tp_jobs s) (tp_cache s) q (tp_out s) (upd w (Busy t k) (tp_pool s))
                 (tp_hnd s) (tp_res s) (tp_began s ++ [t]) (tp_done s)
        | Some (Idle k), Stop :: q =>                                                 (* 752-754 *)
            MkTp (tp_state s) (tp_jobs s) (tp_cache s) q (tp_out s) (upd w Gone (tp_pool s))
                 (tp_hnd s) (tp_res s) (tp_began s) (tp_done s)
        | _, _ => s
        end
    | Finish w =>
        match nth_error (tp_pool s) w with
        | Some (Busy t k) =>                                                          (* 759-764 *)
            MkTp (tp_state s) (tp_jobs s) (tp_cache s) (tp_in s) (tp_out s ++ [t])
                 (upd w (if retires (S k) then Gone else Idle (S k)) (tp_pool s))
                 (tp_hnd s) (tp_res s) (tp_began s) (tp_done s)
        | _ => s
        end
    | Fail w => match nth_error (tp_pool s) w with Some (Idle 0) => set_pool s (upd w Gone (tp_pool s)) | _ => s end
    | Handler =>
        match tp_hnd s with
        | Top => if keep_on s then set_hnd s Within (tp_in s)
                 else set_hnd s Out (tp_in s ++ repeat Stop (length (tp_pool s)))     (* 800-802 *)
        | Within => set_hnd (set_pool s (map renew (tp_pool s))) Top (tp_in s)            (* 797 *)
        | Out => s
        end
    | Result =>
        match tp_res s with
        | Top => set_res s (if keep_on s then Within else Out)
        | Within =>
            match tp_out s with
            | [] => set_res s Top                                                     (* TimeoutError, 816-817 *)
            | t :: q =>                                                               (* 819-821 *)
                MkTp (tp_state s) (tp_jobs s) (remove Nat.eq_dec t (tp_cache s)) (tp_in s) q (tp_pool s)
                     (tp_hnd s) Top (tp_began s) (tp_done s ++ [t])
            end
        | Out => s
        end
    end.
  Definition trun (s : tpool) (ls : list label) : tpool := fold_left tstep ls s.

  (* what join() and terminate() wait for *)
  Definition joined (s : tpool) : bool :=
    match tp_hnd s, tp_res s with Out, Out => forallb (fun w => match w with Gone => true | _ => false end) (tp_pool s) | _, _ => false end.
End TPool.
