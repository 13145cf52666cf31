(* machin/utils/media.py: create_video_subproc 100-147 (create_image_subproc 177-216 is the case of one frame): a process is started
   that encodes the frames; wait() joins it. At its exit the parent terminates daemonic children and joins the others
   (multiprocessing.util._exit_function).

   Simplifications: frames are written to the file one by one; [bad] are the frames at which encoding raises. The frames
   are pickled by start() of the process (start method "spawn"), the child works on its own copy. *)
From Verif Require Import Lib.Base.
Set Implicit Arguments.

Section MP.
  Context {T : Type}.
  Variables (bad : T -> bool) (daemon : bool).

  Inductive chst := NoChild | Running (todo : list T) | Done | Failed | Killed.
  Inductive parst := PRun | PWaiting | PExiting | PExited.
  Record mst := MkMs { mine : list T;       (* the list of frames of the caller *)
                       child : chst; file : list T; closed : bool;
                       par : parst; waited : bool }.

  (* the call *)
  Definition video_subproc (frames : list T) : mst :=
    MkMs frames (match frames with [] => NoChild | _ => Running frames end) [] false PRun false.

  Inductive mlabel := LChild | LSet (i : nat) (x : T) | LWait | LJoin | LExit.
  Definition set_child (c : chst) (s : mst) : mst := MkMs (mine s) c (file s) (closed s) (par s) (waited s).
  Definition set_par (p : parst) (w : bool) (s : mst) : mst := MkMs (mine s) (child s) (file s) (closed s) p w.
  Definition mpstep (s : mst) (l : mlabel) : mst :=
    match l with
    | LChild =>                                                      (* create_video in the child *)
        match child s with
        | Running [] => MkMs (mine s) Done (file s) true (par s) (waited s)
        | Running (x :: r) =>
            if bad x then set_child Failed s
            else MkMs (mine s) (Running r) (file s ++ [x]) (closed s) (par s) (waited s)
        | _ => s
        end
    | LSet i x =>                                                    (* the caller goes on with its frames *)
        match par s with
        | PRun => MkMs (upd i x (mine s)) (child s) (file s) (closed s) (par s) (waited s)
        | _ => s
        end
    | LWait =>                                                       (* wait() is called *)
        match par s, child s with
        | PRun, NoChild => set_par PRun true s                       (* pass *)
        | PRun, _ => set_par PWaiting (waited s) s
        | _, _ => s
        end
    | LJoin =>                                                       (* p.join() returns when the child has ended *)
        match par s, child s with
        | PWaiting, Running _ => s
        | PWaiting, _ => set_par PRun true s
        | _, _ => s
        end
    | LExit =>                                                       (* end of the program *)
        match par s, child s with
        | PRun, _ => set_par PExiting (waited s) s
        | PExiting, Running _ => if daemon then set_child Killed (set_par PExited (waited s) s) else s
        | PExiting, _ => set_par PExited (waited s) s
        | _, _ => s
        end
    end.
  Definition mprun (s : mst) (ls : list mlabel) : mst := fold_left mpstep ls s.
End MP.
