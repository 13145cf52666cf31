(* Model of PushPullGradServerImpl.start, stop, manage_model and of the model update and publication in
   _task_reduce_grad (machin/parallel/server/param_server.py 353-396, 436-450), on top of the reduction threads of
   Model/Servers.v, and of PushPullGradServer.pull (187-206).
   [opt p d] is optimizer.step() with the reduced gradients d on the parameters p, or None when a parameter has no
   gradient in d (grad_dict[k] raises KeyError, 442, which ends the thread).
   The learning rate scheduler is never used by the code and is left out, and so is work_event, which only shortens
   the waiting. *)
From Verif Require Import Lib.Rat Model.Servers.
Open Scope nat_scope.
Set Implicit Arguments.

Section GradServer.
  Variables (P : Type) (opt : P -> gdict -> option P).
  Variables (m : rmethod) (bsz maxq primary depth : nat).

  Record gx := MkX {
    x_g : gsys;                       (* queues and threads of all processes *)
    x_pub : nat;                      (* reductions of the primary which have been applied and pushed *)
    x_srv : ostore nat P;             (* the ordered server; model_name is 0 *)
    x_mod : option (P * nat);         (* the managed model of the primary and its pp_version *)
    x_on : nat -> bool;               (* started *)
    x_stop : nat -> bool }.           (* stop_event *)
  Definition set_g (s : gx) (g : gsys) : gx := MkX g (x_pub s) (x_srv s) (x_mod s) (x_on s) (x_stop s).
  Definition fset (f : nat -> bool) (i : nat) (b : bool) : nat -> bool := fun j => if j =? i then b else f j.

  (* 436-450: reduction number x_pub of the primary *)
  Definition publish (s : gx) : gx :=
    match nth_error (r_redm (x_g s primary)) (x_pub s), x_mod s with
    | Some (_, d), Some (p, v) =>
        match opt p d with
        | Some p' => let '(srv, _) := os_push depth (x_srv s) 0 p' (v + 1) v in     (* the answer is not looked at *)
                     MkX (x_g s) (S (x_pub s)) srv (Some (p', v + 1)) (x_on s) (x_stop s)
        | None => let r := x_g s primary in
                  set_g s (setr (x_g s) primary (MkR (r_m r) (r_s r) PDead (r_redm r) (r_reds r)))
        end
    | _, _ => MkX (x_g s) (S (x_pub s)) (x_srv s) (x_mod s) (x_on s) (x_stop s)
    end.

  Inductive xlabel :=
  | XPush (i : nat) (g : gdict)       (* a client's gradient arrives at process i *)
  | XThread (i : nat)                 (* one step of the thread of process i *)
  | XManage (p : P)                   (* 387-391 on the primary *)
  | XStart (i : nat)                  (* 353-356 *)
  | XStop (i : nat)                   (* 358-360 *)
  | XJoined (i : nat).                (* 361-362: the join returns *)
  Definition dead (r : reducer) : bool := match r_pc r with PDead => true | _ => false end.
  Definition unpublished (s : gx) (i : nat) : bool := (i =? primary) && (x_pub s <? length (r_redm (x_g s primary))).
  Definition thread (s : gx) (i : nat) : gx :=
    if negb (x_on s i) || dead (x_g s i) then s
    else if unpublished s i then publish s
    else set_g s (r_step m bsz maxq primary (x_g s) i (x_stop s i)).
  Definition xstep (s : gx) (l : xlabel) : gx :=
    match l with
    | XPush i g => set_g s (c_push (x_g s) i g)
    | XThread i => thread s i
    | XManage p => MkX (x_g s) (x_pub s) (x_srv s) (Some (p, 0)) (x_on s) (x_stop s)
    | XStart i => MkX (x_g s) (x_pub s) (x_srv s) (x_mod s) (fset (x_on s) i true) (x_stop s)
    | XStop i => if x_on s i then MkX (x_g s) (x_pub s) (x_srv s) (x_mod s) (x_on s) (fset (x_stop s) i true) else s
    | XJoined i => if dead (x_g s i) then MkX (x_g s) (x_pub s) (x_srv s) (x_mod s) (x_on s) (fset (x_stop s) i false) else s
    end.
  Definition xinit : gx := MkX g_init 0 [] None (fun _ => false) (fun _ => false).
  Definition xrun (s : gx) (ls : list xlabel) : gx := fold_left xstep ls s.

  (* 198-206: the parameters and version a client gets *)
  Definition pull (s : gx) : res (option (P * nat)) := os_pull (x_srv s) 0 None.
End GradServer.
