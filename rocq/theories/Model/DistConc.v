(* machin/frame/buffers/buffer_d.py 60-76 (the end of the constructor), 78-126 (store_episode, clear, all_clear,
   all_size), 174-178 (services), and the same methods of prioritized_buffer_d.py (79-110, 112-182, 266-276), run
   concurrently by the members of a group.

   A member constructs its buffer by registering its services one after the other and only then creating wr_lock, which
   every service takes first.  store_episode and clear of a member run under its lock and are one step each.  all_clear
   and all_size ask the members in the order of the group (registered_async, which looks the service up and raises
   KeyError if it is not there), then wait for the answers in the same order; a service is executed at any time after
   it was asked for.  An exception of a service reaches the caller as RpcException (_world.py 114-118).
   The prioritized buffer's weights and versions are in DistBuffer.v. *)
From Verif Require Import Lib.Base Model.Buffer.
Set Implicit Arguments.

Section Conc.
  Context {T : Type}.
  Variable ok : T -> bool.
  Variables n cap : nat.                       (* members of the group; capacity of each buffer *)
  Variable services : nat.                     (* services a constructor registers: 3 or 5 *)

  (* m_stage: statements of buffer_d.py 66-76 already executed *)
  Record member := Mb { m_stage : nat; m_buf : buffer T }.
  Definition ready (mb : member) : bool := services <? m_stage mb.       (* wr_lock exists *)

  Inductive kind := KSize | KClear.
  (* registered first and second, 68-71 *)
  Definition found (k : kind) (mb : member) : bool :=
    match k with KSize => 0 <? m_stage mb | KClear => 1 <? m_stage mb end.

  Record dcall := MkCall { c_kind : kind; c_sent : nat; c_lost : bool;   (* a service was not found *)
                           c_ans : nat -> option (res nat) }.
  Record dst := MkDst { d_mem : nat -> member; d_calls : list dcall }.
  Definition dinit : dst := MkDst (fun _ => Mb 0 (b_new cap)) [].

  Definition put {A} (f : nat -> A) (i : nat) (x : A) : nat -> A := fun j => if j =? i then x else f j.
  Definition set_mem (s : dst) (m : nat) (mb : member) : dst := MkDst (put (d_mem s) m mb) (d_calls s).
  Definition set_call (s : dst) (c : nat) (k : dcall) : dst := MkDst (d_mem s) (upd c k (d_calls s)).

  (* what a service does, 174-178: with self.wr_lock: ... *)
  Definition serve (k : kind) (mb : member) : member * res nat :=
    if ready mb then
      match k with
      | KSize => (mb, Ok (b_size (m_buf mb)))
      | KClear => (Mb (m_stage mb) (b_clear (m_buf mb)), Ok 0)
      end
    else (mb, Err EOther).                     (* AttributeError, inside RpcException *)

  Inductive dlabel :=
  | DNew (m : nat)                  (* the constructor on member m proceeds, 66-76 *)
  | DStore (m : nat) (ep : list T)  (* 78-85 on member m *)
  | DLocal (m : nat)                (* clear, 87-92, on member m *)
  | DCall (p : nat) (k : kind)      (* member p calls all_clear or all_size *)
  | DSend (c : nat)                 (* call c asks the next member, 98-101, 118-123 *)
  | DServe (c m : nat).             (* member m answers call c *)

  Definition dstep (s : dst) (l : dlabel) : dst :=
    match l with
    | DNew m => let mb := d_mem s m in
                if ready mb then s else set_mem s m (Mb (S (m_stage mb)) (m_buf mb))
    | DStore m ep => let mb := d_mem s m in
                     if ready mb then set_mem s m (Mb (m_stage mb) (fst (b_store_episode ok (m_buf mb) ep))) else s
    | DLocal m => let mb := d_mem s m in
                  if ready mb then set_mem s m (Mb (m_stage mb) (b_clear (m_buf mb))) else s
    | DCall p k => if ready (d_mem s p)
                   then MkDst (d_mem s) (d_calls s ++ [MkCall k 0 false (fun _ => None)]) else s
    | DSend c =>
        match nth_error (d_calls s) c with
        | None => s
        | Some k =>
            if negb (c_lost k) && (c_sent k <? n) then
              if found (c_kind k) (d_mem s (c_sent k))
              then set_call s c (MkCall (c_kind k) (S (c_sent k)) false (c_ans k))
              else set_call s c (MkCall (c_kind k) (c_sent k) true (c_ans k))
            else s
        end
    | DServe c m =>
        match nth_error (d_calls s) c with
        | None => s
        | Some k =>
            match c_ans k m with
            | Some _ => s
            | None =>
                if m <? c_sent k then
                  let (mb, r) := serve (c_kind k) (d_mem s m) in
                  set_call (set_mem s m mb) c (MkCall (c_kind k) (c_sent k) (c_lost k) (put (c_ans k) m (Some r)))
                else s
            end
        end
    end.
  Definition drun (s : dst) (ls : list dlabel) : dst := fold_left dstep ls s.

  (* fut.wait() for every member in order; None: still waiting *)
  Fixpoint collect (ans : nat -> option (res nat)) (i k : nat) (count : nat) : option (res nat) :=
    match k with
    | 0 => Some (Ok count)
    | S k => match ans i with
             | None => None
             | Some (Err e) => Some (Err e)
             | Some (Ok x) => collect ans (S i) k (count + x)
             end
    end.
  (* what call c has returned or raised by now, if it has *)
  Definition outcome (s : dst) (c : nat) : option (res nat) :=
    match nth_error (d_calls s) c with
    | None => None
    | Some k => if c_lost k then Some (Err EKey)
                else if c_sent k =? n then collect (c_ans k) 0 n 0 else None
    end.
End Conc.
Arguments member : clear implicits.
Arguments dst : clear implicits.
Arguments dlabel : clear implicits.
