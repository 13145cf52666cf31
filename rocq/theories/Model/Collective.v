(* machin/parallel/distributed/_world.py 321-345 (create_collective_group) and 431-516 (CollectiveGroup: send,
   isend, recv and irecv).  torch's process group: the members are numbered in the order of the sorted ranks; a
   message waits at the receiver until it is received; messages with one source, receiver and tag stay in order.
   Simplifications: tensors are numbers; a receive is one step, which is only possible when a message is there. *)
From Verif Require Import Lib.Base.
Set Implicit Arguments.

Fixpoint insert (x : nat) (l : list nat) : list nat :=
  match l with [] => [x] | y :: r => if x <=? y then x :: l else y :: insert x r end.
Definition sorted (l : list nat) : list nat := fold_right insert [] l.
(* list.index *)
Fixpoint index (x : nat) (l : list nat) : option nat :=
  match l with
  | [] => None
  | y :: r => if Nat.eqb x y then Some 0 else option_map S (index x r)
  end.

(* create_collective_group 340-345 in the process [rank]: the sorted ranks of the group and current_rank *)
Record group := MkGroup { g_ranks : list nat; g_current : option nat }.
Definition create_collective_group (rank : nat) (ranks : list nat) : group :=
  let s := sorted ranks in
  MkGroup s (if existsb (Nat.eqb rank) s then index rank s else None).

(* torch: _get_group_rank (RuntimeError for other ranks) and _get_global_rank *)
Definition group_rank (g : group) (r : nat) : res nat :=
  match index r (g_ranks g) with Some i => Ok i | None => Err ERuntime end.
Definition global_rank (g : group) (i : nat) : res nat :=
  match nth_error (g_ranks g) i with Some r => Ok r | None => Err ERuntime end.

(* waiting messages: source and receiver by their number in the group, tag and content *)
Record msg := MkMsg { m_src : nat; m_dst : nat; m_tag : nat; m_val : nat }.
Definition net := list msg.

(* dist.send and isend, called by the process [me] (a rank of the whole world).  A process outside the group does
   nothing (torch: _rank_not_in_group). *)
Definition send (me : nat) (ranks : list nat) (v dst tag : nat) (n : net) : net * res unit :=
  let g := create_collective_group me ranks in
  match g_current g with
  | None => (n, Ok tt)
  | Some i => match group_rank g dst with
              | Err e => (n, Err e)
              | Ok d => (n ++ [MkMsg i d tag v], Ok tt)
              end
  end.

(* the first waiting message with the given source, receiver and tag *)
Definition fits (src dst tag : nat) (m : msg) : bool :=
  Nat.eqb (m_src m) src && Nat.eqb (m_dst m) dst && Nat.eqb (m_tag m) tag.
Fixpoint take (p : msg -> bool) (n : net) : option (msg * net) :=
  match n with
  | [] => None
  | m :: r => if p m then Some (m, r)
              else match take p r with Some (x, r') => Some (x, m :: r') | None => None end
  end.

Inductive received :=
| Blocked                                   (* nothing there yet: wait() does not return *)
| Got (rank : Z) (v : option nat)           (* result of wait(), content of the tensor if it was written *)
| Raised (e : err).
(* irecv 445-516 followed by wait().  anysource: a message of any source may be delivered, [s] is the choice. *)
Definition irecv (me : nat) (ranks : list nat) (src : option nat) (s : nat) (tag : nat) (n : net) : net * received :=
  let g := create_collective_group me ranks in
  match g_current g with
  | None => (n, Got (-1) None)                                                        (* 466-472 *)
  | Some i =>
      match src with
      | None =>                                                                       (* 480-504 *)
          match take (fits s i tag) n with
          | None => (n, Blocked)
          | Some (m, n') => match global_rank g (m_src m) with
                            | Ok r => (n', Got (Z.of_nat r) (Some (m_val m)))
                            | Err e => (n', Raised e)
                            end
          end
      | Some r =>                                                                     (* 505-516 *)
          match group_rank g r with
          | Err e => (n, Raised e)
          | Ok k => match take (fits k i tag) n with
                    | None => (n, Blocked)
                    | Some (m, n') => (n', Got (Z.of_nat r) (Some (m_val m)))
                    end
          end
      end
  end.

(* any number of processes sending and receiving in one group *)
Inductive act :=
| ASend (me v dst tag : nat)
| ARecv (me : nat) (src : option nat) (s tag : nat).
Inductive event :=
| ESent (me dst tag v : nat) (r : res unit)
| EReceived (me tag : nat) (src : option nat) (r : received).
Definition step (ranks : list nat) (st : net * list event) (a : act) : net * list event :=
  let (n, log) := st in
  match a with
  | ASend me v dst tag => let (n', r) := send me ranks v dst tag n in (n', log ++ [ESent me dst tag v r])
  | ARecv me src s tag => let (n', r) := irecv me ranks src s tag n in (n', log ++ [EReceived me tag src r])
  end.
Definition run (ranks : list nat) (l : list act) : net * list event := fold_left (step ranks) l ([], []).
