(* machin/parallel/event.py: init_or_register 7-22, MultiEvent 25-74, OrEvent 77-79, AndEvent 82-84.

   Simplifications: threads waiting on the leaf events themselves are not modelled; a leaf event
   has the replaced set() from the moment a combined event registered with it; construction of a combined
   event is one step (it holds the module lock). *)
From Verif Require Import Lib.Base Lib.Rat.
Set Implicit Arguments.

Inductive kind := KOr | KAnd.
(* a threading.Event, or a combined event (identity, class, arguments) *)
Inductive ev :=
| Leaf (l : nat)
| Multi (id : nat) (k : kind) (subs : list ev).

(* get_leaf_events, 53-59 *)
Fixpoint leaves (e : ev) : list nat :=
  match e with
  | Leaf l => [l]
  | Multi _ _ subs => flat_map leaves subs
  end.
(* is_set of Event, OrEvent and AndEvent, 78-79, 83-84 *)
Fixpoint is_set (flag : nat -> bool) (e : ev) : bool :=
  match e with
  | Leaf l => flag l
  | Multi _ KOr subs => existsb (is_set flag) subs
  | Multi _ KAnd subs => forallb (is_set flag) subs
  end.

(* a thread inside wait() of the combined event on, whether it has been notified *)
Record waiter := { w_id : nat; on : nat; notified : bool }.
(* a thread inside new_set (15-20) of a leaf event: position in _magic_parent_events *)
Record setter := { s_id : nat; leaf : nat; pos : nat }.
Record st := {
  objs : list ev;                        (* combined events; the identity is the position *)
  parents : list (nat * list nat);       (* leaf -> _magic_parent_events *)
  flag : nat -> bool;
  waiters : list waiter;
  setters : list setter;
  fresh : nat;
  returned : list (nat * bool)           (* waiter, value of wait() *)
}.
Definition init : st := Build_st [] [] (fun _ => false) [] [] 0 [].

(* 7-22 *)
Definition register (m : nat) (ps : list (nat * list nat)) (l : nat) : list (nat * list nat) :=
  match dget l ps with
  | Some q => dset l (q ++ [m]) ps
  | None => dset l [m] ps
  end.
Definition parents_of (s : st) (l : nat) : list nat :=
  match dget l (parents s) with Some q => q | None => [] end.

Definition known (s : st) (e : ev) : bool :=
  match e with Leaf _ => true | Multi id _ _ => id <? length (objs s) end.
Definition resolve (s : st) (e : ev) : ev :=
  match e with Leaf l => Leaf l | Multi id _ _ => nth id (objs s) (Leaf 0) end.
Definition set_flag (f : nat -> bool) (l : nat) (b : bool) : nat -> bool := fun x => if x =? l then b else f x.
Definition notify (m : nat) (w : waiter) : waiter :=
  if on w =? m then Build_waiter (w_id w) (on w) true else w.

Inductive label :=
| New (k : kind) (subs : list ev)   (* OrEvent(...) / AndEvent(...) over existing events, 27-44 *)
| SetBegin (l : nat)                (* some thread calls set() of a leaf *)
| SetStep (k : nat)                 (* the next iteration of 17-19, or 20 after the last one *)
| Clear (l : nat)
| WaitBegin (m : nat)               (* wait() without timeout: enters cond.wait, 61-65 *)
| WaitEnd (w : nat).                (* a notified thread leaves cond.wait, 66-74 *)

Definition step (s : st) (a : label) : st :=
  match a with
  | New k subs =>
      if forallb (known s) subs then
        let e := Multi (length (objs s)) k (map (resolve s) subs) in
        Build_st (objs s ++ [e]) (fold_left (register (length (objs s))) (leaves e) (parents s))
                 (flag s) (waiters s) (setters s) (fresh s) (returned s)
      else s
  | SetBegin l =>
      if dmem l (parents s) then
        Build_st (objs s) (parents s) (flag s) (waiters s) (setters s ++ [Build_setter (fresh s) l 0])
                 (S (fresh s)) (returned s)
      else Build_st (objs s) (parents s) (set_flag (flag s) l true) (waiters s) (setters s) (fresh s) (returned s)
  | SetStep k =>
      match find (fun x => s_id x =? k) (setters s) with
      | None => s
      | Some x =>
          match nth_error (parents_of s (leaf x)) (pos x) with
          | Some m =>
              Build_st (objs s) (parents s) (flag s) (map (notify m) (waiters s))
                (map (fun y => if s_id y =? k then Build_setter (s_id y) (leaf y) (S (pos y)) else y) (setters s))
                (fresh s) (returned s)
          | None =>
              Build_st (objs s) (parents s) (set_flag (flag s) (leaf x) true) (waiters s)
                (filter (fun y => negb (s_id y =? k)) (setters s)) (fresh s) (returned s)
          end
      end
  | Clear l => Build_st (objs s) (parents s) (set_flag (flag s) l false) (waiters s) (setters s) (fresh s) (returned s)
  | WaitBegin m =>
      if m <? length (objs s) then
        Build_st (objs s) (parents s) (flag s) (waiters s ++ [Build_waiter (fresh s) m false]) (setters s)
                 (S (fresh s)) (returned s)
      else s
  | WaitEnd w =>
      match find (fun x => w_id x =? w) (waiters s) with
      | Some x =>
          if notified x then
            Build_st (objs s) (parents s) (flag s) (filter (fun y => negb (w_id y =? w)) (waiters s)) (setters s)
                     (fresh s) (returned s ++ [(w, is_set (flag s) (nth (on x) (objs s) (Leaf 0)))])
          else s
      | None => s
      end
  end.
Definition run (s : st) (ls : list label) : st := fold_left step ls s.

(* wait(timeout), 61-74: the clock readings after each return of cond.wait; the reading at which
   wait returns *)
Fixpoint wait_loop (timeout begin : Qc) (readings : list Qc) : option Qc :=
  match readings with
  | [] => None
  | r :: rest => if Qcleb timeout (r - begin)%Qc then Some r else wait_loop timeout begin rest
  end.
