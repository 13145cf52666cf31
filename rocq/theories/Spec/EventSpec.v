(* When a combined event holds, said without the model's is_set. *)
From Verif Require Import Lib.Base Model.Event.
Inductive holds (on : nat -> Prop) : ev -> Prop :=
| holds_leaf l : on l -> holds on (Leaf l)
| holds_or id subs e : In e subs -> holds on e -> holds on (Multi id KOr subs)
| holds_and id subs : (forall e, In e subs -> holds on e) -> holds on (Multi id KAnd subs).

(* the thread with this number is inside wait() and has not been woken *)
Definition asleep (s : st) (w : nat) : Prop := exists x, In x (waiters s) /\ w_id x = w /\ notified x = false.
Definition waits_on (s : st) (w m : nat) : Prop := exists x, In x (waiters s) /\ w_id x = w /\ on x = m.
Definition setting (s : st) (k : nat) : Prop := exists x, In x (setters s) /\ s_id x = k.
