(* Joint episodes: one episode per agent, all of the same length. *)
From Coq Require Import List Arith.
Import ListNotations.

(* time step [t] of agent [a] in joint episode [k] of the history *)
Definition step_of {T} (h : list (list (list T))) (k t a : nat) : option T :=
  match nth_error h k with
  | Some je => match nth_error je a with Some e => nth_error e t | None => None end
  | None => None
  end.
(* [xs] are the transitions all agents made in one time step of one joint episode *)
Definition joint_step {T} (h : list (list (list T))) (k t : nat) (xs : list T) : Prop :=
  forall a, a < length xs -> nth_error xs a = step_of h k t a.
