(* Specification of a replay buffer of whole episodes, independent of the model. *)
From Coq Require Import List Arith.
Import ListNotations.

(* [fit c es], es listed newest first: the episodes that are still retained are
   the longest run of most recent episodes whose total length is at most c. *)
Fixpoint fit {T} (c : nat) (es : list (list T)) : list (list T) :=
  match es with
  | [] => []
  | e :: r => if length e <=? c then e :: fit (c - length e) r else []
  end.

(* history given oldest first, result oldest first *)
Definition retained {T} (cap : nat) (hist : list (list T)) : list (list T) :=
  rev (fit cap (rev hist)).

Definition total {T} (hist : list (list T)) : nat := length (concat hist).

(* calls that are accepted: non-empty episodes whose transitions all carry the
   required attributes *)
Definition accepted {T} (ok : T -> bool) (eps : list (list T)) : list (list T) :=
  filter (fun e => match e with [] => false | _ => forallb ok e end) eps.
