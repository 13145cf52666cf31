From Verif Require Import Lib.Rat Model.Target.
Open Scope nat_scope.

(* element j of parameter i *)
Definition elem (p : list (list Qc)) (i j : nat) : Qc := nth j (nth i p []) 0%Qc.
Definition has (p : list (list Qc)) (i j : nat) : Prop := i < length p /\ j < length (nth i p []).
(* same numbers and sizes of parameters and buffers *)
Definition same_shape (a b : net) : Prop :=
  map (@length Qc) (n_params a) = map (@length Qc) (n_params b) /\
  map (@length Qc) (n_bufs a) = map (@length Qc) (n_bufs b).
Definition same_shapes (a b : list net) : Prop := Forall2 same_shape a b.
(* number of updates that had update_target set *)
Definition flagged (xs : list (list net * bool)) : nat := length (filter snd xs).
(* soft updates of t towards the successive sources *)
Fixpoint follow (rate : Qc) (t : net) (ss : list net) : net :=
  match ss with [] => t | s :: r => follow rate (fst (soft_update rate t s)) r end.
