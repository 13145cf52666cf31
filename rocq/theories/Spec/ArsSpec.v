(* What statistics of observations, selections and gradients should be. *)
From Coq Require Import QArith.
From Verif Require Import Lib.Rat.
Close Scope Q_scope.
Open Scope nat_scope.

Definition mean_of (xs : list Qc) : Qc := (qsum xs / nq (length xs))%Qc.
Definition sqdev (xs : list Qc) : Qc := qsum (map (fun x => (x - mean_of xs) * (x - mean_of xs))%Qc xs).
Definition unbiased_var (xs : list Qc) : Qc := (sqdev xs / (nq (length xs) - 1))%Qc.

(* how many elements satisfy p *)
Fixpoint count {A} (p : A -> bool) (l : list A) : nat :=
  match l with [] => 0 | x :: r => (if p x then 1 else 0) + count p r end.
