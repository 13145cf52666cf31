(* Specification of a weight tree: a table of leaf weights. *)
From Coq Require Import List ZArith Qcanon.
From Verif Require Import Model.WeightTree.
Import ListNotations.

(* the table after one write *)
Definition tset (f : nat -> Qc) (i : nat) (x : Qc) : nat -> Qc :=
  fun k => if Nat.eqb k i then x else f k.

(* the table after one operation *)
Definition spec_step (f : nat -> Qc) (o : wop) : nat -> Qc :=
  match o with
  | WLeaf w i => tset f (Z.to_nat i) w
  | WBatch ws is => fold_left (fun f p => tset f (Z.to_nat (fst p)) (snd p)) (combine is ws) f
  | WAll ws => fun k => nth k ws 0%Qc
  end.
Definition spec_run (os : list wop) : nat -> Qc := fold_left spec_step os (fun _ => 0%Qc).

(* calls respecting the documented index range [0, size-1] and lengths *)
Definition valid_idx (size : nat) (i : Z) : Prop := (0 <= i < Z.of_nat size)%Z.
Definition valid_op (size : nat) (o : wop) : Prop :=
  match o with
  | WLeaf _ i => valid_idx size i
  | WBatch ws is => length ws = length is /\ (forall i, In i is -> valid_idx size i)
  | WAll ws => length ws = size
  end.

(* total of the leaves a, a+1, ..., a+n-1 *)
Fixpoint total_from (f : nat -> Qc) (a n : nat) : Qc :=
  match n with O => 0%Qc | S m => (f a + total_from f (S a) m)%Qc end.
(* cumulative weight of the leaves before i *)
Definition prefix (f : nat -> Qc) (i : nat) : Qc := total_from f 0 i.

(* the weights written since the last complete rewrite of the leaves (initially one 0) *)
Definition written_step (acc : list Qc) (o : wop) : list Qc :=
  match o with
  | WLeaf w _ => acc ++ [w]
  | WBatch ws _ => acc ++ ws
  | WAll ws => ws
  end.
Definition written_since_reset (os : list wop) : list Qc := fold_left written_step os [0%Qc].
Definition is_max (m : Qc) (l : list Qc) : Prop := In m l /\ forall x, In x l -> (x <= m)%Qc.
