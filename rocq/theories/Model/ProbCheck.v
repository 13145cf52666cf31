(* machin/frame/algorithms/utils.py: assert_output_is_probs 189-203, and act_discrete of machin/frame/algorithms/ddpg.py
   276-284 after the call of the actor (maddpg.py 405-460 has the same lines).

   Simplifications: numbers are exact rationals, infinities or nan; sums are not rounded. A tensor that has not two
   dimensions is represented by its number of dimensions alone. *)
From Verif Require Import Lib.Rat.
Set Implicit Arguments.

Inductive fl := Fin (q : Qc) | PInf | NInf | NaN.
Inductive tensor := Mat (rows : list (list fl)) | OtherDim (d : nat).

Definition fadd (a b : fl) : fl :=
  match a, b with
  | Fin x, Fin y => Fin (x + y)%Qc
  | NaN, _ | _, NaN => NaN
  | PInf, NInf | NInf, PInf => NaN
  | PInf, _ | _, PInf => PInf
  | NInf, _ | _, NInf => NInf
  end.
Definition fsum (l : list fl) : fl := fold_right fadd (Fin 0%Qc) l.       (* torch.sum(tensor, dim=1) *)
Definition fabs (a : fl) : fl :=
  match a with Fin x => Fin (Qcabs x) | PInf | NInf => PInf | NaN => NaN end.
(* a < b; comparisons with nan are false *)
Definition flt (a b : fl) : bool :=
  match a, b with
  | Fin x, Fin y => Qcltb x y
  | NaN, _ | _, NaN => false
  | PInf, _ | _, NInf => false
  | _, _ => true
  end.
Definition fge0 (a : fl) : bool :=
  match a with Fin x => negb (Qcltb x 0%Qc) | PInf => true | _ => false end.
(* 1e-5 *)
Definition eps : Qc := (1 / (nq 10 * nq 10 * nq 10 * nq 10 * nq 10))%Qc.

(* 189-203 *)
Definition assert_output_is_probs (t : tensor) : res unit :=
  match t with
  | Mat rows =>
      if (forallb (fun r => flt (fabs (fadd (fsum r) (Fin (- (1))%Qc))) (Fin eps)) rows && forallb (forallb fge0) rows)%bool
      then Ok tt else Err EValue
  | OtherDim _ => Err EValue
  end.
(* ddpg.py 281-284; [argmax] is t.argmax(action, dim=1), which may return any position of the maximum *)
Definition act_discrete (argmax : list fl -> nat) (t : tensor) : res (list nat) :=
  bind (assert_output_is_probs t) (fun _ =>
  match t with Mat rows => Ok (map argmax rows) | OtherDim _ => Err EIndex end).
