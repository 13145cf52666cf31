(* machin/parallel/assigner.py 9-81: ModelSizeEstimator.
   Simplifications: a model is the list of its parameters and the list of its buffers, each with shape and element
   type (named_parameters lists a shared tensor once); numpy's integers do not overflow. *)
From Verif Require Import Lib.Rat.
Set Implicit Arguments.

Inductive dtype :=
| Int8 | UInt8 | TBool | Int16 | Float16 | BFloat16 | Int32 | Float32 | Int64 | Float64 | Complex32 | Complex64 | Complex128.

(* _get_dtype_in_bytes 70-81; t.short, t.half, t.int, t.float, t.long and t.double are other names *)
Definition dtype_bytes (d : dtype) : res nat :=
  match d with
  | Int8 | UInt8 | TBool => Ok 1
  | Int16 | Float16 => Ok 2
  | Int32 | Float32 => Ok 4
  | Int64 | Float64 | Complex32 => Ok 8
  | BFloat16 | Complex64 | Complex128 => Err EValue
  end.

Definition tensor := (list nat * dtype)%type.
Definition prod (s : list nat) : nat := fold_left Nat.mul s 1.     (* np.prod, 1 for a scalar *)

(* the loops 38-40 and 55-57 *)
Fixpoint collect (ts : list tensor) : res (list (list nat) * list nat) :=
  match ts with
  | [] => Ok ([], [])
  | (s, d) :: r => bind (dtype_bytes d) (fun b => bind (collect r) (fun p => Ok (s :: fst p, b :: snd p)))
  end.
Fixpoint times (a b : list nat) : list nat :=
  match a, b with x :: a', y :: b' => x * y :: times a' b' | _, _ => [] end.
Definition mega : Qc := nq (1024 * 1024).
(* get_parameter_sizes 34-48, get_buffer_sizes 50-64 *)
Definition sizes (ts : list tensor) : res Qc :=
  bind (collect ts) (fun p => Ok (nq (list_sum (times (map prod (fst p)) (snd p))) / mega)%Qc).
(* estimate_size 66-69 *)
Definition estimate_size (multiplier : Qc) (params buffers : list tensor) : res Qc :=
  bind (sizes params) (fun a => bind (sizes buffers) (fun b => Ok ((a + b) * multiplier)%Qc)).
