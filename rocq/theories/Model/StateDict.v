(* machin/utils/prepare.py: prep_load_state_dict 40-49, and torch.nn.Module.load_state_dict (strict) as far as it is used:
   every parameter whose name and shape occur in the dictionary is overwritten in place; then, if a name is unexpected or a
   shape differs, RuntimeError is raised.

   Simplifications: a tensor has a shape, a device and contents; the conversion of one-element tensors to scalars
   (old checkpoints) is left out. *)
From Verif Require Import Lib.Base Lib.Str.
Set Implicit Arguments.

Section S.
  Context {A : Type}.
  Record tens := MkTens { t_shape : list nat; t_dev : nat; t_val : A }.
  Definition sdict := list (string * tens).

  Definition shape_eqb (a b : list nat) : bool := if list_eq_dec Nat.eq_dec a b then true else false.
  (* param.copy_(input_param): the parameter keeps its device *)
  Definition load1 (sd : sdict) (p : string * tens) : string * tens :=
    match dget (fst p) sd with
    | Some v => if shape_eqb (t_shape (snd p)) (t_shape v)
                then (fst p, MkTens (t_shape (snd p)) (t_dev (snd p)) (t_val v)) else p
    | None => p
    end.
  (* no complaint about one entry of the model: it is there, with the same shape *)
  Definition fits1 (sd : sdict) (p : string * tens) : bool :=
    match dget (fst p) sd with Some v => shape_eqb (t_shape (snd p)) (t_shape v) | None => false end.
  Definition load_state_dict (model sd : sdict) : sdict * res unit :=
    (map (load1 sd) model,
     if (forallb (fits1 sd) model && forallb (fun q => dmem (fst q) model) sd)%bool then Ok tt else Err ERuntime).

  (* 47-48: the moved tensor is dropped; what is left of the loop is the lookup *)
  Fixpoint touch (sd : sdict) (names : list string) : res unit :=
    match names with
    | [] => Ok tt
    | n :: r => match dget n sd with Some _ => touch sd r | None => Err EKey end
    end.
  (* 40-49 *)
  Definition prep_load_state_dict (model sd : sdict) : sdict * res unit :=
    match touch sd (dkeys model) with
    | Err e => (model, Err e)
    | Ok _ => load_state_dict model sd
    end.
End S.
Arguments tens : clear implicits.
Arguments sdict : clear implicits.
