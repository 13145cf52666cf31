(* machin/frame/algorithms/maddpg.py: MADDPG._move_to_shared_mem 925-943 and
   _check_parameters_device 945-956.
   Simplifications: list and dict objects are changed in place by the code; the model gives the
   resulting value. Values which are neither tensors nor containers are opaque. Device types are
   natural numbers. *)
From Verif Require Import Lib.Base.
Set Implicit Arguments.

Section M.
  Context {X K : Type}.                            (* tensor data and other values; dictionary keys *)
  (* what a batch is made of *)
  Inductive obj :=
  | Tensor (x : X) (graph shared : bool)           (* graph: part of an autograd graph *)
  | OList (l : list obj)
  | OTuple (l : list obj)
  | ODict (d : list (K * obj))
  | Other (x : X)                                  (* number, string, ... *)
  | ONone.
  (* 926-943: falling off the end returns None *)
  Fixpoint move (o : obj) : obj :=
    match o with
    | Tensor x _ _ => Tensor x false true                              (* 927-930 *)
    | OList l => OList (map move l)                                    (* 931-934 *)
    | OTuple l => OTuple (map move l)                                  (* 935-939 *)
    | ODict d => ODict (map (fun kv => (fst kv, move (snd kv))) d)     (* 940-943 *)
    | Other _ => ONone
    | ONone => ONone
    end.
End M.
Arguments obj : clear implicits.

(* 945-956: set of device types; the check is made after every parameter *)
Fixpoint add_params (ps : list nat) (devices : list nat) : res (list nat) :=
  match ps with
  | [] => Ok devices
  | d :: r =>
      let devices' := if existsb (Nat.eqb d) devices then devices else devices ++ [d] in
      if 1 <? length devices' then Err ERuntime else add_params r devices'
  end.
Fixpoint add_models (ms : list (list nat)) (devices : list nat) : res (list nat) :=
  match ms with
  | [] => Ok devices
  | ps :: r => bind (add_params ps devices) (add_models r)
  end.
Definition check_parameters_device (models : list (list nat)) : res nat :=
  bind (add_models models []) (fun devices =>
    match devices with [] => Err EIndex | d :: _ => Ok d end).
