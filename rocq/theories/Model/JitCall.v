(* machin/frame/algorithms/maddpg.py MADDPG._jit_safe_call, 704-748: matching of the stored
   dictionaries with the forward method of a scripted actor. Signatures as in Model/SafeCall.v.

   Simplifications: moving tensors to the input device, choosing the device (671-702) and running the
   module asynchronously are dropped; no dictionary has the key "self". An entry None of the argument
   list is Python's None, an entry Some v a value found in a dictionary. *)
From Verif Require Import Lib.Base Lib.Str Model.SafeCall.
Set Implicit Arguments.

Section V.
  Context {V : Type}.
  (* args.index(k) for k in args *)
  Fixpoint index_of (k : string) (l : list string) : nat :=
    match l with
    | [] => 0
    | a :: r => if eqb k a then 0 else S (index_of k r)
    end.
  (* 724-733: later dictionaries overwrite, keys which are no parameters are ignored *)
  Definition put_arg (s : sig) (l : list (option V)) (kv : string * V) : list (option V) :=
    if inb (fst kv) (args s) then upd (index_of (fst kv) (args s)) (Some (snd kv)) l else l.
  (* 721-733 *)
  Definition args_list (s : sig) (named : list (list (string * V))) : list (option V) :=
    fold_left (fun l na => fold_left (put_arg s) na l) named (map (fun _ => None) (args s)).
  (* 736 *)
  Fixpoint not_filled (names : list string) (l : list (option V)) : list string :=
    match names, l with
    | a :: r, None :: l' => a :: not_filled r l'
    | _ :: r, Some _ :: l' => not_filled r l'
    | _, _ => []
    end.
  (* 704-746: the arguments handed to the module, by position *)
  Definition jit_args (s : sig) (named : list (list (string * V))) : res (list (option V)) :=
    let l := args_list s named in
    if existsb (fun k => inb k (required s)) (not_filled (args s) l) then Err ERuntime else Ok l.
  (* 748 and the call forward( *args_list ): a keyword-only parameter takes no positional argument,
     with *args the additional ones are collected there. The result says what every positional
     parameter is bound to. *)
  Definition jit_call (s : sig) (named : list (list (string * V))) : res (list (string * option V)) :=
    bind (jit_args s named) (fun l =>
      if (length (pos s) <? length l) && negb (varargs s) then Err EType else Ok (combine (pos s) l)).
End V.
