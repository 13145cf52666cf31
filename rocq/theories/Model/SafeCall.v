(* machin/frame/algorithms/utils.py safe_call, 113-158: matching of the stored dictionaries
   with the signature of the called method.

   Simplifications: moving tensors to the input device, wrapping the result and the choice of the
   device are dropped; no dictionary has the key "self". Values are arbitrary. *)
From Verif Require Import Lib.Base Lib.Str.
Set Implicit Arguments.

(* inspect.getfullargspec without the leading self *)
Record sig := Sig {
  pos : list string;            (* positional parameters *)
  defaults : nat;               (* number of defaults, belonging to the last positional parameters; 0 = None *)
  varargs : bool;               (* has *args *)
  kwonly : list string;         (* keyword-only parameters *)
  kwdefaults : list string;     (* those of them that have a default *)
  varkw : bool                  (* has **kwargs *)
}.

(* l[-n:] for 0 < n <= len(l) *)
Definition last_n {A} (n : nat) (l : list A) : list A := skipn (length l - n) l.
Definition inb (k : string) (l : list string) : bool := existsb (eqb k) l.

Section V.
  Context {V : Type}.
  Definition args (s : sig) : list string := pos s ++ kwonly s.                           (* 119 *)
  Definition args_with_defaults (s : sig) : list string :=                                (* 120-123 *)
    if defaults s =? 0 then [] else last_n (defaults s) (args s).
  Definition required (s : sig) : list string :=                                          (* 124-132 *)
    filter (fun k => negb (inb k (args_with_defaults s)) && negb (inb k (kwdefaults s)))%bool (args s).
  (* 133-142: later dictionaries overwrite *)
  Definition fill_one (s : sig) (acc na : list (string * V)) : list (string * V) :=
    fold_left (fun a kv =>
      if (inb (fst kv) (args s) || varargs s || varkw s)%bool then dset (fst kv) (snd kv) a else a) na acc.
  Definition args_dict (s : sig) (named : list (list (string * V))) : list (string * V) :=
    fold_left (fill_one s) named [].
  (* 145-154 *)
  Definition check (s : sig) (named : list (list (string * V))) : res (list (string * V)) :=
    let d := args_dict s named in
    if forallb (fun k => dmem k d) (required s) then Ok d else Err ERuntime.
  (* Python binds the keyword arguments of method( ** args_dict ), 156-159 *)
  Definition without_default (s : sig) : list string :=
    firstn (length (pos s) - defaults s) (pos s) ++ filter (fun k => negb (inb k (kwdefaults s))) (kwonly s).
  Definition bind_call (s : sig) (d : list (string * V)) : res (list (string * V)) :=
    if forallb (fun kv => inb (fst kv) (args s) || varkw s)%bool d
    then if forallb (fun k => dmem k d) (without_default s) then Ok d else Err EType
    else Err EType.
  Definition safe_call (s : sig) (named : list (list (string * V))) : res (list (string * V)) :=
    bind (check s named) (bind_call s).
End V.
