(* Keyword arguments, as a function from names: the value of the last dictionary that has the name. *)
From Verif Require Import Lib.Base Lib.Str.
Set Implicit Arguments.

Section V.
  Context {V : Type}.
  (* value of k in one dictionary given as (key, value) pairs with distinct keys *)
  Definition has (k : string) (v : V) (d : list (string * V)) : Prop := In (k, v) d.
  Inductive supplied (k : string) (v : V) : list (list (string * V)) -> Prop :=
  | sup_here d ds : has k v d -> (forall d' v', In d' ds -> ~ has k v' d') -> supplied k v (d :: ds)
  | sup_later d ds : supplied k v ds -> supplied k v (d :: ds).
  (* no dictionary has the name *)
  Definition missing (k : string) (ds : list (list (string * V))) : Prop := forall d v, In d ds -> ~ has k v d.
End V.
