(* Configurations: machin/utils/conf.py Config and merge_config, machin/utils/helper_classes.py Object,
   generate_config of the algorithms, machin/auto/config.py fill_default.

   Simplifications: deepcopy is the identity on these immutable values; keys are strings. *)
From Verif Require Import Lib.Base Lib.Str.
Set Implicit Arguments.

(* values: None, a nested dictionary, anything else *)
Inductive val :=
| VNone
| VDict (d : list (string * val))
| VOther (n : nat)
| VAttr.                      (* a bound method or another attribute of the Config object itself *)

(* a plain dict, or a Config: data, const_attrs, instance attribute "call" once assigned *)
Inductive conf :=
| CDict (d : list (string * val))
| CConf (data : list (string * val)) (const : list string) (called : bool).

Definition dunder (k : string) : bool := String.prefix "__" k.
(* attribute names found by __dir__ that do not start with "__" *)
Definition own_attrs : list string := ["data"; "const_attrs"; "attr"; "call"; "get"]%string.
Definition is_own (k : string) : bool := existsb (eqb k) own_attrs.

(* c[k]: dict, or conf.py 31-33 with Object.__getattr__ / attr (helper_classes.py 135-144, 179-182):
   missing keys of a Config give None *)
Definition get_item (c : conf) (k : string) : res val :=
  match c with
  | CDict d => match dget k d with Some v => Ok v | None => Err EKey end
  | CConf data _ _ =>
      if dunder k then Err EAssert
      else if is_own k then Ok VAttr
      else Ok (match dget k data with Some v => v | None => VNone end)
  end.
(* k in c: dict, or conf.py 27-29: hasattr, which never fails because __getattr__ returns None *)
Definition contains (c : conf) (k : string) : res bool :=
  match c with
  | CDict d => Ok (dmem k d)
  | CConf _ _ _ => if dunder k then Err EAssert else Ok true
  end.
(* c[k] = v: dict, or conf.py 35-37 with Object.__setattr__, helper_classes.py 149-174 *)
Definition set_item (c : conf) (k : string) (v : val) : conf * res unit :=
  match c with
  | CDict d => (CDict (dset k v d), Ok tt)
  | CConf data const called =>
      if dunder k then (c, Err EAssert)
      else if eqb k "call"%string then (CConf data const true, Ok tt)
      else if eqb k "data"%string then
        match v with VDict d => (CConf d const called, Ok tt) | _ => (c, Err EValue) end
      else if is_own k then (c, Err ERuntime)
      else if existsb (eqb k) const then (c, Err ERuntime)
      else (CConf (dset k v data) const called, Ok tt)
  end.
(* Config.get, conf.py 17-20; dict.get *)
Definition conf_get (c : conf) (k : string) (default : val) : res val :=
  match c with
  | CDict d => Ok (match dget k d with Some v => v | None => default end)
  | CConf _ _ _ => bind (contains c k) (fun b => if b then get_item c k else Ok default)
  end.
(* iteration: conf.py 22-25 runs over the attributes of the object *)
Definition conf_iter (c : conf) : list string :=
  match c with
  | CDict d => dkeys d
  | CConf _ _ called => ["const_attrs"; "data"]%string ++ (if called then ["call"%string] else [])
  end.

Fixpoint set_all (c : conf) (kvs : list (string * val)) : conf * res unit :=
  match kvs with
  | [] => (c, Ok tt)
  | (k, v) :: r => match set_item c k v with
                   | (c', Ok _) => set_all c' r
                   | (c', Err e) => (c', Err e)
                   end
  end.
(* merge_config, conf.py 117-131: on a copy, so an error leaves the caller's object alone *)
Definition merge_config (c merge : conf) : res conf :=
  match merge with
  | CDict d => match set_all c d with (c', Ok _) => Ok c' | (_, Err e) => Err e end
  | CConf data _ _ =>
      match c with
      | CConf _ const _ =>
          match set_all c (filter (fun kv => negb (existsb (eqb (fst kv)) const)) data) with
          | (c', Ok _) => Ok c' | (_, Err e) => Err e end
      | CDict _ => match data with [] => Ok c | _ => Err EAttr end
      end
  end.

(* { ** a, ** b } *)
Definition dict_merge (a b : list (string * val)) : list (string * val) :=
  fold_left (fun acc kv => dset (fst kv) (snd kv) acc) b (fold_left (fun acc kv => dset (fst kv) (snd kv) acc) a []).
(* generate_config, dqn.py 503-536; the same lines with other names and default values in
   a2c.py 466-468, a3c.py 202-204, apex.py 183-185 and 462-464, ars.py 729-731, ddpg.py 541-543,
   gail.py 358-360, impala.py 440-442, maddpg.py 1033-1035, sac.py 457-459 *)
Definition generate_config (frame : val) (default_values : list (string * val)) (config : conf) : res conf :=
  match set_item config "frame" frame with
  | (_, Err e) => Err e
  | (config, Ok _) =>
      bind (contains config "frame_config") (fun present =>
      bind (if present
            then bind (get_item config "frame_config") (fun fc =>
                 match fc with
                 | VDict d => Ok (VDict (dict_merge d default_values))
                 | _ => Err EType          (* { **None } *)
                 end)
            else Ok (VDict default_values)) (fun nv =>
      match set_item config "frame_config" nv with (c, Ok _) => Ok c | (_, Err e) => Err e end))
  end.

(* fill_default, auto/config.py 12-18 *)
Fixpoint fill_keys (default : conf) (keys : list string) (config : conf) : res conf :=
  match keys with
  | [] => Ok config
  | k :: r =>
      bind (contains config k) (fun b =>
      if b then fill_keys default r config
      else bind (get_item default k) (fun v =>
           match set_item config k v with
           | (c, Ok _) => fill_keys default r c
           | (_, Err e) => Err e
           end))
  end.
Definition fill_default (default config : conf) : res conf := fill_keys default (conf_iter default) config.
