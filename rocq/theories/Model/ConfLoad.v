(* machin/utils/conf.py: load_config_cmd 40-87, load_config_file 90-105, save_config 108-113; the configurations and
   merge_config are in Config.v.

   Simplifications: the evaluation of a Python expression and the test whether json can write a value are arguments; the
   file system is a dictionary from paths to contents; json text is the document it denotes (so writing and reading
   numbers, strings and lists exactly is assumed), [Torn] is any text which is not a complete document; a file that cannot
   be opened is a missing file. The command line has been parsed by argparse already. *)
From Coq Require Import String Ascii.
From Verif Require Import Lib.Base Lib.Str Model.Config.
Set Implicit Arguments.

(* str.split("=") *)
Fixpoint split_eq (s : string) : list string :=
  match s with
  | EmptyString => [EmptyString]
  | String c r =>
      match split_eq r with
      | w :: ws => if Ascii.eqb c "="%char then EmptyString :: w :: ws else String c w :: ws
      | [] => []                                                       (* not reached *)
      end
  end.
Definition empty_config : conf := CConf [] [] false.                   (* Config() *)
Definition base_of (merge_conf : option conf) : conf := match merge_conf with None => empty_config | Some c => c end.

Section Cmd.
  Variable eval : string -> res val.
  (* 81-85 *)
  Fixpoint parse_confs (args : list string) (d : list (string * val)) : res (list (string * val)) :=
    match args with
    | [] => Ok d
    | s :: r =>
        match split_eq s with
        | [name; value] => bind (eval value) (fun v => parse_confs r (dset name v d))
        | _ => Err EValue                                              (* unpacking to two names *)
        end
    end.
  (* 79-87; [args] = args.conf *)
  Definition load_config_cmd (args : option (list string)) (merge_conf : option conf) : res conf :=
    bind (match args with None => Ok [] | Some l => parse_confs l [] end)
         (fun d => merge_config (base_of merge_conf) (CDict d)).
End Cmd.

Inductive text := Doc (d : list (string * val)) | Torn.
Definition disk := list (string * text).

Section File.
  Variable plain : nat -> bool.                                        (* a value json can write *)
  Fixpoint jsonable (v : val) : bool :=
    match v with
    | VNone => true
    | VDict d => forallb (fun kv => jsonable (snd kv)) d
    | VOther n => plain n
    | VAttr => false
    end.
  (* sort_keys=True *)
  Fixpoint insert (kv : string * val) (l : list (string * val)) : list (string * val) :=
    match l with
    | [] => [kv]
    | kv' :: r => if (eqb (fst kv) (fst kv') || String.leb (fst kv) (fst kv'))%bool then kv :: l else kv' :: insert kv r
    end.
  Definition sort (l : list (string * val)) : list (string * val) := fold_right insert [] l.
  Fixpoint sort_val (v : val) : val :=
    match v with
    | VDict d => VDict (sort (map (fun kv => (fst kv, sort_val (snd kv))) d))
    | _ => v
    end.
  (* 108-113: the file is emptied by open(.., "w") before the attribute data is read and before json meets a value it
     cannot write *)
  Definition save_config (c : conf) (path : string) (fs : disk) : disk * res unit :=
    match c with
    | CDict _ => (dset path Torn fs, Err EAttr)
    | CConf data _ _ =>
        if forallb (fun kv => jsonable (snd kv)) data
        then (dset path (Doc (sort (map (fun kv => (fst kv, sort_val (snd kv))) data))) fs, Ok tt)
        else (dset path Torn fs, Err EType)
    end.
  (* 90-105 *)
  Definition load_config_file (path : string) (merge_conf : option conf) (fs : disk) : res conf :=
    match dget path fs with
    | None => Err EOther                                               (* FileNotFoundError *)
    | Some Torn => Err EValue                                          (* json.JSONDecodeError *)
    | Some (Doc d) => merge_config (base_of merge_conf) (CDict d)
    end.
End File.
