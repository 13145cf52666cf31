(* machin/frame/algorithms/utils.py safe_import 171-176, get_globals_from_stack 179-186, assert_and_get_valid_models
   206-230, assert_and_get_valid_optimizer 233-256, assert_and_get_valid_lr_scheduler 259-285,
   assert_and_get_valid_criterion 288-312;
   init_from_config of DQN (dqn.py 539-563), DQNPer (dqn_per.py 170-195), DDPG (ddpg.py 547-571), DDPGPer (ddpg_per.py
   194-219), A2C (a2c.py 472-497), SAC (sac.py 463-487), inherited by RAINBOW, HDDPG, TD3, PPO and TRPO.

   Simplifications: python objects other than strings are an abstract type with the predicates the code asks for;
   __import__ finds top level packages in a table and sets nothing; the constructor of the framework is abstract; of the
   frame config only the entries used are kept; deepcopy copies classes, functions and strings to themselves. *)
From Coq Require Import Ascii.
From Verif Require Import Lib.Base Model.LoadSave.
Set Implicit Arguments.

Inductive kind := Module | Optimizer | Scheduler.
Definition dotc : ascii := "."%char.
(* str.split(".") *)
Fixpoint split_dot (s : name) (cur : name) : name * list name :=
  match s with
  | [] => (rev cur, [])
  | c :: r => if Ascii.eqb c dotc then let (h, t) := split_dot r [] in (rev cur, h :: t) else split_dot r (c :: cur)
  end.
Definition private (k : name) : bool :=
  match k with a :: b :: _ => Ascii.eqb a "_"%char && Ascii.eqb b "_"%char | _ => false end.

Section Resolve.
  Context {V : Type}.
  Variables (is_class callable : V -> bool) (sub : kind -> V -> bool).
  (* the attributes of torch.optim, torch.optim.lr_scheduler, torch.nn.modules.loss; top level packages; getattr *)
  Variables (torch : kind -> name -> option V) (package : name -> option V) (attr : V -> name -> option V).
  (* the globals of the frames of the call stack, innermost first *)
  Variable stack : list (list (name * V)).
  Inductive arg := Str (s : name) | Obj (v : V).

  (* 179-186 *)
  Definition add_frame (g fr : list (name * V)) : list (name * V) :=
    fold_left (fun g kv => if private (fst kv) then g else dset (fst kv) (snd kv) g) fr g.
  Definition globals : list (name * V) := fold_left add_frame stack [].
  (* 171-176 *)
  Fixpoint getattrs (m : V) (l : list name) : res V :=
    match l with [] => Ok m | a :: r => match attr m a with Some m' => getattrs m' r | None => Err EAttr end end.
  Definition safe_import (s : name) : res V :=
    let (h, t) := split_dot s [] in
    match package h with Some m => getattrs m t | None => Err EOther end.
  Definition dotted (s : name) : bool := existsb (Ascii.eqb dotc) s.
  (* issubclass *)
  Definition issubclass (v : V) (k : kind) : res bool := if is_class v then Ok (sub k v) else Err EType.

  (* 206-230, one model *)
  Definition valid_model (a : arg) : res V :=
    match a with
    | Obj v => if is_class v && sub Module v then Ok v else Err EValue
    | Str s =>
        let rest := if dotted s then safe_import s else Err EValue in
        match dget s globals with
        | None => rest
        | Some v => bind (issubclass v Module) (fun b => if b then Ok v else rest)
        end
    end.
  Fixpoint valid_models (l : list arg) : res (list V) :=
    match l with [] => Ok [] | a :: r => bind (valid_model a) (fun v => bind (valid_models r) (fun vs => Ok (v :: vs))) end.
  (* 233-256 and 259-285; Ok None: the function falls through and returns None *)
  Definition valid_class (k : kind) (a : arg) : res (option V) :=
    match a with
    | Obj v => if is_class v && sub k v then Ok (Some v) else Err EValue
    | Str s =>
        match torch k s with
        | Some v => Ok (Some v)
        | None =>
            let rest := if dotted s then bind (safe_import s) (fun v => Ok (Some v)) else Ok None in
            match dget s globals with
            | None => rest
            | Some v => bind (issubclass v k) (fun b => if b then Ok (Some v) else rest)
            end
        end
    end.
  (* 288-312; classes are callable *)
  Definition valid_criterion (a : arg) : res (option V) :=
    match a with
    | Obj v => if (is_class v && sub Module v) || callable v then Ok (Some v) else Err EValue
    | Str s =>
        match torch Module s with
        | Some v => Ok (Some v)
        | None =>
            let rest := if dotted s then bind (safe_import s) (fun v => Ok (Some v)) else Ok None in
            match dget s globals with
            | Some v => if callable v then Ok (Some v) else rest
            | None => rest
            end
        end
    end.

  (* init_from_config *)
  Context {A F : Type}.
  Variable call : V -> A -> res V.
  Variable to_device : V -> V.
  Variable reduction_none : V -> V.
  (* slots of the frame config: None, or a string or object *)
  Record fconfig := MkC { models : list arg; model_args : list A; optimizer : option arg; criterion : option arg;
                          criterion_args : A; lr_scheduler : option arg }.
  Variable construct : list V -> fconfig -> res F.
  Inductive algo := DQN | DQNPer | RAINBOW | DDPG | HDDPG | TD3 | DDPGPer | A2C | PPO | TRPO | SAC.
  (* deepcopy(config["frame_config"]) or config["frame_config"] *)
  Definition copies (a : algo) : bool :=
    match a with DDPG | HDDPG | TD3 | DDPGPer | SAC => false | _ => true end.
  Definition per (a : algo) : bool := match a with DQNPer | DDPGPer => true | _ => false end.
  (* zip stops at the shorter list *)
  Fixpoint build_models (ms : list V) (args : list A) : res (list V) :=
    match ms, args with
    | m :: ms, x :: args => bind (call m x) (fun v => bind (build_models ms args) (fun vs => Ok (to_device v :: vs)))
    | _, _ => Ok []
    end.
  (* None is neither class nor string nor callable *)
  Definition of_slot (f : arg -> res (option V)) (s : option arg) : res (option V) :=
    match s with None => Err EValue | Some a => f a end.
  Definition slot (v : option V) : option arg := option_map Obj v.
  (* falsy values are passed on *)
  Definition resolve_scheduler (s : option arg) : res (option arg) :=
    match s with
    | None => Ok None
    | Some (Str []) => Ok (Some (Str []))
    | Some a => bind (valid_class Scheduler a) (fun v => Ok (slot v))
    end.
  Definition resolve_all (a : algo) (c : fconfig) : res (list V * fconfig) :=
    bind (valid_models (models c)) (fun classes =>
    bind (build_models classes (model_args c)) (fun ms =>
    bind (of_slot (valid_class Optimizer) (optimizer c)) (fun opt =>
    bind (of_slot valid_criterion (criterion c)) (fun cr =>
    bind (match cr with None => Err EType | Some f => call f (criterion_args c) end) (fun inst =>
    let inst := if per a then reduction_none inst else inst in
    bind (resolve_scheduler (lr_scheduler c)) (fun lr =>
    Ok (ms, MkC (models c) (model_args c) (slot opt) (Some (Obj inst)) (criterion_args c) lr))))))).
  (* the caller's frame config afterwards, and the framework *)
  Definition init_from_config (a : algo) (c : fconfig) : fconfig * res F :=
    match resolve_all a c with
    | Err e => (c, Err e)
    | Ok (ms, c') => (if copies a then c else c', construct ms c')
    end.
End Resolve.
Arguments arg : clear implicits.
