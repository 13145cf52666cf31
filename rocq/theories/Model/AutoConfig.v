(* machin/auto/config.py get_available_algorithms 21-30, generate_training_config 42-53, generate_algorithm_config 56-73,
   generate_env_config 76-90, assert_*_config_complete 119-134, launch 137-142.

   Simplifications: a config is a dictionary from strings to values; the namespaces machin.frame.algorithms and
   machin.auto.envs are tables; generate_config of an algorithm is a function of the config. *)
From Coq Require Import String.
From Verif Require Import Lib.Base.
Open Scope string_scope.
Set Implicit Arguments.

Section Auto.
  Context {V : Type}.
  Inductive cval := CStr (s : string) | CNat (n : nat) | CList (l : list nat) | COther (v : V).
  Definition config := list (string * cval).
  (* an attribute of machin.frame.algorithms: a framework class, TorchFramework itself, or something else *)
  Inductive algo := Framework (generate : config -> res config) (distributed : bool) | TorchFramework | Something.
  Variable algorithms : list (string * algo).
  (* an attribute of machin.auto.envs: what it has of launch and generate_env_config *)
  Record env := MkEnv { env_launch : option (config -> res unit); env_generate : option (config -> res config) }.
  Variable envs : list (string * env).

  (* 21-30 *)
  Definition get_available_algorithms : list string :=
    map fst (filter (fun x => match snd x with Framework _ _ => true | _ => false end) algorithms).
  (* deepcopy(config) or {}: an empty config and None are the same *)
  Definition or_empty (c : option config) : config := match c with Some c => c | None => [] end.
  (* 42-53 *)
  Definition generate_training_config (root_dir : string) (episode_per_epoch max_episodes : nat) (c : option config) : config :=
    dset "early_stopping_patience" (CNat 3)
      (dset "max_episodes" (CNat max_episodes)
        (dset "episode_per_epoch" (CNat episode_per_epoch)
          (dset "root_dir" (CStr root_dir) (or_empty c)))).
  (* 56-73; NotImplementedError is EOther *)
  Definition generate_algorithm_config (a : string) (c : option config) : res config :=
    match dget a algorithms with
    | Some (Framework g d) =>
        bind (g (or_empty c)) (fun c =>
        Ok (if d then dset "num_nodes" (CNat 1) (dset "num_processes" (CNat 3) (dset "gpus" (CList [0; 0; 0]) c))
            else dset "gpus" (CList [0]) c))
    | Some TorchFramework => Err EOther
    | _ => Err EValue
    end.
  (* isinstance(x, callable): callable is a function, not a type *)
  Definition isinstance_callable {X} (x : X) : res bool := Err EType.
  (* 76-90 *)
  Definition generate_env_config (e : string) (c : option config) : res config :=
    match dget e envs with
    | None => Err EValue
    | Some m =>
        match env_launch m with
        | None => Err EValue
        | Some l =>
            bind (isinstance_callable l) (fun b =>
            match env_generate m with
            | Some g => bind (isinstance_callable g) (fun b' => if b && b' then g (or_empty c) else Err EValue)
            | None => Err EValue
            end)
        end
    end.
  (* 119-134 *)
  Definition require (ks : list string) (c : config) : res unit := if forallb (fun k => dmem k c) ks then Ok tt else Err EAssert.
  Definition training_keys := ["root_dir"; "episode_per_epoch"; "max_episodes"; "early_stopping_patience"].
  Definition env_keys := ["env"; "train_env_config"; "test_env_config"].
  Definition algorithm_keys := ["frame"; "frame_config"].
  (* 137-142 *)
  Definition launch (c : config) : res unit :=
    bind (require training_keys c) (fun _ =>
    bind (require env_keys c) (fun _ =>
    bind (require algorithm_keys c) (fun _ =>
    match dget "env" c with
    | Some (CStr e) => match dget e envs with
                       | Some m => match env_launch m with Some l => l c | None => Err EAttr end
                       | None => Err EAttr
                       end
    | _ => Err EType
    end))).
End Auto.
