(* How constructors of machin/frame/algorithms receive keyword arguments from init_from_config, and how they build
   learning rate schedulers:
     dqn.py 202-209, ddpg.py 164-174, a2c.py 209-219, sac.py 164-180, td3.py 85-131, ars.py 364-371, gail.py 169-178,
     impala.py 148-154, maddpg.py 257-275; defaults in the signatures of these files, apex.py 34, 279, ppo.py 17,
     trpo.py 23, dqn_per.py 30, ddpg_per.py 32, hddpg.py 20, rainbow.py 21.

   Simplifications: an optimizer is its number in the order of construction; a scheduler is the tuple of the optimizer
   and the arguments the scheduler class is called with; keyword arguments of a scheduler are an insertion-ordered
   dictionary. *)
From Verif Require Import Lib.Base.
Set Implicit Arguments.

(* ---- binding of keyword arguments: def __init__(self, ..., p1=d1, ..., **__) ---- *)
Section Bind.
  Context {K V : Type} `{Eqb K}.
  Definition bind_kwargs (sig : list (K * V)) (kwargs : list (K * V)) : list (K * V) :=
    map (fun kd => (fst kd, match dget (fst kd) kwargs with Some v => v | None => snd kd end)) sig.
End Bind.

(* ---- schedulers ---- *)
Inductive algo := Dqn | DqnPer | Rainbow | DqnApex | Ddpg | DdpgPer | Hddpg | DdpgApex | Td3 | Sac
                | A2c | Ppo | Trpo | Ars | Gail | Impala.
(* optimizers, each with the index of its arguments *)
Definition wiring (a : algo) : list (nat * nat) :=
  match a with
  | Dqn | DqnPer | Rainbow | DqnApex | Ars | Gail => [(0, 0)]
  | Ddpg | DdpgPer | Hddpg | DdpgApex | A2c | Ppo | Trpo | Impala => [(0, 0); (1, 1)]
  | Td3 => [(0, 0); (1, 1); (2, 2)]
  | Sac => [(0, 0); (1, 1); (2, 1); (3, 2)]
  end.
(* the number of argument tuples put in place of None; IMPALA has no such step *)
Definition none_length (a : algo) : option nat :=
  match a with
  | Dqn | DqnPer | Rainbow | DqnApex | Ars | Gail => Some 1
  | Ddpg | DdpgPer | Hddpg | DdpgApex | A2c | Ppo | Trpo => Some 2
  | Td3 | Sac => Some 3
  | Impala => None
  end.
(* the default in the signature: None or the empty tuple *)
Definition default_is_empty (a : algo) : bool :=
  match a with DqnApex | DdpgApex | Ppo | Trpo | Impala => true | _ => false end.

Section Sched.
  Context {A KW : Type}.
  Variables (a0 : A) (k0 : KW).                (* (), {} *)
  Definition index {B} (l : option (list B)) (i : nat) : res B :=
    match l with
    | None => Err EType                        (* None[0] *)
    | Some l => match nth_error l i with Some x => Ok x | None => Err EIndex end
    end.
  Definition fill {B} (d : B) (n : option nat) (l : option (list B)) : option (list B) :=
    match l, n with None, Some n => Some (repeat d n) | _, _ => l end.
  Fixpoint wire (args : option (list A)) (kwargs : option (list KW)) (w : list (nat * nat)) : res (list (nat * A * KW)) :=
    match w with
    | [] => Ok []
    | (o, i) :: r =>
        bind (index args i) (fun a => bind (index kwargs i) (fun k =>
        bind (wire args kwargs r) (fun l => Ok ((o, a, k) :: l))))
    end.
  (* the constructor with these values for lr_scheduler_args and lr_scheduler_kwargs, a scheduler class being given *)
  Definition schedulers (al : algo) (args : option (list A)) (kwargs : option (list KW)) : res (list (nat * A * KW)) :=
    wire (fill a0 (none_length al) args) (fill k0 (none_length al) kwargs) (wiring al).
  (* the constructor called without them *)
  Definition default_args {B} (al : algo) : option (list B) := if default_is_empty al then Some [] else None.
  Definition schedulers_default (al : algo) : res (list (nat * A * KW)) :=
    schedulers al (default_args al) (default_args al).
End Sched.

(* ---- MADDPG 257-275: positional arguments are *lr_sch_args, *lr_sch_kwargs, and a dictionary unpacked with a single
   star gives its keys; one group of optimizers per agent for the actors ---- *)
Section Maddpg.
  Context {V K : Type}.
  (* what the scheduler class is called with: positional arguments (values or key strings), keyword arguments *)
  Inductive pos := PVal (v : V) | PKey (k : K).
  Record call := MkCall { c_opt : nat; c_pos : list pos; c_kw : list (K * V) }.
  Fixpoint zip3s {A B C} (a : list A) (b : list B) (c : list C) : list (A * B * C) :=
    match a, b, c with x :: a, y :: b, z :: c => (x, y, z) :: zip3s a b c | _, _, _ => [] end.
  Definition maddpg_call (args : list V) (kwargs : list (K * V)) (o : nat) : call :=
    MkCall o (map PVal args ++ map (fun kv => PKey (fst kv)) kwargs) [].
  Definition maddpg_actor_scheds (optims : list (list nat)) (args : list (list V)) (kwargs : list (list (K * V))) : list call :=
    flat_map (fun x => let '(os, a, k) := x in map (maddpg_call a k) os) (zip3s optims args kwargs).
  Definition maddpg_critic_scheds (optims : list nat) (args : list (list V)) (kwargs : list (list (K * V))) : list call :=
    map (fun x => let '(o, a, k) := x in maddpg_call a k o) (zip3s optims args kwargs).
End Maddpg.

(* ---- DDPGApex: keyword parameters (apex.py 279-291) and the keys generate_config puts in the configuration that reach
   the constructor (apex.py 478-504); numbers stand for the values ---- *)
Inductive ckey := KScheduler | KSchedArgs | KSchedKwargs | KBatchSize | KUpdateRate | KUpdateSteps | KActorLr | KCriticLr
                | KDiscount | KGradMax | KReplaySize | KLearningRate.
Definition ckey_beq (a b : ckey) : bool :=
  match a, b with
  | KScheduler, KScheduler | KSchedArgs, KSchedArgs | KSchedKwargs, KSchedKwargs | KBatchSize, KBatchSize
  | KUpdateRate, KUpdateRate | KUpdateSteps, KUpdateSteps | KActorLr, KActorLr | KCriticLr, KCriticLr
  | KDiscount, KDiscount | KGradMax, KGradMax | KReplaySize, KReplaySize | KLearningRate, KLearningRate => true
  | _, _ => false
  end.
#[export] Instance ckey_eqb : Eqb ckey.
Proof. refine {| eqb := ckey_beq |}. intros [] []; constructor; congruence. Defined.
Definition ddpg_apex_params : list ckey :=
  [KScheduler; KSchedArgs; KSchedKwargs; KBatchSize; KUpdateRate; KUpdateSteps; KActorLr; KCriticLr; KDiscount; KGradMax; KReplaySize].
Definition ddpg_apex_keys : list ckey :=
  [KScheduler; KSchedArgs; KSchedKwargs; KBatchSize; KUpdateRate; KUpdateSteps; KLearningRate; KDiscount; KGradMax; KReplaySize].
(* the constructor's arguments, given the defaults of the signature and the configuration *)
Definition ddpg_apex_init {V} (default : ckey -> V) (config : list (ckey * V)) : list (ckey * V) :=
  bind_kwargs (map (fun k => (k, default k)) ddpg_apex_params) config.
