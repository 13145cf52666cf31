(* machin/frame/algorithms/apex.py: the act functions and update of DQNApex (112-150) and DDPGApex (363-430).
   The learners and samplers of one Apex group are clients of the model server of Model/Servers.v.

   Simplifications: the functions of the base class (DQN, DDPG) are arguments; the buffer is left out. *)
From Verif Require Import Lib.Base Lib.Rat Model.Servers Model.ActorCritic.
Open Scope nat_scope.
Set Implicit Arguments.

Section Act.
  Context {P S R : Type}.
  (* a frame: parameters of the online network, is_syncing, _is_using_DP_or_DDP *)
  Record aframe := MkAF { a_prm : P; a_syncing : bool; a_ddp : bool }.
  (* PushPullModelServer.pull with the newest parameters of the server, if there are newer ones (C22) *)
  Definition a_pull (answer : option P) (f : aframe) : aframe :=
    match answer with Some p => MkAF p (a_syncing f) (a_ddp f) | None => f end.
  (* 119-121 and 370-372 *)
  Definition a_manual_sync (answer : option P) (f : aframe) : aframe :=
    if a_ddp f then f else a_pull answer f.
  Definition a_set_sync (b : bool) (f : aframe) : aframe := MkAF (a_prm f) b (a_ddp f).
  (* the guard of every act function, 125, 137, 376, 390, 402, 410 *)
  Definition guard_pull (answer : option P) (use_target : bool) (f : aframe) : aframe :=
    if a_syncing f && negb use_target && negb (a_ddp f) then a_pull answer f else f.

  (* DQNApex.act_discrete_with_noise 129-139 *)
  Definition dqn_act_noise (base : P -> S -> bool -> bool -> R) (answer : option P) (f : aframe) (s : S)
      (use_target decay_epsilon : bool) : aframe * R :=
    let f := guard_pull answer use_target f in (f, base (a_prm f) s use_target decay_epsilon).
  (* DDPGApex.act_discrete_with_noise 406-412: the signature has use_target only; other keyword arguments end up in
     **__ ; the base function is called with its default for choose_max_prob *)
  Definition ddpg_act_noise {C} (default : C) (base : P -> S -> bool -> C -> R) (answer : option P) (f : aframe) (s : S)
      (use_target : bool) (choose_max_prob : option C) : aframe * R :=
    let f := guard_pull answer use_target f in (f, base (a_prm f) s use_target default).
  (* DDPGApex.act 374-378, act_with_noise 380-398, act_discrete 400-404 *)
  Definition apex_act {A} (base : P -> S -> bool -> A -> R) (answer : option P) (f : aframe) (s : S)
      (use_target : bool) (args : A) : aframe * R :=
    let f := guard_pull answer use_target f in (f, base (a_prm f) s use_target args).
  (* _criticize is DDPG's: no pull *)
  Definition apex_criticize (base : P -> S -> R) (answer : option P) (f : aframe) (s : S) : aframe * R :=
    (f, base (a_prm f) s).
End Act.
Arguments aframe : clear implicits.

(* update 141-150 / 414-430 followed by the push: learners are wrapped in DistributedDataParallel (init_from_config
   217-221), so pull_on_fail is False; samplers never push (248-250) *)
Definition learner_update {A} (i : nat) (p : A) : list (mact A) := [MTrain i p; MPush i false].
