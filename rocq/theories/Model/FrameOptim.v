(* The properties optimizers and lr_schedulers of the frameworks, the setter of optimizers, the optimizers stepped by
   update() and the schedulers stepped by update_lr_scheduler():
     dqn.py 216-227, 385, 416, 458, 476-481; ddpg.py 180-191, 433, 450, 468-475 (also HDDPG and DDPGPer);
     td3.py 133-148, 216-241, 268-274; sac.py 186-217, 338-388, 399-406; a2c.py 226-237, 383-414, 424-431 (also PPO);
     trpo.py 286-292; impala.py 163-174, 376-387, 399-406; ars.py 418-429, 570, 603-608;
     gail.py 145-178, 184-198, 264-312, 320-329; a3c.py 105-125.
   MADDPG is in Maddpg.v.

   Simplifications: an attribute <network>_optim or <network>_lr_sch is an entry of a dictionary under the network; an
   update is the list of the optimizers whose step() is called, losses and networks are left out (UpdateTrace.v); of
   ARS only the manager's update is described. *)
From Verif Require Import Lib.Base.
Set Implicit Arguments.

Inductive net := Qnet | Actor | Critic | Critic2 | Alpha | Discrim.
Definition net_beq (a b : net) : bool :=
  match a, b with
  | Qnet, Qnet | Actor, Actor | Critic, Critic | Critic2, Critic2 | Alpha, Alpha | Discrim, Discrim => true
  | _, _ => false
  end.
#[export] Instance net_eqb : Eqb net.
Proof. refine {| eqb := net_beq |}. intros [] []; constructor; congruence. Defined.

Inductive cls := KDqn | KArs | KDdpg | KTd3 | KSac | KA2c | KTrpo | KImpala.

Section Frames.
  Context {O H : Type}.                               (* optimizers, schedulers *)

  (* what the constructor assigns, and what both properties read, in this order *)
  Definition nets (c : cls) : list net :=
    match c with
    | KDqn => [Qnet]
    | KArs => [Actor]
    | KDdpg | KA2c | KTrpo | KImpala => [Actor; Critic]
    | KTd3 => [Actor; Critic; Critic2]
    | KSac => [Actor; Critic; Critic2; Alpha]
    end.
  Definition gail_nets : list net := [Actor; Critic; Discrim].

  Record flat := MkFlat { f_cls : cls; f_opt : dict net O; f_sch : dict net H }.
  Inductive frame :=
  | Plain (f : flat)
  | Gail (opt : dict net O) (sch : dict net H) (cpo : flat)   (* its own attributes, and the PPO or TRPO *)
  | A3c (f : flat).                                           (* a subclass of A2C *)

  (* getattr *)
  Definition attr {A} (n : net) (d : dict net A) : res A := match dget n d with Some x => Ok x | None => Err EAttr end.
  Fixpoint attrs {A} (ns : list net) (d : dict net A) : res (list A) :=
    match ns with
    | [] => Ok []
    | n :: r => bind (attr n d) (fun x => bind (attrs r d) (fun l => Ok (x :: l)))
    end.
  Fixpoint assign {A} (ns : list net) (l : list A) (d : dict net A) : dict net A :=
    match ns, l with n :: ns, x :: l => assign ns l (dset n x d) | _, _ => d end.
  (* a, b, ... = l : the number of values is checked first *)
  Definition unpack {A} (ns : list net) (l : list A) (d : dict net A) : res (dict net A) :=
    if length l =? length ns then Ok (assign ns l d) else Err EValue.

  (* the property optimizers *)
  Definition optimizers (fr : frame) : res (list O) :=
    match fr with
    | Plain f => attrs (nets (f_cls f)) (f_opt f)
    | Gail opt _ _ => attrs gail_nets opt                     (* gail.py 184-185 *)
    | A3c _ => Ok []                                          (* a3c.py 116-117 *)
    end.

  (* its setter *)
  Definition set_flat (f : flat) (l : list O) : res flat :=
    bind (match f_cls f with
          | KDqn | KArs =>                                    (* optimizers[0]: dqn.py 221, ars.py 423 *)
              match l with x :: _ => Ok (assign (nets (f_cls f)) [x] (f_opt f)) | [] => Err EIndex end
          | _ => unpack (nets (f_cls f)) l (f_opt f)
          end) (fun d => Ok (MkFlat (f_cls f) d (f_sch f))).
  Definition set_optimizers (fr : frame) (l : list O) : res frame :=
    match fr with
    | Plain f => bind (set_flat f l) (fun f => Ok (Plain f))
    | Gail opt sch cpo => bind (unpack gail_nets l opt) (fun d => Ok (Gail d sch cpo))   (* gail.py 188-189 *)
    | A3c f => Ok (A3c f)                                     (* a3c.py 120-121 *)
    end.

  (* the property lr_schedulers: all hasattr tests hold, or the list is empty *)
  Definition all_or_none {A} (ns : list net) (d : dict net A) : list A :=
    match attrs ns d with Ok l => l | Err _ => [] end.
  Definition lr_schedulers (fr : frame) : list H :=
    match fr with
    | Plain f => all_or_none (nets (f_cls f)) (f_sch f)
    | Gail _ sch _ => all_or_none [Actor; Critic] sch ++ all_or_none [Discrim] sch     (* gail.py 193-198 *)
    | A3c _ => []
    end.

  (* update_lr_scheduler(): if hasattr(self, ...): self....step() *)
  Definition has_step {A} (n : net) (d : dict net A) : list A := match dget n d with Some x => [x] | None => [] end.
  Definition sch_steps_flat (f : flat) : list H :=
    flat_map (fun n => has_step n (f_sch f))
      (match f_cls f with
       | KDqn => [Qnet]
       | KArs => [Actor]
       | KTd3 => [Critic2; Actor; Critic]                     (* td3.py 272-274 *)
       | KSac | KDdpg | KA2c | KTrpo | KImpala => [Actor; Critic]
       end).
  Definition sch_steps (fr : frame) : list H :=
    match fr with
    | Plain f | A3c f => sch_steps_flat f
    | Gail _ sch _ => flat_map (fun n => has_step n sch) [Actor; Critic; Discrim]
    end.

  (* arguments of update(): update_value, update_policy, update_entropy_alpha (with a target entropy),
     update_discriminator; actor_update_times, critic_update_times, discriminator_update_times *)
  Record flags := MkFlags { u_value : bool; u_policy : bool; u_alpha : bool; u_discrim : bool;
                            n_actor : nat; n_critic : nat; n_discrim : nat }.
  Definition when {A} (b : bool) (l : list A) : list A := if b then l else [].
  Fixpoint times {A} (n : nat) (l : list A) : list A := match n with 0 => [] | S n => l ++ times n l end.

  (* the networks whose optimizers are stepped, in order *)
  Definition steps_of (c : cls) (u : flags) : list net :=
    match c with
    | KDqn => when (u_value u) [Qnet]
    | KArs => [Actor]
    | KDdpg => when (u_value u) [Critic] ++ when (u_policy u) [Actor]
    | KTd3 => when (u_value u) [Critic; Critic2] ++ when (u_policy u) [Actor]
    | KSac => when (u_value u) [Critic; Critic2] ++ when (u_policy u) [Actor] ++ when (u_alpha u) [Alpha]
    | KA2c => times (n_actor u) (when (u_policy u) [Actor]) ++ times (n_critic u) (when (u_value u) [Critic])
    | KTrpo => times (n_critic u) (when (u_value u) [Critic])
    | KImpala => when (u_policy u) [Actor] ++ when (u_value u) [Critic]
    end.
  (* update(): the optimizers stepped *)
  Definition update (fr : frame) (u : flags) : res (list O) :=
    match fr with
    | Plain f => attrs (steps_of (f_cls f) u) (f_opt f)
    | Gail opt _ cpo =>                                       (* gail.py 301, 309-313 *)
        bind (attrs (times (n_discrim u) (when (u_discrim u) [Discrim])) opt) (fun a =>
        bind (attrs (steps_of (f_cls cpo) u) (f_opt cpo)) (fun b => Ok (a ++ b)))
    | A3c _ => Ok []                                          (* a3c.py 110-111 *)
    end.

  (* ---- constructors: one optimizer for every network, and with lr_scheduler given one scheduler each ---- *)
  Definition new_flat (c : cls) (o : net -> O) (h : option (net -> H)) : flat :=
    MkFlat c (map (fun n => (n, o n)) (nets c))
             (match h with Some h => map (fun n => (n, h n)) (nets c) | None => [] end).
  Definition copy_attr {A} (n : net) (src d : dict net A) : dict net A :=
    match dget n src with Some x => dset n x d | None => d end.
  (* gail.py 148-178; cpo is a PPO or TRPO *)
  Definition new_gail (cpo : flat) (o : O) (h : option H) : res frame :=
    bind (attr Actor (f_opt cpo)) (fun oa => bind (attr Critic (f_opt cpo)) (fun oc =>
    let sch := copy_attr Critic (f_sch cpo) (copy_attr Actor (f_sch cpo) []) in
    Ok (Gail [(Actor, oa); (Critic, oc); (Discrim, o)]
             (match h with Some h => dset Discrim h sch | None => sch end) cpo))).
  (* assignments to optimizers, one after the other; a failed one leaves the framework as it was *)
  Definition set_again (fr : frame) (l : list O) : frame := match set_optimizers fr l with Ok fr => fr | Err _ => fr end.
  Definition set_all (fr : frame) (ls : list (list O)) : frame := fold_left set_again ls fr.
End Frames.
Arguments flat : clear implicits.
Arguments frame : clear implicits.
