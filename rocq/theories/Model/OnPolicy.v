(* machin/frame/algorithms/ppo.py update() 104-205, gail.py __init__ 158-162, store_expert_episode 233-245 and the
   discriminator loop 272-306, maddpg.py optimizers 308-320 and scheduler construction 257-275.

   Simplifications: exact rationals; networks are values of an arbitrary type; gradients, optimizer steps,
   standard deviations and batches are arguments; devices, visualisation and train/eval switches are left out. *)
From Verif Require Import Lib.Base Lib.Rat Model.Losses Model.ActorCritic.
Open Scope nat_scope.
Set Implicit Arguments.

(* ---- PPO ---- *)
Definition clamp (lo hi x : Qc) : Qc := Qcmin (Qcmax lo x) hi.        (* t.clamp *)
(* 153-161: -min(surr_loss_1, surr_loss_2) of one row *)
Definition surrogate (clip ratio adv : Qc) : Qc := Qcmin (ratio * adv)%Qc (clamp (1 - clip) (1 + clip) ratio * adv)%Qc.
(* 163-169; entropies: None when entropy_weight is None *)
Definition ppo_policy_loss (clip : Qc) (entropy : option (Qc * list Qc)) (ratios advs : list Qc) : Qc :=
  let rows := map2 (fun r a => (- surrogate clip r a)%Qc) ratios advs in
  let rows := match entropy with None => rows | Some (w, es) => map (fun x => (x + w * mean_of es)%Qc) rows end in
  mean_of rows.
(* 125-127: t.std of fewer than two elements is nan, None here; eps is 1e-6 *)
Definition normalize (std : list Qc -> Qc) (eps : Qc) (adv : list Qc) : list (option Qc) :=
  if length adv <=? 1 then map (fun _ => None) adv
  else map (fun a => Some ((a - mean_of adv) / (std adv + eps))%Qc) adv.

Section Ppo.
  Context {N B : Type}.                  (* networks, batches *)
  (* two network objects: the framework's own and the copy made by deepcopy (111-112); the attribute self.actor
     points to one of them, the local variable tmp_actor to the other *)
  Inductive obj := Own | Copy.
  Record ppo := MkPpo { own : N; cop : N; at_actor : obj; at_tmp : obj; evals : list (N * N) }.
  Definition get (s : ppo) (o : obj) : N := match o with Own => own s | Copy => cop s end.
  Definition swap (s : ppo) : ppo := MkPpo (own s) (cop s) (at_tmp s) (at_actor s) (evals s).
  (* one pass of the loop, 115-181: ok tells whether evaluating a network on a batch succeeds; train is one
     optimizer step; the optimizer was built for the parameters of the own network (a2c.py 201) *)
  Variables (ok : N -> B -> bool) (train : N -> N -> B -> N).
  Definition ppo_pass (update_policy : bool) (s : ppo) (b : B) : ppo * res unit :=
    let s1 := swap s in                                         (* 134 *)
    if ok (get s1 (at_actor s1)) b then                          (* 135 *)
      let old := get s1 (at_actor s1) in
      let s2 := swap s1 in                                      (* 136 *)
      if ok (get s2 (at_actor s2)) b then                        (* 139-146 *)
        let new := get s2 (at_actor s2) in
        let s3 := MkPpo (own s2) (cop s2) (at_actor s2) (at_tmp s2) (evals s2 ++ [(old, new)]) in
        (* 173-180: the loss is built from old and new; the step changes the own network *)
        (if update_policy then MkPpo (train old new b) (cop s3) (at_actor s3) (at_tmp s3) (evals s3) else s3, Ok tt)
      else (s2, Err ERuntime)
    else (s1, Err ERuntime).
  Fixpoint ppo_passes (update_policy : bool) (s : ppo) (bs : list B) : ppo * res unit :=
    match bs with
    | [] => (s, Ok tt)
    | b :: r => match ppo_pass update_policy s b with
                | (s', Ok _) => ppo_passes update_policy s' r
                | (s', Err e) => (s', Err e)
                end
    end.
  Definition ppo_actor_updates (update_policy : bool) (actor : N) (bs : list B) : ppo * res unit :=
    ppo_passes update_policy (MkPpo actor actor Own Copy []) bs.
End Ppo.

(* ---- GAIL ---- *)
Section Gail.
  Context {P G : Type}.                  (* parameters and gradients of a network *)
  Record params := MkPar { g_actor : P; g_actor_grad : G; g_disc : P; g_disc_grad : G }.
  Inductive which := Actor | Disc.
  Variable step : P -> G -> P.           (* one optimizer step *)
  (* the networks whose parameters the discriminator's optimizer was given, 160-162 *)
  Definition disc_optim : which := Actor.
  Definition optim_step (w : which) (s : params) : params :=
    match w with
    | Actor => MkPar (step (g_actor s) (g_actor_grad s)) (g_actor_grad s) (g_disc s) (g_disc_grad s)
    | Disc => MkPar (g_actor s) (g_actor_grad s) (step (g_disc s) (g_disc_grad s)) (g_disc_grad s)
    end.
  (* 293-301: zero_grad, backward and clipping leave the gradient of the loss in the discriminator; grad computes it *)
  Definition disc_pass (grad : P -> G) (s : params) : params :=
    optim_step disc_optim (MkPar (g_actor s) (g_actor_grad s) (g_disc s) (grad (g_disc s))).
  Definition disc_updates (update_discriminator : bool) (grads : list (P -> G)) (s : params) : params :=
    if update_discriminator then fold_left (fun s g => disc_pass g s) grads s else s.
End Gail.
(* store_expert_episode, 233-245: a transition is given as a dict or as an ExpertTransition *)
Inductive given {T} := AsDict (t : T) | AsTransition (t : T).
Arguments given : clear implicits.
Definition expert_episode {T} (episode : list (given T)) : list T :=
  flat_map (fun x => match x with AsDict t => [t] | AsTransition _ => [] end) episode.
(* what is handed to Buffer.store_episode, which raises for an empty episode (buffer.py 69-70) *)
Definition store_expert_episode {T} (episode : list (given T)) : res (list T) :=
  match expert_episode episode with [] => Err EValue | l => Ok l end.

(* ---- MADDPG ---- *)
Section Maddpg.
  Context {O : Type}.
  Record optims := MkOpt { actor_optims : list (list O); critic_optims : list O }.
  (* 307-309: sum(self.actor_optims, self.critic_optims) *)
  Definition get_optimizers (s : optims) : list O := fold_left (@app O) (actor_optims s) (critic_optims s).
  (* 311-320; mutate-then-raise: an index error leaves the earlier ones replaced *)
  Fixpoint set_list (l new : list O) : list O * list O * res unit :=
    match l with
    | [] => ([], new, Ok tt)
    | x :: r => match new with
                | [] => (l, [], Err EIndex)
                | n :: new' => let '(r', rest, e) := set_list r new' in (n :: r', rest, e)
                end
    end.
  Fixpoint set_lists (ls : list (list O)) (new : list O) : list (list O) * list O * res unit :=
    match ls with
    | [] => ([], new, Ok tt)
    | l :: r => match set_list l new with
                | (l', rest, Err e) => (l' :: r, rest, Err e)
                | (l', rest, Ok _) => let '(r', rest', e) := set_lists r rest in (l' :: r', rest', e)
                end
    end.
  Definition set_optimizers (s : optims) (new : list O) : optims * res unit :=
    match set_lists (actor_optims s) new with
    | (a, _, Err e) => (MkOpt a (critic_optims s), Err e)
    | (a, rest, Ok _) => let '(c, _, e) := set_list (critic_optims s) rest in (MkOpt a c, e)
    end.
End Maddpg.
Arguments optims : clear implicits.
