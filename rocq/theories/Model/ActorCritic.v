(* Deterministic and soft actor-critic frameworks in machin/frame/algorithms: ddpg.py, hddpg.py, ddpg_per.py,
   dqn_per.py 90-165, td3.py, sac.py.

   Simplifications: exact rationals; actors and critics are arbitrary functions, a [batch, 1] critic output is
   the list of its values; random draws and optimizer steps are arguments; exp and log are arguments. *)
From Verif Require Import Lib.Base Lib.Rat Model.Losses Model.Target Model.Dqn.
Open Scope nat_scope.
Set Implicit Arguments.

Definition mean_of (l : list Qc) : Qc := (qsum l / nq (length l))%Qc.

(* ---- policy losses ---- *)
(* ddpg.py 436-441: "act_value, *_ = self._criticize(...)" unpacks the rows of the [batch, 1] tensor; act_value is
   the first row *)
Definition ddpg_policy_loss (values : list Qc) : res Qc :=
  match values with
  | [] => Err EValue
  | v :: _ => Ok (- mean_of [v])%Qc
  end.
(* td3.py 227-232, hddpg.py 151-156, ddpg_per.py 145-150 *)
Definition mean_policy_loss (values : list Qc) : Qc := (- mean_of values)%Qc.
(* sac.py 350-359 *)
Definition sac_policy_loss (alpha : Qc) (values values2 log_probs : list Qc) : Qc :=
  mean_of (map2 (fun v l => (alpha * l - v)%Qc) (map2 Qcmin values values2) log_probs).

(* ---- targets ---- *)
Section Targets.
  Context {St Act : Type}.
  Record tsample := { t_reward : Qc; t_next : St; t_terminal : bool }.
  (* ddpg.py 411-420, ddpg_per.py 117-126, hddpg.py 123-131 *)
  Definition ddpg_target (actor_target : St -> Act) (critic_target : St -> Act -> Qc) (discount : Qc) (b : tsample) : Qc :=
    reward_function (t_reward b) discount (critic_target (t_next b) (actor_target (t_next b))) (t_terminal b).
  (* td3.py 193-206; noise is policy_noise_function *)
  Definition td3_target (noise : Act -> Act) (actor_target : St -> Act) (critic_target critic2_target : St -> Act -> Qc)
    (discount : Qc) (b : tsample) : Qc :=
    let a := noise (actor_target (t_next b)) in
    reward_function (t_reward b) discount (Qcmin (critic_target (t_next b) a) (critic2_target (t_next b) a)) (t_terminal b).
  (* sac.py 314-328; the (online) actor gives an action and its log probability *)
  Definition sac_target (actor : St -> Act * Qc) (critic_target critic2_target : St -> Act -> Qc) (alpha discount : Qc)
    (b : tsample) : Qc :=
    let (a, logp) := actor (t_next b) in
    reward_function (t_reward b) discount
      (Qcmin (critic_target (t_next b) a) (critic2_target (t_next b) a) - alpha * logp)%Qc (t_terminal b).
  (* ddpg_per.py 152-160: the new priorities; critic is the one after its update *)
  Definition ddpgper_priority (actor : St -> Act) (critic : St -> Act -> Qc) (state : St) (y : Qc) : Qc :=
    Qcabs (critic state (actor state) - y)%Qc.
End Targets.
Arguments tsample : clear implicits.
(* hddpg.py 132-139: the value the critic is trained towards *)
Definition hddpg_goal (increase decrease cur y : Qc) : Qc :=
  let diff := (y - cur)%Qc in
  (cur + (if Qcltb 0 diff then diff * increase else diff * decrease))%Qc.
(* dqn_per.py 101-139: the new priorities of a batch of (reward, next state, terminal) with its states and actions *)
Definition dqnper_priorities {St} (argmax : list Qc -> nat) (qnet qnet_target : St -> list Qc) (discount : Qc)
  (batch : list (St * nat * sample St)) : list Qc :=
  map2 (fun x y => Qcabs (nth (snd (fst x)) (qnet (fst (fst x))) 0 - y)%Qc) batch
    (targets argmax Double qnet qnet_target discount (map snd batch)).

(* ---- discrete actions with noise, ddpg.py 316-328 ---- *)
Section Discrete.
  Variables (ex lg : Qc -> Qc).          (* exp, log *)
  (* 321-323 *)
  Definition scale (n : nat) (c : Qc) : Qc := lg (nq (n - 1) / (1 - c) * c)%Qc.
  Definition softmax (row : list Qc) : list Qc := map (fun x => ex x / qsum (map ex row))%Qc row.
  Definition soften (c : Qc) (row : list Qc) : list Qc :=
    if (1 <? length row) && Qcltb c 1 then softmax (map (fun x => x * scale (length row) c)%Qc row) else row.
  (* tensor.view(r, c): the elements in order, or an error *)
  Definition view {A} (r c : nat) (elems : list A) : res (list A) :=
    if length elems =? r * c then Ok elems else Err ERuntime.
  (* 324-327: dist.sample([b, 1]) has shape [b, 1, b]; draw k j is the k-th draw from row j *)
  Definition sample_discrete (draw : nat -> nat -> nat) (probs : list (list Qc)) : res (list nat) :=
    let b := length probs in
    view b 1 (flat_map (fun k => map (draw k) (seq 0 b)) (seq 0 b)).
  Definition act_discrete_with_noise (c : Qc) (draw : list (list Qc) -> nat -> nat -> nat) (action : list (list Qc))
    : res (list nat * list (list Qc)) :=
    let probs := map (soften c) action in
    match sample_discrete (draw probs) probs with Ok r => Ok (r, probs) | Err e => Err e end.
End Discrete.

(* ---- sac.py: temperature, loading ---- *)
(* 381-391: the gradient of -mean(log alpha * (logp + H)) with respect to alpha is -mean(logp + H) / alpha;
   step is the optimizer; lo and hi are 1e-6 and 1e6 *)
Definition alpha_update (lo hi : Qc) (step : Qc -> Qc -> Qc) (flag : bool) (target_entropy : option Qc)
  (alpha : Qc) (log_probs : list Qc) : Qc :=
  match flag, target_entropy with
  | true, Some h =>
      let grad := (- (mean_of (map (fun l => l + h)%Qc log_probs) / alpha))%Qc in
      Qcmax lo (Qcmin (step alpha grad) hi)
  | _, _ => alpha
  end.
Definition alpha_run lo hi step flag h alpha batches : Qc :=
  fold_left (fun a b => alpha_update lo hi step flag h a b) batches alpha.

(* online and target networks; the loaded ones are given (load itself is LoadSave.v) *)
Record nets := MkNets { actor : net; actor_t : net; critic : net; critic_t : net; critic2 : net; critic2_t : net }.
Definition chain (l : list (nets -> nets * res unit)) (s : nets) : nets * res unit :=
  fold_left (fun r f => match snd r with Ok _ => f (fst r) | Err _ => r end) l (s, Ok tt).
Definition put_actor n s := MkNets n (actor_t s) (critic s) (critic_t s) (critic2 s) (critic2_t s).
Definition put_critic n s := MkNets (actor s) (actor_t s) n (critic_t s) (critic2 s) (critic2_t s).
Definition put_critic2 n s := MkNets (actor s) (actor_t s) (critic s) (critic_t s) n (critic2_t s).
Definition copy (put : net -> nets -> nets) (dst src : nets -> net) (s : nets) : nets * res unit :=
  let (n, e) := hard_update (dst s) (src s) in (put n s, e).
(* sac.py 28-29, 408-413: actor, critic_target and critic2_target are restored *)
Definition sac_load (s : nets) (saved_actor saved_critic_t saved_critic2_t : net) : nets * res unit :=
  chain [copy put_critic critic critic_t; copy put_critic critic critic2_t]
    (MkNets saved_actor (actor_t s) (critic s) saved_critic_t (critic2 s) saved_critic2_t).
(* td3.py 19, 276-284: actor_target, critic_target and critic2_target are restored *)
Definition td3_load (s : nets) (saved_actor_t saved_critic_t saved_critic2_t : net) : nets * res unit :=
  chain [copy put_actor actor actor_t; copy put_critic critic critic_t; copy put_critic2 critic2 critic2_t]
    (MkNets (actor s) saved_actor_t (critic s) saved_critic_t (critic2 s) saved_critic2_t).

(* ---- learning rate schedulers: how often each has been stepped ---- *)
Record schedulers := MkSch { n_actor : nat; n_critic : nat; n_critic2 : nat; n_alpha : nat }.
(* sac.py 399-406 *)
Definition sac_update_lr (s : schedulers) : schedulers :=
  MkSch (n_actor s + 1) (n_critic s + 1) (n_critic2 s) (n_alpha s).
(* td3.py 268-274 with ddpg.py 468-475; there is no alpha *)
Definition td3_update_lr (s : schedulers) : schedulers :=
  MkSch (n_actor s + 1) (n_critic s + 1) (n_critic2 s + 1) (n_alpha s).
