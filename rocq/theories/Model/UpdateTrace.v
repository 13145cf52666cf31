(* The order of operations in update() of the frameworks in machin/frame/algorithms: dqn.py 333-474, dqn_per.py 89-161,
   rainbow.py 203-330, ddpg.py 378-466, ddpg_per.py 92-185, hddpg.py 98-181, td3.py 169-260, sac.py 279-397,
   a2c.py 328-422, ppo.py 104-215, trpo.py 184-302, impala.py 242-397, gail.py 247-318,
   maddpg.py _update_sub_policy 752-916.

   Simplifications: the parameters of the networks of one framework are disjoint; a loss is its number together with the
   networks its computation graph goes through; backward of a loss whose networks were changed after the loss was
   computed raises, as does a second backward (torch checks the version of every saved tensor, not of whole networks);
   sampling, returned values and visualisation are left out. *)
From Verif Require Export Lib.Base.
Set Implicit Arguments.

Section Machine.
  Variables N L : Type.                  (* networks, losses *)
  Context {EN : Eqb N} {EL : Eqb L}.

  Inductive op :=
  | Compute (l : L) (g : list N)         (* the loss is computed *)
  | Zero (n : N)                         (* n.zero_grad() *)
  | Back (custom : bool) (l : L)         (* self._backward(l), or l.backward() if not custom *)
  | Clip (n : N)                         (* clip_grad_norm_(n.parameters(), ...) *)
  | Step (n : N)                         (* the step of an optimizer made from n.parameters() *)
  | Assign (n : N)                       (* the parameters are replaced by other means *)
  | Target (n : N)                       (* the target of n is updated *)
  | Train (n : N) | Evl (n : N)          (* n.train(), n.eval() *)
  | Clear.                               (* replay_buffer.clear() *)

  Record state := MkU {
    version : N -> nat;                               (* of the parameters *)
    grads : N -> list L;                              (* the losses whose gradients .grad is the sum of *)
    clipped : N -> bool;
    graph : L -> option (list (N * nat));             (* the graph of the loss: networks and their versions then *)
    training : N -> bool;
    cleared : bool;                                   (* the buffer is empty *)
    steps : list (N * list L * bool);                 (* optimizer steps: the gradient used, whether it was clipped *)
    backs : list (L * bool);                          (* backward passes, and whether self._backward made them *)
    targets : list N }.

  Definition fset {A B} {EA : Eqb A} (f : A -> B) (a : A) (b : B) : A -> B := fun x => if eqb x a then b else f x.
  Definition add_grad (l : L) (g : list (N * nat)) (f : N -> list L) : N -> list L :=
    fun n => if existsb (fun x => eqb n (fst x)) g then f n ++ [l] else f n.
  Definition unclip (g : list (N * nat)) (f : N -> bool) : N -> bool :=
    fun n => if existsb (fun x => eqb n (fst x)) g then false else f n.

  Definition exec1 (s : state) (o : op) : res state :=
    let '(MkU v g c gr tr cl st ba tg) := s in
    match o with
    | Compute l ns => Ok (MkU v g c (fset gr l (Some (map (fun n => (n, v n)) ns))) tr cl st ba tg)
    | Zero n => Ok (MkU v (fset g n []) (fset c n false) gr tr cl st ba tg)
    | Back b l =>
        match gr l with
        | None => Err ERuntime
        | Some ns =>
            if forallb (fun x => v (fst x) =? snd x) ns
            then Ok (MkU v (add_grad l ns g) (unclip ns c) (fset gr l None) tr cl st (ba ++ [(l, b)]) tg)
            else Err ERuntime
        end
    | Clip n => Ok (MkU v g (fset c n true) gr tr cl st ba tg)
    | Step n => Ok (MkU (fset v n (S (v n))) g c gr tr cl (st ++ [(n, g n, c n)]) ba tg)
    | Assign n => Ok (MkU (fset v n (S (v n))) g c gr tr cl st ba tg)
    | Target n => Ok (MkU v g c gr tr cl st ba (tg ++ [n]))
    | Train n => Ok (MkU v g c gr (fset tr n true) cl st ba tg)
    | Evl n => Ok (MkU v g c gr (fset tr n false) cl st ba tg)
    | Clear => Ok (MkU v g c gr tr true st ba tg)
    end.
  Fixpoint exec (os : list op) (s : state) : res state :=
    match os with [] => Ok s | o :: r => bind (exec1 s o) (exec r) end.

  (* "zero_grad, backward, clip, step" *)
  Definition train_net (b : bool) (n : N) (l : L) : list op := [Zero n; Back b l; Clip n; Step n].
End Machine.
Arguments Compute {N L} l g.
Arguments Zero {N L} n.
Arguments Back {N L} custom l.
Arguments Clip {N L} n.
Arguments Step {N L} n.
Arguments Assign {N L} n.
Arguments Target {N L} n.
Arguments Train {N L} n.
Arguments Evl {N L} n.
Arguments Clear {N L}.
Arguments train_net {N L} b n l.

(* ---- the frameworks with one process ---- *)
Inductive net := Qnet | Actor | Critic | Critic2 | Alpha | Discriminator.
#[global] Instance Eqb_net : Eqb net.
Proof.
  refine {| eqb := fun a b => match a, b with Qnet, Qnet | Actor, Actor | Critic, Critic | Critic2, Critic2
    | Alpha, Alpha | Discriminator, Discriminator => true | _, _ => false end |}.
  intros [] []; constructor; congruence.
Defined.
(* a loss: the network it is for and the number of the pass *)
Notation loss := (net * nat)%type.
Definition cond {A} (b : bool) (l : list A) : list A := if b then l else [].

Inductive alg :=
| DqnVanilla | DqnFixed | DqnDouble | DqnPer | Rainbow       (* double covers dueling as well *)
| Ddpg | Hddpg | DdpgPer | Td3 | Sac (learn_alpha : bool)    (* target_entropy is given *)
| A2c (actor_times critic_times : nat) | Ppo (actor_times critic_times : nat)
| Trpo (zero_gradient : bool) (critic_times : nat)
| Impala.
(* the arguments of update(), and whether the target networks are due (always with update_rate, else every update_steps) *)
Record flags := MkF { f_value : bool; f_policy : bool; f_target : bool; f_alpha : bool; due : bool }.

Section Updates.
  Variable f : flags.
  (* dqn.py: the first branch calls value_loss.backward() *)
  Definition q_update (custom target : bool) : list (op net loss) :=
    [Train Qnet; Compute (Qnet, 0) [Qnet]] ++ cond (f_value f) (train_net custom Qnet (Qnet, 0))
    ++ cond (target && f_target f && due f) [Target Qnet] ++ [Evl Qnet].
  (* ddpg.py, hddpg.py, ddpg_per.py *)
  Definition ddpg_update : list (op net loss) :=
    [Train Actor; Train Critic; Compute (Critic, 0) [Critic]] ++ cond (f_value f) (train_net true Critic (Critic, 0))
    ++ [Compute (Actor, 0) [Actor; Critic]] ++ cond (f_policy f) (train_net true Actor (Actor, 0))
    ++ cond (f_target f && due f) [Target Actor; Target Critic] ++ [Evl Actor; Evl Critic].
  (* td3.py *)
  Definition td3_update : list (op net loss) :=
    [Train Actor; Train Critic; Train Critic2; Compute (Critic, 0) [Critic]; Compute (Critic2, 0) [Critic2]]
    ++ cond (f_value f) (train_net false Critic (Critic, 0) ++ train_net false Critic2 (Critic2, 0))
    ++ [Compute (Actor, 0) [Actor; Critic]] ++ cond (f_policy f) (train_net false Actor (Actor, 0))
    ++ cond (f_target f && due f) [Target Actor; Target Critic; Target Critic2] ++ [Evl Actor; Evl Critic; Evl Critic2].
  (* sac.py; the optimizer of the temperature has only that parameter, its gradient is not clipped (386-388) *)
  Definition sac_update (learn_alpha : bool) : list (op net loss) :=
    [Train Actor; Train Critic; Train Critic2; Compute (Critic, 0) [Critic]; Compute (Critic2, 0) [Critic2]]
    ++ cond (f_value f) (train_net false Critic (Critic, 0) ++ train_net false Critic2 (Critic2, 0))
    ++ [Compute (Actor, 0) [Actor; Critic; Critic2]] ++ cond (f_policy f) (train_net false Actor (Actor, 0))
    ++ cond (f_target f && due f) [Target Critic; Target Critic2]
    ++ cond (f_alpha f && learn_alpha) [Compute (Alpha, 0) [Alpha]; Zero Alpha; Back false (Alpha, 0); Step Alpha]
    ++ [Evl Actor; Evl Critic; Evl Critic2].
  (* a2c.py 347-388, ppo.py 117-180: the i-th pass *)
  Definition pass (b : bool) (n : net) (i : nat) : list (op net loss) :=
    Compute (n, i) [n] :: cond b (train_net true n (n, i)).
  Definition a2c_update (ka kc : nat) : list (op net loss) :=
    [Train Actor; Train Critic] ++ flat_map (pass (f_policy f) Actor) (seq 0 ka)
    ++ flat_map (pass (f_value f) Critic) (seq 0 kc) ++ [Clear; Evl Actor; Evl Critic].
  (* trpo.py: the actor is set by the line search; 243-247: a zero gradient returns at once *)
  Definition trpo_update (zero_gradient : bool) (kc : nat) : list (op net loss) :=
    [Train Actor; Train Critic; Compute (Actor, 0) [Actor]]
    ++ (if f_policy f && zero_gradient then [] else
        cond (f_policy f) [Assign Actor] ++ flat_map (pass (f_value f) Critic) (seq 0 kc)
        ++ [Clear; Evl Actor; Evl Critic]).
  (* impala.py *)
  Definition impala_update : list (op net loss) :=
    [Train Actor; Train Critic; Compute (Actor, 0) [Actor]; Compute (Critic, 0) [Critic]]
    ++ cond (f_policy f) (train_net true Actor (Actor, 0)) ++ cond (f_value f) (train_net true Critic (Critic, 0))
    ++ [Evl Actor; Evl Critic].
  Definition update (a : alg) : list (op net loss) :=
    match a with
    | DqnVanilla => q_update false false                    (* 381-385, no target *)
    | DqnFixed => q_update true true                        (* 412-420 *)
    | DqnDouble | DqnPer | Rainbow => q_update true true
    | Ddpg | Hddpg | DdpgPer => ddpg_update
    | Td3 => td3_update
    | Sac la => sac_update la
    | A2c ka kc | Ppo ka kc => a2c_update ka kc
    | Trpo z kc => trpo_update z kc
    | Impala => impala_update
    end.
  (* gail.py 247-318 with PPO or TRPO inside, which has its own backward function; the optimizer of the discriminator
     was made from the parameters of the actor (158-162, see C105) *)
  Definition inner_backs (os : list (op net loss)) : list (op net loss) :=
    map (fun o => match o with Back _ l => Back false l | _ => o end) os.
  Definition gail_update (kd : nat) (f_disc : bool) (inner : alg) : list (op net loss) :=
    [Train Actor; Train Critic; Train Discriminator]
    ++ flat_map (fun i => Compute (Discriminator, i) [Discriminator]
         :: cond f_disc [Zero Discriminator; Back true (Discriminator, i); Clip Discriminator; Step Actor]) (seq 0 kd)
    ++ inner_backs (update inner) ++ [Evl Actor; Evl Critic; Evl Discriminator].
End Updates.

(* ---- MADDPG: one job per agent and sub-policy, run by a pool of threads ---- *)
Inductive mnet := MActor (agent policy : nat) | MCritic (agent : nat).
Inductive mloss := MPolicy (agent policy : nat) | MValue (agent policy : nat).
#[global] Instance Eqb_mnet : Eqb mnet.
Proof.
  refine {| eqb := fun a b => match a, b with
    | MActor i e, MActor j e' => (i =? j) && (e =? e') | MCritic i, MCritic j => i =? j | _, _ => false end |}.
  intros [i e|i] [j e'|j]; try (constructor; congruence).
  - destruct (Nat.eqb_spec i j), (Nat.eqb_spec e e'); constructor; congruence.
  - destruct (Nat.eqb_spec i j); constructor; congruence.
Defined.
#[global] Instance Eqb_mloss : Eqb mloss.
Proof.
  refine {| eqb := fun a b => match a, b with
    | MPolicy i e, MPolicy j e' | MValue i e, MValue j e' => (i =? j) && (e =? e') | _, _ => false end |}.
  intros [i e|i e] [j e'|j e']; try (constructor; congruence);
  destruct (Nat.eqb_spec i j), (Nat.eqb_spec e e'); constructor; congruence.
Defined.
(* 752-916 *)
Definition job (f : flags) (a e : nat) : list (op mnet mloss) :=
  [Train (MActor a e); Train (MCritic a); Compute (MValue a e) [MCritic a]]
  ++ cond (f_value f) (train_net true (MCritic a) (MValue a e))
  ++ [Compute (MPolicy a e) [MActor a e; MCritic a]]
  ++ cond (f_policy f) (train_net true (MActor a e) (MPolicy a e))
  ++ cond (f_target f && due f) [Target (MActor a e); Target (MCritic a)]
  ++ [Evl (MActor a e); Evl (MCritic a)].
(* 599-633: ensemble_size rounds over the agents *)
Definition jobs (f : flags) (agents ensemble : nat) : list (list (op mnet mloss)) :=
  flat_map (fun e => map (fun a => job f a e) (seq 0 agents)) (seq 0 ensemble).
(* the threads: in each step one job that is not finished makes its next operation *)
Definition sched1 (c : list (list (op mnet mloss)) * state mnet mloss) (j : nat) :
  res (list (list (op mnet mloss)) * state mnet mloss) :=
  match nth_error (fst c) j with
  | Some (o :: r) => bind (exec1 (snd c) o) (fun s => Ok (upd j r (fst c), s))
  | _ => Ok c
  end.
Fixpoint sched (c : list (list (op mnet mloss)) * state mnet mloss) (js : list nat) :
  res (list (list (op mnet mloss)) * state mnet mloss) :=
  match js with [] => Ok c | j :: r => bind (sched1 c j) (fun c' => sched c' r) end.
