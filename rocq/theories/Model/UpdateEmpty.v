(* Sampling and returned values in update() of the frameworks in machin/frame/algorithms, added to the order of operations
   in Model/UpdateTrace.v: sample_batch of an empty buffer gives None for the batch (buffer.py 275-276,
   prioritized_buffer.py 386-387), whose unpacking raises TypeError; the mean losses of the on-policy frameworks are
   quotients by the numbers of passes.

   Simplifications: those of Model/UpdateTrace.v; batch_size is at least 1; for the distributed buffers "empty" means empty
   on all members; what an exception leaves behind in local variables is not modelled. *)
From Verif Require Export Model.UpdateTrace.
Set Implicit Arguments.

Inductive uop :=
| Do (o : op net loss)
| Sample (expert : bool)      (* sample_batch of the replay buffer, or of the expert's, unpacked by the caller *)
| Quot (k : nat).             (* ... / k in the returned value *)

Section Run.
  Variable no_expert : bool.  (* the buffer of the expert is empty, gail.py *)
  (* an exception leaves what was done before *)
  Fixpoint run (os : list uop) (s : state net loss) : state net loss * res unit :=
    match os with
    | [] => (s, Ok tt)
    | Do o :: r => match exec1 s o with Ok s' => run r s' | Err e => (s, Err e) end
    | Sample x :: r => if (if x then no_expert else cleared s) then (s, Err EType) else run r s
    | Quot k :: r => if k =? 0 then (s, Err EZeroDiv) else run r s
    end.
End Run.

Section Updates.
  Variable f : flags.
  (* the batch is sampled after the first k operations *)
  Definition sample_at (k : nat) (os : list (op net loss)) : list uop :=
    map Do (firstn k os) ++ Sample false :: map Do (skipn k os).
  (* one pass with its own batch: a2c.py 347-388 and 390-414, ppo.py 117-180 and 182-206, trpo.py 269-293 *)
  Definition spass (b : bool) (n : net) (i : nat) : list uop := Sample false :: map Do (pass b n i).
  (* a2c.py 345-422, ppo.py 114-214 *)
  Definition a2c_full (ka kc : nat) : list uop :=
    map Do [Train Actor; Train Critic] ++ flat_map (spass (f_policy f) Actor) (seq 0 ka)
    ++ flat_map (spass (f_value f) Critic) (seq 0 kc) ++ map Do [Clear; Evl Actor; Evl Critic] ++ [Quot ka; Quot kc].
  (* trpo.py 190-301 *)
  Definition trpo_full (zero_gradient : bool) (kc : nat) : list uop :=
    map Do [Train Actor; Train Critic] ++ [Sample false; Do (Compute (Actor, 0) [Actor])]
    ++ (if f_policy f && zero_gradient then [] else
        map Do (cond (f_policy f) [Assign Actor]) ++ flat_map (spass (f_value f) Critic) (seq 0 kc)
        ++ map Do [Clear; Evl Actor; Evl Critic] ++ [Quot kc]).
  Definition full (a : alg) : list uop :=
    match a with
    | DqnVanilla | DqnFixed | DqnDouble => sample_at 0 (update f a)      (* dqn.py 347-356: before qnet.train() *)
    | DqnPer | Rainbow => sample_at 1 (update f a)                       (* dqn_per.py 93-99, rainbow.py 208-214 *)
    | Ddpg | Hddpg | DdpgPer => sample_at 2 (update f a)                 (* ddpg.py 398-403, hddpg.py 107-112, ddpg_per.py 101-108 *)
    | Td3 | Sac _ => sample_at 3 (update f a)                            (* td3.py 178-184, sac.py 301-307 *)
    | A2c ka kc | Ppo ka kc => a2c_full ka kc
    | Trpo z kc => trpo_full z kc
    | Impala => sample_at 2 (update f a)                                 (* impala.py 264-277 *)
    end.
  (* gail.py 268-318 *)
  Definition inner_uops (os : list uop) : list uop :=
    map (fun o => match o with Do (Back _ l) => Do (Back false l) | _ => o end) os.
  Definition gail_full (kd : nat) (f_disc : bool) (inner : alg) : list uop :=
    map Do [Train Actor; Train Critic; Train Discriminator]
    ++ flat_map (fun i => Sample true :: Sample false :: map Do (Compute (Discriminator, i) [Discriminator]
         :: cond f_disc [Zero Discriminator; Back true (Discriminator, i); Clip Discriminator; Step Actor])) (seq 0 kd)
    ++ inner_uops (full inner) ++ map Do [Evl Actor; Evl Critic; Evl Discriminator] ++ [Quot kd].
End Updates.
