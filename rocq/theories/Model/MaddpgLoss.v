(* The losses of machin/frame/algorithms/maddpg.py: the next actions prepared by update 585-592 with act 328-343 and
   _act_api_general 443-462 (without jit), _update_sub_policy 797-884, reward_function 994-997.
   Simplifications: one sample instead of a batch; networks are functions; the concatenation functions keep the lists;
   actors return one value; the default transform of actions is the identity. *)
From Verif Require Export Lib.Rat Lib.Base.
Set Implicit Arguments.

Section Loss.
  Variables S A : Type.                                   (* states and actions *)
  Record sample := MkSm { m_state : S; m_action : A; m_reward : Qc; m_next : S; m_term : bool }.
  Record nets := MkNets {
    actor : nat -> nat -> S -> A; actor_target : nat -> nat -> S -> A;                   (* agent, sub-policy *)
    critic : nat -> list S -> list A -> Qc; critic_target : nat -> list S -> list A -> Qc }.

  Fixpoint mapM {X Y} (f : X -> res Y) (l : list X) : res (list Y) :=
    match l with [] => Ok [] | x :: r => bind (f x) (fun y => bind (mapM f r) (fun q => Ok (y :: q))) end.
  Definition at_ {X} (l : list X) (i : nat) : res X := match nth_error l i with Some x => Ok x | None => Err EIndex end.
  Fixpoint index_of (a : nat) (l : list nat) : option nat :=
    match l with [] => None | x :: r => if x =? a then Some 0 else option_map Nat.succ (index_of a r) end.

  (* 328-343, 443-462: choice i is the sub-policy drawn for agent i; keyword arguments of other names go to **__ *)
  Definition act (w : nets) (use_target : bool) (choice : nat -> nat) (states : list S) : list A :=
    map (fun p => (if use_target then actor_target w else actor w) (fst p) (choice (fst p)) (snd p))
        (combine (seq 0 (length states)) states).
  (* 585-592: act is called with target=True, which is not the name of its parameter *)
  Definition next_actions (w : nets) (choice : nat -> nat) (b : list sample) : list A :=
    act w false choice (map m_next b).

  (* 806-840 *)
  Definition value_target (w : nets) (visible : list nat) (gamma : Qc) (choice : nat -> nat) (a e : nat) (b : list sample) :
    res Qc :=
    bind (mapM (fun i => if negb (i =? a) then at_ (next_actions w choice b) i
                         else bind (at_ b i) (fun x => Ok (actor_target w a e (m_next x)))) visible) (fun acts =>
    bind (mapM (fun i => bind (at_ b i) (fun x => Ok (m_next x))) visible) (fun nexts =>
    bind (at_ b a) (fun x =>
    Ok (m_reward x + gamma * (if m_term x then 0 else 1) * critic_target w a nexts acts)%Qc))).
  (* 842-843: what the critic is trained on *)
  Definition current_value (w : nets) (visible : list nat) (a : nat) (b : list sample) : res Qc :=
    bind (mapM (fun i => bind (at_ b i) (fun x => Ok (m_action x))) visible) (fun acts =>
    bind (mapM (fun i => bind (at_ b i) (fun x => Ok (m_state x))) visible) (fun states =>
    Ok (critic w a states acts))).
  (* 858-881: the value the actor maximises *)
  Definition policy_value (w : nets) (visible : list nat) (a e : nat) (b : list sample) : res Qc :=
    bind (mapM (fun i => bind (at_ b i) (fun x => Ok (m_state x))) visible) (fun states =>
    bind (mapM (fun i => bind (at_ b i) (fun x => Ok (m_action x))) visible) (fun acts =>
    bind (at_ b a) (fun x =>
    match index_of a visible with
    | None => Err EValue
    | Some k => Ok (critic w a states (upd k (actor w a e (m_next x)) acts))
    end))).
End Loss.
Arguments MkSm {S A} _ _ _ _ _.
Arguments MkNets {S A} _ _ _ _.
Arguments m_state {S A} _.
Arguments m_action {S A} _.
Arguments m_reward {S A} _.
Arguments m_next {S A} _.
Arguments m_term {S A} _.
