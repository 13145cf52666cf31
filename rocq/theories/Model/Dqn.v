(* machin/frame/algorithms/dqn.py: acting 229-309, targets of update() 356-449, reward_function 497-501,
   target network of mode "fixed_target" 418-420.

   Simplifications: exact rationals; a Q network is an arbitrary function from a state to
   the values of the actions; argmax is an arbitrary choice function (ties are not specified by torch); random
   draws are arguments; optimizer steps are arbitrary. *)
From Verif Require Import Lib.Base Lib.Rat Model.Losses Model.Target.
Open Scope nat_scope.
Set Implicit Arguments.

Inductive mode := Vanilla | Fixed_target | Double.

(* t.max(values, dim=1)[0] of one row *)
Fixpoint row_max (l : list Qc) : Qc :=
  match l with [] => 0%Qc | [x] => x | x :: r => Qcmax x (row_max r) end.

Section Dqn.
  Context {St : Type}.
  Variable argmax : list Qc -> nat.
  Record sample := { reward : Qc; next_state : St; terminal : bool }.
  (* 497-501 *)
  Definition reward_function (r discount next_value : Qc) (term : bool) : Qc :=
    (r + discount * (if term then 0 else 1) * next_value)%Qc.
  (* 357-376, 387-407, 422-449: y_i *)
  Definition next_value (m : mode) (qnet qnet_target : St -> list Qc) (s : St) : Qc :=
    match m with
    | Vanilla => row_max (qnet s)
    | Fixed_target => row_max (qnet_target s)
    | Double => nth (argmax (qnet s)) (qnet_target s) 0%Qc
    end.
  Definition targets (m : mode) (qnet qnet_target : St -> list Qc) (discount : Qc) (batch : list sample) : list Qc :=
    map (fun b => reward_function (reward b) discount (next_value m qnet qnet_target (next_state b)) (terminal b)) batch.

  (* act_discrete, 229-251 *)
  Definition act_discrete (qnet : St -> list Qc) (states : list St) : list nat := map (fun s => argmax (qnet s)) states.
  (* act_discrete_with_noise, 253-291: u = t.rand, draws = t.randint *)
  Definition act_noise (eps eps_decay u : Qc) (decay : bool) (draws : list nat) (qnet : St -> list Qc) (states : list St)
    : Qc * list nat :=
    let result := act_discrete qnet states in
    let result := if Qcltb u eps then draws else result in
    (if decay then (eps * eps_decay)%Qc else eps, result).
  (* calls in sequence; 173: epsilon starts at 1 *)
  Record call := { c_u : Qc; c_decay : bool; c_draws : list nat; c_net : St -> list Qc; c_states : list St }.
  Fixpoint act_run (eps eps_decay : Qc) (cs : list call) : Qc * list (list nat) :=
    match cs with
    | [] => (eps, [])
    | c :: r => let (e, a) := act_noise eps eps_decay (c_u c) (c_decay c) (c_draws c) (c_net c) (c_states c) in
                let (e', rest) := act_run e eps_decay r in (e', a :: rest)
    end.
  Definition act_from_start := act_run 1%Qc.
End Dqn.
Arguments sample : clear implicits.
Arguments call : clear implicits.

(* soft_update(qnet_target, qnet, update_rate) with update_rate possibly None: utils.py 8-27 *)
Definition soft_update_opt (rate : option Qc) (t s : net) : net * res unit :=
  match rate with
  | Some r => soft_update r t s
  | None => match combine (n_params t) (n_params s) with
            | [] => (t, Ok tt)
            | _ => (t, Err EType)             (* 1.0 - None, at the first parameter *)
            end
  end.
Record dqn := MkDqn { q_online : net; q_target : net; q_count : nat }.
Section Networks.
  Variables (m : mode) (rate : option Qc) (steps : option nat).
  (* __init__, 174-200; in mode "vanilla" both names are one object, kept equal here *)
  Definition dq_new (online target : net) : dqn * res unit :=
    match rate, steps with
    | Some _, Some _ => (MkDqn online target 0, Err EValue)
    | _, _ => match m with
              | Vanilla => let (o, e) := hard_update online online in (MkDqn o o 0, e)
              | _ => let (o, e) := hard_update online target in (MkDqn o target 0, e)
              end
    end.
  (* update(): the optimizer makes the online network online' (378-382, 412-416, 454-458), then the target
     follows if flag (update_target) is set: nothing, 418-420 and 460-467 *)
  Definition dq_update (st : dqn) (x : net * bool) : dqn * res unit :=
    let (online', flag) := x in
    match m with
    | Vanilla => (MkDqn online' online' (q_count st), Ok tt)
    | Fixed_target =>
        if flag then let (t, e) := soft_update_opt rate (q_target st) online' in (MkDqn online' t (q_count st), e)
        else (MkDqn online' (q_target st) (q_count st), Ok tt)
    | Double =>
        if flag then
          match rate with
          | Some r => let (t, e) := soft_update r (q_target st) online' in (MkDqn online' t (q_count st), e)
          | None =>
              let c := q_count st + 1 in
              match steps with
              | None => (MkDqn online' (q_target st) c, Err EType)
              | Some 0 => (MkDqn online' (q_target st) c, Err EZeroDiv)
              | Some k => if c mod k =? 0
                          then let (t, e) := hard_update (q_target st) online' in (MkDqn online' t c, e)
                          else (MkDqn online' (q_target st) c, Ok tt)
              end
          end
        else (MkDqn online' (q_target st) (q_count st), Ok tt)
    end.
  (* a caller that ignores errors *)
  Definition dq_run (st : dqn) (xs : list (net * bool)) : dqn := fold_left (fun s x => fst (dq_update s x)) xs st.
End Networks.
