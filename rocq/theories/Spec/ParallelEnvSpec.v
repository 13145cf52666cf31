(* The sequential meaning of one request: every selected environment executes its command once. *)
From Verif Require Import Lib.Base.
Set Implicit Arguments.
Section S.
  Context {S Cmd R X : Type}.
  Variable exec : nat -> S -> Cmd -> S * (R + X).
  (* command of environment i in the request *)
  Definition cmd_of (idxs : list nat) (cmds : list Cmd) (i : nat) : option Cmd :=
    dget i (combine idxs cmds).
  Definition answer (envs : list S) (i : nat) (c : Cmd) : option (R + X) :=
    option_map (fun e => snd (exec i e c)) (nth_error envs i).
  (* environment states afterwards *)
  Definition after (envs : list S) (idxs : list nat) (cmds : list Cmd) (i : nat) : option S :=
    match nth_error envs i, cmd_of idxs cmds i with
    | Some e, Some c => Some (fst (exec i e c))
    | e, _ => e
    end.
End S.
(* has a step since the last reset reported the end of the episode? *)
Definition ended (calls : list (list nat * option (list bool))) (i : nat) : bool :=
  fold_left (fun b c =>
    match snd c with
    | None => if existsb (Nat.eqb i) (fst c) then false else b
    | Some vs => (b || existsb (fun iv => Nat.eqb i (fst iv) && snd iv) (combine (fst c) vs))%bool
    end) calls false.
