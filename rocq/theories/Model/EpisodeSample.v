(* machin/frame/algorithms/impala.py IMPALABuffer.sample_method_episode, 52-66, on the buffer of
   Model/Buffer.v (machin/frame/buffers/buffer.py 46-109).
   The list [pick] holds the positions in the list of episode numbers that random.choices draws
   (repetitions are possible); its contract is stated in the theorems. *)
From Verif Require Import Lib.Base Model.Buffer.
Set Implicit Arguments.

Section E.
  Context {T : Type}.
  (* 57 *)
  Definition episode_count (b : buffer T) (n : nat) : nat := Nat.min (length (b_eth b)) n.
  (* 61-65, one episode: KeyError for an unknown episode, IndexError for a handle outside the storage *)
  Definition episode_steps (b : buffer T) (e : nat) : res (list T) :=
    match dget e (b_eth b) with
    | None => Err EKey
    | Some hs => index_all (st_data (b_st b)) hs
    end.
  (* 61-65 *)
  Fixpoint episodes_steps (b : buffer T) (es : list nat) : res (list T) :=
    match es with
    | [] => Ok []
    | e :: r => bind (episode_steps b e) (fun x => bind (episodes_steps b r) (fun y => Ok (x ++ y)))
    end.
  (* 52-66 *)
  Definition sample_episode (b : buffer T) (n : nat) (pick : list nat) : res (nat * list T) :=
    bind (index_all (dkeys (b_eth b)) pick) (fun es =>
    bind (episodes_steps b es) (fun batch => Ok (episode_count b n, batch))).
End E.
