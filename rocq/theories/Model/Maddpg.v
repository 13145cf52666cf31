(* Model of machin/frame/algorithms/maddpg.py: MADDPG.__init__ 207-212 (one buffer per agent),
   store_episodes 506-518, the sampling part of update 541-592, _create_sample_method 959-965.
   Buffers are those of Model/Buffer.v; SHMBuffer (16-50) only moves tensors. *)
From Verif Require Import Lib.Base Model.Buffer.
Set Implicit Arguments.

Section Maddpg.
  Context {T : Type}.
  Variable ok : T -> bool.                     (* has the required attributes *)

  (* 207-212 *)
  Definition mb_new (agents cap : nat) : list (buffer T) := repeat (b_new cap) agents.

  Definition all_same_length (eps : list (list T)) : bool :=
    match eps with [] => false | e :: r => forallb (fun e' => length e' =? length e) r end.
  (* 514-518: stops at the first buffer that raises *)
  Fixpoint store_each (bs : list (buffer T)) (eps : list (list T)) : list (buffer T) * res unit :=
    match bs, eps with
    | b :: bs', e :: eps' =>
        match b_store_episode ok b e with
        | (b1, Err er) => (b1 :: bs', Err er)
        | (b1, Ok _) => let (bs1, r) := store_each bs' eps' in (b1 :: bs1, r)
        end
    | _, _ => (bs, Ok tt)
    end.
  (* 506-518 *)
  Definition store_episodes (bs : list (buffer T)) (eps : list (list T)) : list (buffer T) * res unit :=
    if negb (length eps =? length bs) then (bs, Err EAssert)
    else if negb (all_same_length eps) then (bs, Err EAssert)
    else store_each bs eps.
  Definition mb_run (bs : list (buffer T)) (h : list (list (list T))) : list (buffer T) :=
    fold_left (fun b e => fst (store_episodes b e)) h bs.

  (* 959-965 *)
  Definition sample_method (indexes : list nat) (b : buffer T) : res (nat * list T) :=
    bind (index_all (st_data (b_st b)) (filter (fun i => i <? b_size b) indexes))
         (fun batch => Ok (length batch, batch)).
  (* 541-582 for one sub-policy; the indexes are what randint returned *)
  Fixpoint sample_each (batch_size : nat) (indexes : list nat) (bs : list (buffer T)) : res (list (list T)) :=
    match bs with
    | [] => Ok []
    | b :: r =>
        bind (sample_method indexes b) (fun '(n, batch) =>
        if n =? batch_size then bind (sample_each batch_size indexes r) (fun rest => Ok (batch :: rest))
        else Err EAssert)                                        (* 582 *)
    end.
  Definition sample_joint (batch_size : nat) (indexes : list nat) (bs : list (buffer T)) : res (list (list T)) :=
    match bs with
    | [] => Err EIndex
    | b0 :: _ => sample_each (Nat.min (b_size b0) batch_size) indexes bs
    end.
End Maddpg.
