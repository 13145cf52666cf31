(* Executions of one member of a distributed prioritized buffer, and of the group. *)
From Verif Require Import Lib.Rat Model.Buffer Model.WeightTree Model.PrioritizedBuffer Model.DistBuffer
  Spec.WeightTreeSpec Spec.BufferSpec Spec.PrioritizedSpec.
Open Scope nat_scope.

(* slot k of a ring of size cap receives one of the writes number N, ..., N' - 1 *)
Definition rewritten (cap N N' k : nat) : Prop := exists n, N <= n < N' /\ n mod cap = k.

Section Spec.
  Context {T : Type}.
  Variable ok : T -> bool.
  Variable norm : Qc -> Qc.
  Variable pw : Qc -> Qc -> Qc.
  Variables beta inc : Qc.

  (* one call on a member, other than clear(); H lists the episodes stored since the last
     clear().  Update requests carry versions that some sample returned, hence >= 1. *)
  Inductive dmove (cap : nat) : dpbuf T -> list (list T) -> dpbuf T -> list (list T) -> Prop :=
  | dm_store d H ep ps : ep <> [] -> forallb ok ep = true -> length ep <= cap ->
      (forall l, ps = Some l -> length ep <= length l) ->
      dmove cap d H (fst (dp_store ok norm d ep ps)) (H ++ [ep])
  | dm_refused d H ep ps : ep = [] \/ forallb ok ep = false ->
      dmove cap d H (fst (dp_store ok norm d ep ps)) H
  | dm_update d H ps idx vers : length ps = length idx -> length vers = length idx ->
      (forall i, In i idx -> i < cap) -> (forall v, In v vers -> 1 <= v) ->
      dmove cap d H (fst (dp_update norm d ps idx vers)) H
  | dm_sample d H us all : unit_draws us -> dmove cap d H (fst (dp_sample pw inc d us all)) H.

  Inductive dmoves (cap : nat) : dpbuf T -> list (list T) -> dpbuf T -> list (list T) -> Prop :=
  | ds_refl d H : dmoves cap d H d H
  | ds_step d H d1 H1 d2 H2 : dmoves cap d H d1 H1 -> dmove cap d1 H1 d2 H2 -> dmoves cap d H d2 H2.

  (* any history, including clear() *)
  Inductive dreach (cap : nat) : dpbuf T -> list (list T) -> Prop :=
  | dr_new : dreach cap (dp_new beta cap) []
  | dr_move d H d' H' : dreach cap d H -> dmove cap d H d' H' -> dreach cap d' H'
  | dr_clear d H : dreach cap d H -> dreach cap (dp_clear beta d) [].

  Definition dleaf (d : dpbuf T) (k : nat) : Qc := leaf (dp_p d) k.
  Definition dstored (d : dpbuf T) (k : nat) : option T := stored (dp_p d) k.

  (* where the sampled transitions came from: (member, (index, version)) per position *)
  Definition origins (ix : @dindex) : list (nat * (nat * nat)) :=
    flat_map (fun q => map (fun iv => (fst q, iv)) (combine (fst (snd q)) (snd (snd q)))) ix.
  (* the individual updates contained in a list of messages *)
  Definition requests (ms : list (nat * (list Qc * list nat * list nat))) : list (nat * (nat * nat) * Qc) :=
    flat_map (fun q => match q with (m, (ps, idx, ver)) =>
                map (fun x => (m, fst x, snd x)) (combine (combine idx ver) ps) end) ms.
End Spec.
