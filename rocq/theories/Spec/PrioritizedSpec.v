(* Executions of a prioritized buffer and what its samples must look like. *)
From Verif Require Import Lib.Rat Model.Buffer Model.WeightTree Model.PrioritizedBuffer Spec.WeightTreeSpec.

Section Spec.
  Context {T : Type}.
  Variable ok : T -> bool.
  Variable norm : Qc -> Qc.
  Variable pw : Qc -> Qc -> Qc.
  Variables beta inc : Qc.

  (* documented range of np.random.uniform *)
  Definition unit_draws (us : list Qc) : Prop := forall u, In u us -> (0 <= u)%Qc /\ (u < 1)%Qc.

  (* [reach cap p k H]: p is reachable by documented calls, k sampling calls on a non-empty
     buffer were made and H is the list of episodes stored since the last clear().
     Priority updates use indexes of stored transitions (sample_batch returns such
     indexes); a given priority list has the length of the episode. *)
  Inductive reach (cap : nat) : pbuf T -> nat -> list (list T) -> Prop :=
  | reach_new : reach cap (pb_new beta cap) 0 []
  | reach_store p k H ep ps : reach cap p k H ->
      ep <> [] -> forallb ok ep = true -> length ep <= cap ->
      (forall l, ps = Some l -> length l = length ep) ->
      reach cap (fst (pb_store ok norm p ep ps)) k (H ++ [ep])
  | reach_refused p k H ep ps : reach cap p k H ->
      ep = [] \/ forallb ok ep = false ->
      reach cap (fst (pb_store ok norm p ep ps)) k H
  | reach_update p k H ps idx : reach cap p k H ->
      length ps = length idx -> (forall i, In i idx -> valid_idx (b_size (pb_b p)) i) ->
      reach cap (fst (pb_update norm p ps idx)) k H
  | reach_sample p k H us : reach cap p k H -> us <> [] -> b_size (pb_b p) <> 0 -> unit_draws us ->
      reach cap (fst (pb_sample pw inc p us)) (S k) H
  | reach_clear p k H : reach cap p k H -> reach cap (pb_clear beta p) 0 [].

  (* leaf weights and stored transitions as seen through the public interface *)
  Definition leaf (p : pbuf T) (i : nat) : Qc := nth i (wt_leaves (pb_t p)) 0%Qc.
  Definition stored (p : pbuf T) (i : nat) : option T := nth_error (st_data (b_st (pb_b p))) i.

  (* the k-th of n query points: (k + u) n-ths of the total, kept 1e-6 below the total *)
  Definition query_point (total u : Qc) (k n : nat) : Qc :=
    Qcmin ((nq k + u) * total / nq n)%Qc (Qcmax (total - Q2Qc (QArith_base.Qmake 1 1000000))%Qc 0).
End Spec.
