(* What recurrent sampling must return, stated on lists of episodes only. *)
From Coq Require Import List Arith.
Import ListNotations.
From Verif Require Import Lib.Rat Model.Buffer Model.WeightTree Model.PrioritizedBuffer Model.RnnBuffer
  Spec.WeightTreeSpec Spec.BufferSpec Spec.PrioritizedSpec.
Open Scope nat_scope.

(* the window of L consecutive steps of e that starts at pos *)
Definition window {T} (L pos : nat) (e : list T) : list T := firstn L (skipn pos e).
(* w consists of L consecutive steps of e, in order *)
Definition is_window {T} (L : nat) (e w : list T) : Prop :=
  exists a b, e = a ++ w ++ b /\ length w = L.

Definition long_enough {T} (L : nat) (es : list (list T)) : list (list T) :=
  filter (fun e => L <=? length e) es.
Definition all_windows {T} (L : nat) (es : list (list T)) : list (list T) :=
  flat_map (fun e => map (fun pos => window L pos e) (seq 0 (length e - L + 1))) (long_enough L es).

(* outcomes of random.choices / random.sample and random.randint *)
Definition pick_ok (pick : nat -> nat -> nat) : Prop := forall k m, 0 < m -> pick k m < m.
Definition pick_unique (pick : nat -> nat -> nat) : Prop :=
  forall m j k, j < m -> k < m -> pick j m = pick k m -> j = k.
Definition start_ok (start : nat -> nat -> nat) : Prop := forall k m, start k m <= m.

Section Reach.
  Context {T : Type}.
  Variable ok : T -> bool.
  Variable norm : Qc -> Qc.
  Variable pw : Qc -> Qc -> Qc.
  Variables beta inc : Qc.
  Variables L : nat.

  (* documented use of a prioritized recurrent buffer in which no episode crosses the
     end of the ring: H lists the stored episodes *)
  Inductive rreach (cap : nat) : pbuf T -> list (list T) -> Prop :=
  | rr_new : rreach cap (pb_new beta cap) []
  | rr_store p H ep ps : rreach cap p H ->
      ep <> [] -> forallb ok ep = true -> total H mod cap + length ep <= cap ->
      (ps = PNone \/ (exists l, ps = PArray l /\ length l = length ep) \/
       (exists l, ps = PList l /\ length l = length ep /\ L <= length ep)) ->
      rreach cap (fst (rp_store ok norm L p ep ps)) (H ++ [ep])
  | rr_refused p H ep ps : rreach cap p H ->
      ep = [] \/ forallb ok ep = false ->
      rreach cap (fst (rp_store ok norm L p ep ps)) H
  | rr_update p H ps idx : rreach cap p H ->
      length ps = length idx -> (forall i, In i idx -> (0 < leaf p i)%Qc) ->
      rreach cap (fst (pb_update norm p ps (map Z.of_nat idx))) H
  | rr_sample p H us : rreach cap p H -> rreach cap (fst (rp_sample pw inc L p us)) H.
End Reach.
