(* Model of machin/frame/buffers/rnn_buffers.py: RNNBuffer (47-187) and
   RNNPrioritizedBuffer (259-412).  sample_dimension only permutes axes of the
   finished tensors and is not modelled. *)
From Coq Require Import QArith.
From Verif Require Import Lib.Rat Model.Buffer Model.WeightTree Model.PrioritizedBuffer.
Close Scope Q_scope.
Open Scope nat_scope.
Set Implicit Arguments.

Section Rnn.
  Context {T : Type}.
  Variable L : nat.                   (* sample_length *)

  (* 90-94, 121-125, 149-153: valid_episodes *)
  Definition valid_eps (b : buffer T) : list nat :=
    map fst (filter (fun it => L <=? length (snd it)) (b_eth b)).

  Definition handles (b : buffer T) (ep : nat) : res (list nat) :=
    match dget ep (b_eth b) with Some hs => Ok hs | None => Err EKey end.

  (* handles[pos : pos + L] *)
  Definition slice {A} (pos : nat) (hs : list A) : list A := firstn L (skipn pos hs).

  (* 97-102, 128-133: the k-th selected episode gets start position
     randint(0, len(handles) - L); [start k m] is the k-th outcome of randint(0, m) *)
  Fixpoint starts (start : nat -> nat -> nat) (b : buffer T) (k : nat) (eps : list nat) : res (list (nat * nat)) :=
    match eps with
    | [] => Ok []
    | ep :: r => bind (handles b ep) (fun hs =>
                 bind (starts start b (S k) r) (fun q => Ok ((ep, start k (length hs - L)) :: q)))
    end.

  (* 103-109, 134-140: storage[bh] for ep, pos in ... for bh in handles[ep][pos : pos + L] *)
  Fixpoint gather (b : buffer T) (sel : list (nat * nat)) : res (list T) :=
    match sel with
    | [] => Ok []
    | (ep, pos) :: r =>
        bind (handles b ep) (fun hs =>
        bind (index_all (st_data (b_st b)) (slice pos hs)) (fun w =>
        bind (gather b r) (fun q => Ok (w ++ q))))
    end.

  (* 78-107 and 109-135 (random_unique, random): the two differ in the contract of the
     generator.  [pick k m] is the k-th element drawn from a population of size m. *)
  Definition rnn_sample (b : buffer T) (n : nat) (pick start : nat -> nat -> nat) : res (nat * list T) :=
    let valid := valid_eps b in
    let k := Nat.min (length valid) n in
    bind (index_all valid (map (fun j => pick j (length valid)) (seq 0 k))) (fun eps =>
    bind (starts start b 0 eps) (fun sel =>
    bind (gather b sel) (fun batch => Ok (length eps, batch)))).

  (* 154-163 *)
  Fixpoint all_sel (b : buffer T) (eps : list nat) : res (list (nat * nat)) :=
    match eps with
    | [] => Ok []
    | ep :: r => bind (handles b ep) (fun hs => bind (all_sel b r) (fun q =>
                 Ok (map (fun pos => (ep, pos)) (seq 0 (length hs - L + 1)) ++ q)))
    end.
  (* 137-163 *)
  Definition rnn_all (b : buffer T) : res (nat * list T) :=
    bind (all_sel b (valid_eps b)) (fun sel =>
    bind (gather b sel) (fun batch => Ok (length sel, batch))).

  (* 165-187: values[i : i + L] for i in range(0, len(values), L); the reshape of a
     tensor to [len / L, L, ...] groups its rows in the same way *)
  Definition chunks {A} (values : list A) : list (list A) :=
    map (fun j => firstn L (skipn (j * L) values)) (seq 0 ((length values + L - 1) / L)).
End Rnn.

Section RnnP.
  Context {T : Type}.
  Variable ok : T -> bool.
  Variable norm : Qc -> Qc.
  Variable pw : Qc -> Qc -> Qc.
  Variables beta inc : Qc.
  Variable L : nat.

  (* the two kinds of priorities a caller may pass *)
  Inductive prio := PNone | PArray (ps : list Qc) | PList (ps : list Qc).

  (* xs[k:] = 0 *)
  Definition zero_from (k : nat) (xs : list Qc) : list Qc := firstn k xs ++ repeat 0%Qc (length xs - k).

  (* 365-379: priorities written to the tree; [priorities[:] = 0] raises TypeError on a list *)
  Definition rp_prios (p : pbuf T) (len : nat) (ps : prio) : res (list Qc) :=
    match ps with
    | PNone => let pr := norm (wt_leaf_max (pb_t p)) in
               Ok (map (fun i => if i + L <=? len then pr else 0%Qc) (seq 0 len))
    | PArray xs => if len <? L then Ok (repeat 0%Qc (length xs)) else Ok (zero_from (len - L + 1) (map norm xs))
    | PList xs => if len <? L then Err EType else Ok (zero_from (len - L + 1) (map norm xs))
    end.

  (* 338-380; the episode is stored before the priorities are looked at *)
  Definition rp_store (p : pbuf T) (ep : list T) (ps : prio) : pbuf T * res unit :=
    match b_store_episode ok (pb_b p) ep with
    | (b1, Err e) => (MkPb b1 (pb_t p) (pb_curr p), Err e)
    | (b1, Ok _) =>
        match dget (b_cnt b1 - 1) (b_eth b1) with
        | None => (MkPb b1 (pb_t p) (pb_curr p), Err EKey)
        | Some positions =>
            match rp_prios p (length ep) ps with
            | Err e => (MkPb b1 (pb_t p) (pb_curr p), Err e)
            | Ok ws => let (t1, r) := wt_update_batch (pb_t p) ws (map Z.of_nat positions) in
                       (MkPb b1 t1 (pb_curr p), r)
            end
        end
    end.

  (* 382-412: storage[i] for idx in index for i in range(idx, idx + L) *)
  Definition rp_sample (p : pbuf T) (us : list Qc) : pbuf T * res (nat * list T * list nat * list Qc) :=
    if (length us =? 0) || (b_size (pb_b p) =? 0) then (p, Ok (0, [], [], []))
    else
      match pb_sample_index pw inc p us None with
      | (p1, Err e) => (p1, Err e)
      | (p1, Ok (idx, ws)) =>
          if length us =? 1 then (p1, Err EType)
          else (p1, bind (index_all (st_data (b_st (pb_b p))) (flat_map (fun i => seq i L) idx))
                         (fun batch => Ok (length idx, batch, idx, ws)))
      end.
End RnnP.
