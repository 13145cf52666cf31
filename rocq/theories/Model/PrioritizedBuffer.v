(* Model of machin/frame/buffers/prioritized_buffer.py, class PrioritizedBuffer (234-434).
   [norm] stands for _normalize_priority (430-434), (|p| + epsilon) ** alpha, and
   [pw x b] for np.power(x, -b) (423); both are arbitrary functions, the theorems
   state what they need of them. *)
From Coq Require Import QArith.
From Verif Require Import Lib.Rat Model.Buffer Model.WeightTree.
Close Scope Q_scope.
Open Scope nat_scope.
Set Implicit Arguments.

Section PBuffer.
  Context {T : Type}.
  Variable ok : T -> bool.
  Variable norm : Qc -> Qc.
  Variable pw : Qc -> Qc -> Qc.
  Variables beta inc : Qc.     (* 274-275 *)

  (* 269-277 *)
  Record pbuf := MkPb { pb_b : buffer T; pb_t : wtree; pb_curr : Qc }.
  Definition pb_new (cap : nat) : pbuf := MkPb (b_new cap) (wt_new cap) beta.

  (* 279-309.  If the lengths of priorities and episode differ update_leaf_batch
     raises after the episode has been stored. *)
  Definition pb_store (p : pbuf) (ep : list T) (prios : option (list Qc)) : pbuf * res unit :=
    match b_store_episode ok (pb_b p) ep with
    | (b1, Err e) => (MkPb b1 (pb_t p) (pb_curr p), Err e)
    | (b1, Ok _) =>
        match dget (b_cnt b1 - 1) (b_eth b1) with                                  (* 300-301 *)
        | None => (MkPb b1 (pb_t p) (pb_curr p), Err EKey)
        | Some positions =>
            let zs := map Z.of_nat positions in
            let ws := match prios with
                      | None => repeat (norm (wt_leaf_max (pb_t p))) (length positions)  (* 302-305 *)
                      | Some ps => map norm ps                                     (* 307-309 *)
                      end in
            let (t1, r) := wt_update_batch (pb_t p) ws zs in
            (MkPb b1 t1 (pb_curr p), r)
        end
    end.

  (* 311-317 *)
  Definition pb_clear (p : pbuf) : pbuf :=
    MkPb (b_clear (pb_b p)) (wt_new (st_cap (b_st (pb_b p)))) beta.

  (* 319-328 *)
  Definition pb_update (p : pbuf) (prios : list Qc) (idx : list Z) : pbuf * res unit :=
    let (t1, r) := wt_update_batch (pb_t p) (map norm prios) idx in
    (MkPb (pb_b p) t1 (pb_curr p), r).

  Definition tiny : Qc := Q2Qc (1 # 1000000).
  (* np.clip(x, 0, hi) = min(max(x, 0), hi) *)
  Definition clip0 (hi x : Qc) : Qc := Qcmin (Qcmax x 0) hi.

  (* 409-415: the stratified query points; us is the output of np.random.uniform *)
  Fixpoint strata (seg : Qc) (k : nat) (us : list Qc) : list Qc :=
    match us with
    | [] => []
    | u :: r => (u * seg + nq k * seg)%Qc :: strata seg (S k) r
    end.
  Definition queries (total : Qc) (us : list Qc) : list Qc :=
    let seg := (total / nq (length us))%Qc in
    map (clip0 (Qcmax (total - tiny) 0)) (strata seg 0 us).

  (* 397-428 for batch_size = len(us); [all_sum] is the optional argument *)
  Definition pb_sample_index (p : pbuf) (us : list Qc) (all_sum : option Qc)
    : pbuf * res (list nat * list Qc) :=
    let total := wt_sum (pb_t p) in
    match bind (wt_find (pb_t p) (queries total us)) (fun idx =>
          bind (wt_leaf_weight (pb_t p) (map Z.of_nat idx)) (fun pr => Ok (idx, pr))) with
    | Err e => (p, Err e)
    | Ok (idx, pr) =>
        let all := match all_sum with
                   | Some a => if Qc_eq_dec a 0%Qc then total else a
                   | None => total end in                                          (* 421 *)
        let n := nq (length (st_data (b_st (pb_b p)))) in
        let raw := map (fun q => pw (n * (q / all))%Qc (pb_curr p)) pr in           (* 422-423 *)
        let mx := match raw with [] => 0%Qc | x :: r => qmax_list x r end in
        let ws := map (fun w => (w / mx)%Qc) raw in                                (* 424 *)
        (MkPb (pb_b p) (pb_t p) (Qcmin 1 (pb_curr p + inc)%Qc), Ok (idx, ws))         (* 425-427 *)
    end.

  (* 330-395 with batch_size = len(us).  find_leaf_index returns a plain int for a
     single query, and iterating over it raises TypeError. *)
  Definition pb_sample (p : pbuf) (us : list Qc)
    : pbuf * res (nat * list T * list nat * list Qc) :=
    if (length us =? 0) || (b_size (pb_b p) =? 0) then (p, Ok (0, [], [], []))
    else
      match pb_sample_index p us None with
      | (p1, Err e) => (p1, Err e)
      | (p1, Ok (idx, ws)) =>
          if length us =? 1 then (p1, Err EType)
          else (p1, bind (index_all (st_data (b_st (pb_b p))) idx)
                         (fun batch => Ok (length batch, batch, idx, ws)))
      end.

  Inductive pop := PStore (ep : list T) (prios : option (list Qc)) | PUpdate (ps : list Qc) (idx : list Z)
                 | PSample (us : list Qc) | PClear.
  Definition pb_step (p : pbuf) (o : pop) : pbuf :=
    match o with
    | PStore ep ps => fst (pb_store p ep ps)
    | PUpdate ps idx => fst (pb_update p ps idx)
    | PSample us => fst (pb_sample p us)
    | PClear => pb_clear p
    end.
  Definition pb_run (p : pbuf) (os : list pop) : pbuf := fold_left pb_step os p.
End PBuffer.
Arguments pbuf : clear implicits.
Arguments pop : clear implicits.
