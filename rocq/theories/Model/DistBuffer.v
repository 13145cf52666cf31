(* Model of machin/frame/buffers/prioritized_buffer_d.py (DistributedPrioritizedBuffer, 33-303)
   and machin/frame/buffers/buffer_d.py (DistributedBuffer, 17-198).
   Every service runs under the member's wr_lock and is therefore one atomic step; the remote
   call layer is a function call on the member of that name.  Versions are uint64 in the
   source and natural numbers here (no wrap-around at 2^64). *)
From Coq Require Import QArith Qround.
From Verif Require Import Lib.Rat Model.Buffer Model.WeightTree Model.PrioritizedBuffer.
Close Scope Q_scope.
Open Scope nat_scope.
Set Implicit Arguments.

Section DP.
  Context {T : Type}.
  Variable ok : T -> bool.
  Variable norm : Qc -> Qc.
  Variable pw : Qc -> Qc -> Qc.
  Variables beta inc : Qc.

  (* prioritized_buffer_d.py:79-89: local prioritized buffer plus buffer_version_table *)
  Record dpbuf := MkDp { dp_p : pbuf T; dp_ver : list nat }.
  Definition dp_new (cap : nat) : dpbuf := MkDp (pb_new beta cap) (repeat 0 cap).

  (* 122-137: the two loops; zip stops at the shorter list *)
  Fixpoint dp_loop (t : wtree) (ver : list nat) (prios : option (list Qc)) (pos : list nat)
    : wtree * list nat * res unit :=
    match pos with
    | [] => (t, ver, Ok tt)
    | q :: r =>
        let go (x : Qc) (rest : option (list Qc)) :=
          match wt_update_leaf t x (Z.of_nat q) with
          | (t1, Err e) => (t1, ver, Err e)
          | (t1, Ok _) => dp_loop t1 (upd q (S (nth q ver 0)) ver) rest r
          end in
        match prios with
        | None => go (norm (wt_leaf_max t)) None
        | Some [] => (t, ver, Ok tt)
        | Some (x :: xs) => go (norm x) (Some xs)
        end
    end.

  (* 111-137 *)
  Definition dp_store (d : dpbuf) (ep : list T) (prios : option (list Qc)) : dpbuf * res unit :=
    let p := dp_p d in
    match b_store_episode ok (pb_b p) ep with
    | (b1, Err e) => (MkDp (MkPb b1 (pb_t p) (pb_curr p)) (dp_ver d), Err e)
    | (b1, Ok _) =>
        match dget (b_cnt b1 - 1) (b_eth b1) with
        | None => (MkDp (MkPb b1 (pb_t p) (pb_curr p)) (dp_ver d), Err EKey)
        | Some positions =>
            match dp_loop (pb_t p) (dp_ver d) prios positions with
            | (t1, ver1, r) => (MkDp (MkPb b1 t1 (pb_curr p)) ver1, r)
            end
        end
    end.

  (* 164-171, 272-276 *)
  Definition dp_clear (d : dpbuf) : dpbuf :=
    MkDp (pb_clear beta (dp_p d)) (repeat 0 (length (dp_ver d))).

  (* boolean mask selection xs[mask] *)
  Fixpoint mask {A} (bs : list bool) (xs : list A) : list A :=
    match bs, xs with
    | b :: bs, x :: xs => if b then x :: mask bs xs else mask bs xs
    | _, _ => []
    end.

  (* 282-291; equal lengths of the three arrays are assumed by the theorems *)
  Definition dp_update (d : dpbuf) (prios : list Qc) (idx vers : list nat) : dpbuf * res unit :=
    match index_all (dp_ver d) idx with
    | Err e => (d, Err e)
    | Ok cur =>
        let same := map (fun q => fst q =? snd q) (combine cur vers) in
        let (p1, r) := pb_update norm (dp_p d) (mask same prios) (map Z.of_nat (mask same idx)) in
        (MkDp p1 (dp_ver d), r)
    end.

  (* 278-280 *)
  Definition dp_weight_sum (d : dpbuf) : Qc := wt_sum (pb_t (dp_p d)).
  (* 268-270 *)
  Definition dp_size (d : dpbuf) : nat := b_size (pb_b (dp_p d)).

  Definition sres := (nat * list T * list nat * list nat * list Qc)%type.

  (* 293-303 with batch_size = len(us); iterating over the plain int that
     find_leaf_index returns for one query raises TypeError *)
  Definition dp_sample (d : dpbuf) (us : list Qc) (all : Qc) : dpbuf * res sres :=
    if (length us =? 0) || (dp_size d =? 0) then (d, Ok (0, [], [], [], []))
    else
      match pb_sample_index pw inc (dp_p d) us (Some all) with
      | (p1, Err e) => (MkDp p1 (dp_ver d), Err e)
      | (p1, Ok (idx, ws)) =>
          (MkDp p1 (dp_ver d),
           if length us =? 1 then Err EType else
           bind (index_all (dp_ver d) idx) (fun vers =>
           bind (index_all (st_data (b_st (pb_b (dp_p d)))) idx) (fun batch =>
           Ok (length batch, batch, idx, vers, ws))))
      end.

  (* ---- the group: members in the order of get_group_members() ---- *)
  Definition group := list (nat * dpbuf).

  (* 222-240 *)
  Definition all_weight_sum (g : group) : Qc :=
    (fold_left (fun a q => (a + dp_weight_sum (snd q))%Qc) g 0%Qc + tiny)%Qc.
  (* 244-246 *)
  Definition share (n : nat) (all : Qc) (w : Qc) : nat :=
    Z.to_nat (Qceiling (this (w * nq n / all)%Qc)).

  (* 248-257: one sampling request per member; [draw k] are the random numbers of member k *)
  Fixpoint ask (n : nat) (all : Qc) (draw : nat -> nat -> Qc) (k : nat) (g : group)
    : group * list (nat * res sres) :=
    match g with
    | [] => ([], [])
    | (m, d) :: r =>
        let us := map (draw k) (seq 0 (share n all (dp_weight_sum d))) in
        let (d1, a) := dp_sample d us all in
        let (r1, l) := ask n all draw (S k) r in
        ((m, d1) :: r1, (m, a) :: l)
    end.

  (* 259-272: collecting the answers *)
  Definition dindex := list (nat * (list nat * list nat)).
  Fixpoint collect (answers : list (nat * res sres)) (acc : nat * list T * dindex * list Qc)
    : res (nat * list T * dindex * list Qc) :=
    match answers with
    | [] => Ok acc
    | (m, Err e) :: _ => Err e
    | (m, Ok (len, batch, idx, ver, w)) :: r =>
        if len =? 0 then collect r acc
        else match acc with
             | (al, ab, ai, aw) => collect r (al + len, ab ++ batch, dset m (idx, ver) ai, aw ++ w)
             end
    end.

  (* 204-266 (without post_process_batch, which is C06) *)
  Definition g_sample (g : group) (n : nat) (draw : nat -> nat -> Qc)
    : group * res (nat * list T * dindex * list Qc) :=
    if n =? 0 then (g, Ok (0, [], [], []))
    else let all := all_weight_sum g in
         let (g1, answers) := ask n all draw 0 g in
         (g1, collect answers (0, [], [], [])).

  (* 184-202: the messages sent by update_priority *)
  Fixpoint messages (prios : list Qc) (offset : nat) (ix : dindex)
    : list (nat * (list Qc * list nat * list nat)) :=
    match ix with
    | [] => []
    | (m, (idx, ver)) :: r =>
        let len := length idx in
        (m, (firstn len (skipn offset prios), idx, ver)) :: messages prios (offset + len) r
    end.

  (* 195-202: delivery; an unknown member name is a KeyError of the rpc layer *)
  Fixpoint deliver (g : group) (ms : list (nat * (list Qc * list nat * list nat))) : group * res unit :=
    match ms with
    | [] => (g, Ok tt)
    | (m, (ps, idx, ver)) :: r =>
        match dget m g with
        | None => (g, Err EKey)
        | Some d =>
            match dp_update d ps idx ver with
            | (d1, Err e) => (dset m d1 g, Err e)
            | (d1, Ok _) => deliver (dset m d1 g) r
            end
        end
    end.
  Definition g_update (g : group) (prios : list Qc) (ix : dindex) : group * res unit :=
    deliver g (messages prios 0 ix).
End DP.
Arguments dpbuf : clear implicits.
Arguments group : clear implicits.
Arguments sres : clear implicits.

(* ---- buffer_d.py ---- *)
Section DB.
  Context {T : Type}.

  (* 13-14, 144: ceil(batch_size / p_num) (float division, exact for the sizes used) *)
  Definition local_size (n p : nat) : nat := (n + p - 1) / p.

  (* 112-126 *)
  Definition db_all_size (g : list (buffer T)) : nat :=
    fold_left (fun c b => c + b_size b) g 0.

  (* 146-158: each member samples with sample_method_random[_unique]; [pick k] is what the
     random generator of member k chooses *)
  Fixpoint db_ask (n : nat) (pick : nat -> list nat) (k : nat) (g : list (buffer T)) : res (list (nat * list T)) :=
    match g with
    | [] => Ok []
    | b :: r => bind (sample_random b n (pick k)) (fun a =>
                bind (db_ask n pick (S k) r) (fun l => Ok (a :: l)))
    end.

  (* 128-172; [attrs_given] tells whether sample_attrs was passed: otherwise all_batch[0] is used *)
  Definition db_sample (g : list (buffer T)) (n : nat) (attrs_given : bool) (pick : nat -> list nat)
    : res (nat * list T) :=
    if length g =? 0 then Err EZeroDiv else
    bind (db_ask (local_size n (length g)) pick 0 g) (fun rs =>
    let all_batch := concat (map snd rs) in
    if negb attrs_given && (length all_batch =? 0) then Err EIndex
    else Ok (list_sum (map fst rs), all_batch)).
End DB.
