(* Model of machin/frame/buffers/storage.py (TransitionStorageBasic) and
   machin/frame/buffers/buffer.py (Buffer).
   A transition is an opaque value of type T (deepcopy / .to(device) are the
   identity on it); tensors and devices are not modelled here. *)
From Verif Require Import Lib.Base.
Set Implicit Arguments.

Section Storage.
  Context {T : Type}.

  (* storage.py:73-83  max_size, data, index *)
  Record storage := MkSt { st_cap : nat; st_data : list T; st_idx : nat }.

  (* storage.py:73-83 *)
  Definition st_new (cap : nat) : storage := MkSt cap [] 0.

  (* storage.py:98-111, one iteration of the loop body.  The list assignment
     data[index] = transition raises IndexError when index is out of range
     (only possible for max_size = 0). *)
  Definition st_store1 (s : storage) (tr : T) : storage * res nat :=
    let n := length (st_data s) in
    if Nat.eqb n (st_cap s) then
      if Nat.ltb (st_idx s) n then
        let p := st_idx s in
        (MkSt (st_cap s) (upd p tr (st_data s)) ((p + 1) mod st_cap s), Ok p)
      else (s, Err EIndex)
    else if Nat.ltb n (st_cap s) then
      let p := n in   (* len(self) - 1 after the append *)
      (MkSt (st_cap s) (st_data s ++ [tr]) ((p + 1) mod st_cap s), Ok p)
    else (s, Err ERuntime).

  (* storage.py:97-111, the for loop, accumulating positions *)
  Fixpoint st_store_loop (s : storage) (ep : list T) : storage * res (list nat) :=
    match ep with
    | [] => (s, Ok [])
    | tr :: r =>
        match st_store1 s tr with
        | (s1, Err e) => (s1, Err e)
        | (s1, Ok p) =>
            match st_store_loop s1 r with
            | (s2, Err e) => (s2, Err e)
            | (s2, Ok ps) => (s2, Ok (p :: ps))
            end
        end
    end.

  (* len(set(positions)) != len(positions) *)
  Fixpoint has_dup (l : list nat) : bool :=
    match l with
    | [] => false
    | x :: r => (existsb (Nat.eqb x) r || has_dup r)%bool
    end.

  (* storage.py:85-114 *)
  Definition st_store_episode (s : storage) (ep : list T) : storage * res (list nat) :=
    match st_store_loop s ep with
    | (s1, Err e) => (s1, Err e)
    | (s1, Ok ps) => if has_dup ps then (s1, Err EValue) else (s1, Ok ps)
    end.

  (* storage.py:116-117; note: index is left alone *)
  Definition st_clear (s : storage) : storage := MkSt (st_cap s) [] (st_idx s).
End Storage.
Arguments storage : clear implicits.
Arguments st_new {T} cap.

Section Buffer.
  Context {T : Type}.
  (* transition.has_keys(required_attrs), buffer.py:85 *)
  Variable ok : T -> bool.

  (* buffer.py:36-44 *)
  Record buffer := MkBuf {
    b_st : storage T;
    b_ten : list (nat * nat);          (* transition_episode_number: handle -> episode *)
    b_eth : list (nat * list nat);     (* episode_transition_handles: episode -> handles *)
    b_cnt : nat                        (* episode_counter *)
  }.

  Definition b_new (cap : nat) : buffer := MkBuf (st_new cap) [] [] 0.

  (* buffer.py:103-104  for old_position in ...: transition_episode_number.pop(old_position) *)
  Fixpoint pop_all (ps : list nat) (d : list (nat * nat)) : res (list (nat * nat)) :=
    match ps with
    | [] => Ok d
    | p :: r => bind (dpop p d) (pop_all r)
    end.

  (* buffer.py:95-107, body of the loop over handles *)
  Definition claim1 (ep : nat) (h : nat) (ten : list (nat * nat)) (eth : list (nat * list nat))
    : res (list (nat * nat) * list (nat * list nat)) :=
    match dget h ten with
    | None => Ok (dset h ep ten, eth)
    | Some old =>
        match dget old eth with
        | None => Err EKey
        | Some hs =>
            bind (pop_all hs ten) (fun ten1 =>
            bind (dpop old eth) (fun eth1 =>
            Ok (dset h ep ten1, eth1)))
        end
    end.

  (* buffer.py:95-107, the loop *)
  Fixpoint claim (ep : nat) (hs : list nat) (ten : list (nat * nat)) (eth : list (nat * list nat))
    : res (list (nat * nat) * list (nat * list nat)) :=
    match hs with
    | [] => Ok (ten, eth)
    | h :: r => bind (claim1 ep h ten eth) (fun p => claim ep r (fst p) (snd p))
    end.

  (* buffer.py:46-109.  A KeyError inside the handle loop would leave the
     dictionaries half updated; the model then keeps the old dictionaries, and
     Proofs/BufferProofs.v shows this branch is unreachable. *)
  Definition b_store_episode (b : buffer) (ep : list T) : buffer * res unit :=
    match ep with
    | [] => (b, Err EValue)                                              (* 69-70 *)
    | _ =>
      let n := b_cnt b in
      let b1 := MkBuf (b_st b) (b_ten b) (b_eth b) (S n) in              (* 72-73 *)
      if negb (forallb ok ep) then (b1, Err EValue)                      (* 85-90 *)
      else
        match st_store_episode (b_st b) ep with                          (* 94 *)
        | (s1, Err e) => (MkBuf s1 (b_ten b) (b_eth b) (S n), Err e)
        | (s1, Ok hs) =>
            match claim n hs (b_ten b) (b_eth b) with                    (* 95-107 *)
            | Err e => (MkBuf s1 (b_ten b) (b_eth b) (S n), Err e)
            | Ok (ten1, eth1) =>
                (MkBuf s1 ten1 (dset n hs eth1) (S n), Ok tt)            (* 109 *)
            end
        end
    end.

  (* buffer.py:111-116 *)
  Definition b_size (b : buffer) : nat := length (st_data (b_st b)).

  (* buffer.py:118-122 *)
  Definition b_clear (b : buffer) : buffer :=
    MkBuf (st_clear (b_st b)) (b_ten b) (b_eth b) (b_cnt b).

  (* buffer.py:254-259 *)
  Definition sample_all (b : buffer) : res (nat * list T) :=
    bind (index_all (st_data (b_st b)) (dkeys (b_ten b)))
         (fun batch => Ok (length (b_ten b), batch)).

  (* buffer.py:224-238 and 240-252: both compute
       batch_size = min(len(transition_episode_number), batch_size)
       batch_handles = random.sample / random.choices (list of keys, k = batch_size)
     and index the storage.  [pick] is the list of positions in the key list
     chosen by the random generator; its contract is stated in the theorems. *)
  Definition sample_count (b : buffer) (n : nat) : nat := Nat.min (length (b_ten b)) n.

  Definition sample_random (b : buffer) (n : nat) (pick : list nat) : res (nat * list T) :=
    bind (index_all (dkeys (b_ten b)) pick) (fun hs =>
    bind (index_all (st_data (b_st b)) hs) (fun batch =>
    Ok (sample_count b n, batch))).
End Buffer.
Arguments buffer : clear implicits.
Arguments b_new {T} cap.

(* Operations a caller can perform that change a plain buffer. *)
Inductive bop (T : Type) := BStore (ep : list T) | BClear.
Arguments BStore {T} ep.
Arguments BClear {T}.

Definition b_step {T} (ok : T -> bool) (b : buffer T) (o : bop T) : buffer T :=
  match o with
  | BStore ep => fst (b_store_episode ok b ep)
  | BClear => b_clear b
  end.
Definition b_run {T} (ok : T -> bool) (b : buffer T) (os : list (bop T)) : buffer T :=
  fold_left (b_step ok) os b.
