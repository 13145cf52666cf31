(* Model of machin/frame/buffers/prioritized_buffer.py, class WeightTree (8-231).
   float64 is modelled by exact rationals.  The flattened numpy array is a list;
   numpy IndexErrors are explicit. *)
From Verif Require Import Lib.Rat.
Set Implicit Arguments.

(* prioritized_buffer.py:45-52; depth, sizes and offsets are functions of size.
   np.log2(0) = -inf makes the constructor fail for size 0: theorems assume size >= 1. *)
Record wtree := MkWt { wt_size : nat; wt_max : Qc; wt_w : list Qc }.

(* 48: int(ceil(log2(size))) + 1 *)
Definition wt_depth (size : nat) : nat := Nat.log2_up size + 1.
(* 49-50: 2 ** (depth-1), ..., 2, 1 *)
Definition wt_sizes (d : nat) : list nat := map (fun k => 2 ^ k) (rev (seq 0 d)).
(* 51: [0] + cumsum(sizes) *)
Definition wt_off (d i : nat) : nat := list_sum (firstn i (wt_sizes d)).

(* 45-52 *)
Definition wt_new (size : nat) : wtree :=
  MkWt size 0%Qc (repeat 0%Qc (wt_off (wt_depth size) (wt_depth size))).

Definition wt_d (t : wtree) := wt_depth (wt_size t).

(* 54-59: weights[-1] *)
Definition wt_sum (t : wtree) : Qc := last (wt_w t) 0%Qc.
(* 61-66 *)
Definition wt_leaf_max (t : wtree) : Qc := wt_max t.
(* 68-73 *)
Definition wt_leaves (t : wtree) : list Qc := firstn (wt_size t) (wt_w t).

Definition wget (w : list Qc) (i : nat) : res Qc :=
  match nth_error w i with Some x => Ok x | None => Err EIndex end.

Definition in_range (size : nat) (z : Z) : bool := ((0 <=? z) && (z <? Z.of_nat size))%Z.

(* 75-94 (array form; for one index numpy returns the scalar) *)
Definition wt_leaf_weight (t : wtree) (idx : list Z) : res (list Qc) :=
  if negb (forallb (in_range (wt_size t)) idx) then Err EValue
  else index_all (wt_w t) (map Z.to_nat idx).

(* 113-119: one element of the vectorised descent; [n] levels left, i = n-1 *)
Fixpoint find_loop (d : nat) (w : list Qc) (n : nat) (weight : Qc) (index : nat) : res nat :=
  match n with
  | O => Ok index
  | S i =>
      bind (wget w (wt_off d i + index * 2)) (fun left_wt =>
      let select := Qcltb left_wt weight in
      find_loop d w i
        (weight - left_wt * (if select then 1 else 0))%Qc
        (index * 2 + (if select then 1 else 0)))
  end.

(* 96-120, per element *)
Definition wt_find1 (t : wtree) (weight : Qc) : res nat :=
  bind (find_loop (wt_d t) (wt_w t) (wt_d t - 1) weight 0)
       (fun i => Ok (Nat.min i (wt_size t - 1))).

(* 96-125, the array of results (the caller sees an int instead of an array
   when there is exactly one) *)
Fixpoint wt_find (t : wtree) (ws : list Qc) : res (list nat) :=
  match ws with
  | [] => Ok []
  | x :: r => bind (wt_find1 t x) (fun i => bind (wt_find t r) (fun is => Ok (i :: is)))
  end.

(* 142-148; [n] iterations left, level i.  Note the source writes
   index ^ 0b1 + offset, i.e. index ^ (1 + offset). *)
Fixpoint ul_loop (d n i : nat) (w : list Qc) (index : nat) (value comp : Qc)
  : list Qc * res (Qc * Qc) :=
  match n with
  | O => (w, Ok (value, comp))
  | S m =>
      let offset := wt_off d i in
      let index := index / 2 in
      let global := index + offset in
      let comp_global := Nat.lxor index (1 + offset) in
      if global <? length w then
        let v := (value + comp)%Qc in
        let w1 := upd global v w in
        match nth_error w1 comp_global with
        | None => (w1, Err EIndex)
        | Some c => ul_loop d m (S i) w1 index v c
        end
      else (w, Err EIndex)
  end.

(* 127-150 *)
Definition wt_update_leaf (t : wtree) (weight : Qc) (index : Z) : wtree * res unit :=
  if negb ((0 <=? index) && (index <=? Z.of_nat (wt_size t)))%Z then (t, Err EValue) else
  let i := Z.to_nat index in
  let mx := Qcmax (wt_max t) weight in
  if i <? length (wt_w t) then
    let w1 := upd i weight (wt_w t) in
    match nth_error w1 (Nat.lxor i 1) with
    | None => (MkWt (wt_size t) mx w1, Err EIndex)
    | Some c =>
        match ul_loop (wt_d t) (wt_d t - 2) 1 w1 i weight c with
        | (w2, Err e) => (MkWt (wt_size t) mx w2, Err e)
        | (w2, Ok (v, cv)) =>
            (MkWt (wt_size t) mx (upd (length w2 - 1) (v + cv)%Qc w2), Ok tt)
        end
    end
  else (MkWt (wt_size t) mx (wt_w t), Err EIndex).

(* numpy fancy assignment w[is] = xs, the last write wins; IndexError if any index is bad *)
Definition wassign (w : list Qc) (is : list nat) (xs : list Qc) : res (list Qc) :=
  if forallb (fun i => i <? length w) is
  then Ok (fold_left (fun w p => upd (fst p) (snd p) w) (combine is xs) w)
  else Err EIndex.

(* np.unique: sorted, without duplicates *)
Fixpoint uinsert (x : nat) (l : list nat) : list nat :=
  match l with
  | [] => [x]
  | y :: r => if x <? y then x :: l else if x =? y then l else y :: uinsert x r
  end.
Definition np_unique (l : list nat) : list nat := fold_right uinsert [] l.

(* 179-186; [n] iterations left, level i *)
Fixpoint ub_loop (d n i : nat) (w : list Qc) (needs : list nat) : list Qc * res unit :=
  match n with
  | O => (w, Ok tt)
  | S m =>
      let offset := wt_off d i in
      let prev := wt_off d (i - 1) in
      let needs := np_unique (map (fun j => j / 2) needs) in
      match bind (index_all w (map (fun j => prev + j * 2) needs)) (fun ls =>
            bind (index_all w (map (fun j => prev + j * 2 + 1) needs)) (fun rs =>
            wassign w (map (fun j => offset + j) needs)
                    (map (fun p => fst p + snd p)%Qc (combine ls rs)))) with
      | Ok w1 => ub_loop d m (S i) w1 needs
      | Err e => (w, Err e)
      end
  end.

Definition qmax_list (x : Qc) (l : list Qc) : Qc := fold_left Qcmax l x.

(* 152-186 *)
Definition wt_update_batch (t : wtree) (weights : list Qc) (indexes : list Z) : wtree * res unit :=
  if negb (length weights =? length indexes) then (t, Err EValue) else
  match weights with
  | [] => (t, Ok tt)
  | x :: r =>
      if negb (forallb (in_range (wt_size t)) indexes) then (t, Err EValue) else
      let mx := Qcmax (wt_max t) (qmax_list x r) in
      let is := map Z.to_nat indexes in
      match wassign (wt_w t) is weights with
      | Err e => (MkWt (wt_size t) mx (wt_w t), Err e)
      | Ok w1 =>
          let (w2, r) := ub_loop (wt_d t) (wt_d t - 1) 1 w1 is in
          (MkWt (wt_size t) mx w2, r)
      end
  end.

(* reshape(-1, 2).sum(axis=1) *)
Fixpoint pair_sums (l : list Qc) : list Qc :=
  match l with
  | a :: b :: r => (a + b)%Qc :: pair_sums r
  | _ => []
  end.

(* w[a : a + len(xs)] = xs *)
Definition splice (a : nat) (xs w : list Qc) : list Qc :=
  firstn a w ++ xs ++ skipn (a + length xs) w.

(* 221-231; [n] iterations left, level i *)
Fixpoint build_loop (d n i : nat) (w : list Qc) : list Qc :=
  match n with
  | O => w
  | S m =>
      let offset := wt_off d i in
      let level_size := nth i (wt_sizes d) 0 in
      let ws := pair_sums (firstn level_size (skipn offset w)) in
      build_loop d m (S i) (splice (offset + level_size) ws w)
  end.

(* 188-199 and 216-231; np.max of an empty array raises ValueError *)
Definition wt_update_all (t : wtree) (weights : list Qc) : wtree * res unit :=
  if negb (length weights =? wt_size t) then (t, Err EValue) else
  let w1 := splice 0 weights (wt_w t) in
  match firstn (wt_size t) w1 with
  | [] => (MkWt (wt_size t) (wt_max t) w1, Err EValue)
  | x :: r => (MkWt (wt_size t) (qmax_list x r) (build_loop (wt_d t) (wt_d t - 1) 0 w1), Ok tt)
  end.

(* Operations of a user of the tree *)
Inductive wop := WLeaf (w : Qc) (i : Z) | WBatch (ws : list Qc) (is : list Z) | WAll (ws : list Qc).
Definition wt_step (t : wtree) (o : wop) : wtree * res unit :=
  match o with
  | WLeaf w i => wt_update_leaf t w i
  | WBatch ws is => wt_update_batch t ws is
  | WAll ws => wt_update_all t ws
  end.
Definition wt_run (t : wtree) (os : list wop) : wtree :=
  fold_left (fun t o => fst (wt_step t o)) os t.
