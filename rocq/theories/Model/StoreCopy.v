(* Model of what a stored transition shares with its caller: TransitionBase.to and _detach
   (machin/frame/transition.py 130-169) and the copy made by TransitionStorageBasic.store_episode
   (machin/frame/buffers/storage.py 98-99).
   Tensors are objects which refer to a cell of memory; detach() gives a new object with the same cell. Attributes are
   dictionaries of tensors, tensors, or plain values; other mutable objects as custom attributes are not modelled, and a
   dictionary is only changed as a whole. [t_leaf] is is_leaf: deepcopy refuses a tensor which is the result of a
   differentiable operation. *)
From Verif Require Export Lib.Base Lib.Str Model.Buffer.
Open Scope list_scope.
Open Scope nat_scope.
Set Implicit Arguments.

Section StoreCopy.
  Context {X : Type}.
  Record ten := MkTen { t_cell : nat; t_leaf : bool; t_dev : nat }.
  Inductive slot := SDict (a : nat) | STen (a : nat) | SVal (x : X).
  Definition slots := list (string * slot).
  Record tran := MkTran { a_maj : slots; a_sub : slots; a_cus : slots }.
  Record heap := MkH { cells : list X; tens : list ten; dicts : list (list (string * nat)); trs : list tran }.
  (* the memo of deepcopy: old and new addresses *)
  Record memo := MkM { m_cell : list (nat * nat); m_ten : list (nat * nat); m_dict : list (nat * nat) }.
  Definition new_cell (h : heap) (x : X) : heap := MkH (cells h ++ [x]) (tens h) (dicts h) (trs h).
  Definition new_ten (h : heap) (t : ten) : heap := MkH (cells h) (tens h ++ [t]) (dicts h) (trs h).
  Definition new_dict (h : heap) (d : list (string * nat)) : heap := MkH (cells h) (tens h) (dicts h ++ [d]) (trs h).
  Definition new_tran (h : heap) (t : tran) : heap := MkH (cells h) (tens h) (dicts h) (trs h ++ [t]).
  Definition set_dict (h : heap) (a : nat) (d : list (string * nat)) : heap := MkH (cells h) (tens h) (upd a d (dicts h)) (trs h).

  (* ---- deepcopy; an address outside the heap cannot occur in a program ---- *)
  Definition cp_cell (c : nat) (s : heap * memo) : res (nat * (heap * memo)) :=
    let '(h, m) := s in
    match dget c (m_cell m) with
    | Some c' => Ok (c', s)
    | None => match nth_error (cells h) c with
              | None => Err EOther
              | Some x => let c' := length (cells h) in Ok (c', (new_cell h x, MkM (dset c c' (m_cell m)) (m_ten m) (m_dict m)))
              end
    end.
  Definition cp_ten (a : nat) (s : heap * memo) : res (nat * (heap * memo)) :=
    match dget a (m_ten (snd s)) with
    | Some a' => Ok (a', s)
    | None => match nth_error (tens (fst s)) a with
              | None => Err EOther
              | Some t =>
                  if negb (t_leaf t) then Err ERuntime else
                  bind (cp_cell (t_cell t) s) (fun r =>
                    let '(c', (h, m)) := r in let a' := length (tens h) in
                    Ok (a', (new_ten h (MkTen c' true (t_dev t)), MkM (m_cell m) (dset a a' (m_ten m)) (m_dict m))))
              end
    end.
  Fixpoint cp_entries (d : list (string * nat)) (s : heap * memo) : res (list (string * nat) * (heap * memo)) :=
    match d with
    | [] => Ok ([], s)
    | (k, a) :: r => bind (cp_ten a s) (fun q => bind (cp_entries r (snd q)) (fun q' => Ok ((k, fst q) :: fst q', snd q')))
    end.
  Definition cp_dict (a : nat) (s : heap * memo) : res (nat * (heap * memo)) :=
    match dget a (m_dict (snd s)) with
    | Some a' => Ok (a', s)
    | None => match nth_error (dicts (fst s)) a with
              | None => Err EOther
              | Some d => bind (cp_entries d s) (fun r =>
                  let '(d', (h, m)) := r in let a' := length (dicts h) in
                  Ok (a', (new_dict h d', MkM (m_cell m) (m_ten m) (dset a a' (m_dict m)))))
              end
    end.
  Definition cp_slot (v : slot) (s : heap * memo) : res (slot * (heap * memo)) :=
    match v with
    | SVal x => Ok (SVal x, s)
    | STen a => bind (cp_ten a s) (fun r => Ok (STen (fst r), snd r))
    | SDict a => bind (cp_dict a s) (fun r => Ok (SDict (fst r), snd r))
    end.
  Fixpoint cp_slots (l : slots) (s : heap * memo) : res (slots * (heap * memo)) :=
    match l with
    | [] => Ok ([], s)
    | (k, v) :: r => bind (cp_slot v s) (fun q => bind (cp_slots r (snd q)) (fun q' => Ok ((k, fst q) :: fst q', snd q')))
    end.
  Definition deepcopy (h : heap) (t : tran) : res (tran * heap) :=
    bind (cp_slots (a_maj t) (h, MkM [] [] [])) (fun q1 =>
    bind (cp_slots (a_sub t) (snd q1)) (fun q2 =>
    bind (cp_slots (a_cus t) (snd q2)) (fun q3 =>
    Ok (MkTran (fst q1) (fst q2) (fst q3), fst (snd q3))))).

  (* ---- to(device), 141-149 ---- *)
  Definition move (dev : nat) (a : nat) (h : heap) : res (nat * heap) :=
    match nth_error (tens h) a with
    | None => Err EOther
    | Some t => if t_dev t =? dev then Ok (a, h)                      (* the tensor itself *)
                else match nth_error (cells h) (t_cell t) with
                     | None => Err EOther
                     | Some x => Ok (length (tens h), new_ten (new_cell h x) (MkTen (length (cells h)) (t_leaf t) dev))
                     end
    end.
  Fixpoint move_entries (dev : nat) (d : list (string * nat)) (h : heap) : res (list (string * nat) * heap) :=
    match d with
    | [] => Ok ([], h)
    | (k, a) :: r => bind (move dev a h) (fun q => bind (move_entries dev r (snd q)) (fun q' => Ok ((k, fst q) :: fst q', snd q')))
    end.
  Fixpoint to_major (dev : nat) (l : slots) (h : heap) : res heap :=
    match l with
    | [] => Ok h
    | (_, SDict a) :: r =>
        match nth_error (dicts h) a with
        | None => Err EOther
        | Some d => bind (move_entries dev d h) (fun q => to_major dev r (set_dict (snd q) a (fst q)))
        end
    | _ => Err EAttr                                                  (* no .items() *)
    end.
  Fixpoint to_sub (dev : nat) (l : slots) (h : heap) : res (slots * heap) :=
    match l with
    | [] => Ok ([], h)
    | (k, STen a) :: r => bind (move dev a h) (fun q => bind (to_sub dev r (snd q)) (fun q' => Ok ((k, STen (fst q)) :: fst q', snd q')))
    | kv :: r => bind (to_sub dev r h) (fun q' => Ok (kv :: fst q', snd q'))
    end.
  Definition to_device (dev : nat) (t : tran) (h : heap) : res (tran * heap) :=
    bind (to_major dev (a_maj t) h) (fun h1 =>
    bind (to_sub dev (a_sub t) h1) (fun q => Ok (MkTran (a_maj t) (fst q) (a_cus t), snd q))).
  (* storage.py 99: transition = deepcopy(transition).to(self.device); the new address *)
  Definition store_copy (dev : nat) (a : nat) (h : heap) : res (nat * heap) :=
    match nth_error (trs h) a with
    | None => Err EOther
    | Some t => bind (deepcopy h t) (fun q => bind (to_device dev (fst q) (snd q)) (fun q' =>
                  Ok (length (trs h), new_tran (snd q') (fst q'))))
    end.

  (* ---- _detach, 151-169: the tensors are replaced in the dictionaries that were passed in ---- *)
  Fixpoint detach_entries (d : list (string * nat)) (h : heap) : res (list (string * nat) * heap) :=
    match d with
    | [] => Ok ([], h)
    | (k, a) :: r =>
        match nth_error (tens h) a with
        | None => Err EOther
        | Some t => bind (detach_entries r (new_ten h (MkTen (t_cell t) true (t_dev t)))) (fun q =>
                      Ok ((k, length (tens h)) :: fst q, snd q))
        end
    end.
  Fixpoint detach_major (l : slots) (h : heap) : res heap :=
    match l with
    | [] => Ok h
    | (_, SDict a) :: r =>
        match nth_error (dicts h) a with
        | None => Err EOther
        | Some d => bind (detach_entries d h) (fun q => detach_major r (set_dict (snd q) a (fst q)))
        end
    | _ => Err EAttr
    end.
  Fixpoint detach_sub (l : slots) (h : heap) : res (slots * heap) :=
    match l with
    | [] => Ok ([], h)
    | (k, STen a) :: r =>
        match nth_error (tens h) a with
        | None => Err EOther
        | Some t => bind (detach_sub r (new_ten h (MkTen (t_cell t) true (t_dev t)))) (fun q =>
                      Ok ((k, STen (length (tens h))) :: fst q, snd q))
        end
    | kv :: r => bind (detach_sub r h) (fun q => Ok (kv :: fst q, snd q))
    end.
  (* a new transition object, 45-62 (its checks are in Model/Transition.v) *)
  Definition construct (maj sub cus : slots) (h : heap) : res (nat * heap) :=
    bind (detach_major maj h) (fun h1 => bind (detach_sub sub h1) (fun q =>
      Ok (length (trs h), new_tran (snd q) (MkTran maj (fst q) cus)))).

  (* ---- what the caller does afterwards with objects of their own ---- *)
  Inductive uop :=
  | UCell (c : nat) (x : X)                            (* in-place operation on a tensor *)
  | UDict (a : nat) (d : list (string * nat))          (* the dictionary is changed *)
  | UTran (a : nat) (t : tran)                         (* an attribute of the transition is set *)
  | UNewCell (x : X) | UNewTen (t : ten) | UNewDict (d : list (string * nat)) | UNewTran (t : tran).
  Definition ustep (h : heap) (o : uop) : heap :=
    match o with
    | UCell c x => MkH (upd c x (cells h)) (tens h) (dicts h) (trs h)
    | UDict a d => set_dict h a d
    | UTran a t => MkH (cells h) (tens h) (dicts h) (upd a t (trs h))
    | UNewCell x => new_cell h x | UNewTen t => new_ten h t | UNewDict d => new_dict h d | UNewTran t => new_tran h t
    end.
End StoreCopy.
Arguments heap : clear implicits.
Arguments slot : clear implicits.
Arguments slots : clear implicits.
Arguments tran : clear implicits.
Arguments uop : clear implicits.

(* ---- Buffer.store_episode (buffer.py 46-109, storage.py 97-114) when the copy of a transition may fail ---- *)
Section StoreFail.
  Context {T : Type}.
  Variables (ok : T -> bool) (copy : T -> option T).
  Fixpoint st_store_copy (s : storage T) (ep : list T) : storage T * res (list nat) :=
    match ep with
    | [] => (s, Ok [])
    | tr :: r =>
        match copy tr with
        | None => (s, Err ERuntime)                                   (* 99 *)
        | Some tr' =>
            match st_store1 s tr' with
            | (s1, Err e) => (s1, Err e)
            | (s1, Ok p) =>
                match st_store_copy s1 r with
                | (s2, Err e) => (s2, Err e)
                | (s2, Ok ps) => (s2, Ok (p :: ps))
                end
            end
        end
    end.
  Definition b_store_copy (b : buffer T) (ep : list T) : buffer T * res unit :=
    match ep with
    | [] => (b, Err EValue)
    | _ =>
      let n := b_cnt b in
      if negb (forallb ok ep) then (MkBuf (b_st b) (b_ten b) (b_eth b) (S n), Err EValue)
      else
        match st_store_copy (b_st b) ep with
        | (s1, Err e) => (MkBuf s1 (b_ten b) (b_eth b) (S n), Err e)
        | (s1, Ok hs) =>
            if has_dup hs then (MkBuf s1 (b_ten b) (b_eth b) (S n), Err EValue) else
            match claim n hs (b_ten b) (b_eth b) with
            | Err e => (MkBuf s1 (b_ten b) (b_eth b) (S n), Err e)
            | Ok (ten1, eth1) => (MkBuf s1 ten1 (dset n hs eth1) (S n), Ok tt)
            end
        end
    end.
End StoreFail.
