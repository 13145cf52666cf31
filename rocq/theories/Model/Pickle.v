(* machin/parallel/pickle.py: Pickler 49-90, _rebuild_full and _reduce_full 36-46, dumps 93-119, loads 122: how tensors
   travel to another process. The base class keeps a memo of the objects already written; a tensor that is met for the
   first time is either saved completely with its storage (copy_tensor=True) or as a reference to its storage in shared
   memory (copy_tensor=False, reduce_tensor of torch.multiprocessing).

   Simplifications: an object that is sent is the list of the tensors met in it, in order (its other contents do not
   matter here); a tensor is a storage, an offset and a length (no strides). *)
From Verif Require Import Lib.Base.
Set Implicit Arguments.

Section P.
  Context {A : Type}.
  Record tobj := MkT { stor : nat; off : nat; len : nat }.
  Record mem := MkM { objs : list tobj; stors : list (list A) }.

  (* contents of tensor o *)
  Definition view (t : tobj) (d : list A) : list A := firstn (len t) (skipn (off t) d).
  Definition value (m : mem) (o : nat) : option (list A) :=
    match nth_error (objs m) o with
    | Some t => match nth_error (stors m) (stor t) with Some d => Some (view t d) | None => None end
    | None => None
    end.
  (* o[k] = x *)
  Definition write (m : mem) (o k : nat) (x : A) : mem :=
    match nth_error (objs m) o with
    | Some t => match nth_error (stors m) (stor t) with
                | Some d => if k <? len t then MkM (objs m) (upd (stor t) (upd (off t + k) x d) (stors m)) else m
                | None => m
                end
    | None => m
    end.

  (* one tensor that is not in the memo yet: the object created by the receiver *)
  Definition rebuild (copy : bool) (t : tobj) (d : list A) (dst : mem) : mem :=
    if copy then MkM (objs dst ++ [MkT (length (stors dst)) (off t) (len t)]) (stors dst ++ [d])       (* 36-46 *)
    else MkM (objs dst ++ [t]) (stors dst).                                                           (* 64-81 *)
  (* memo: tensors of the sender already written, with the tensors of the receiver *)
  Fixpoint travel (copy : bool) (src : mem) (memo : list (nat * nat)) (dst : mem) (refs : list nat)
    : res (list (nat * nat) * mem * list nat) :=
    match refs with
    | [] => Ok (memo, dst, [])
    | o :: r =>
        match dget o memo with
        | Some o' => bind (travel copy src memo dst r) (fun q => Ok (fst q, o' :: snd q))
        | None =>
            match nth_error (objs src) o with
            | None => Err EOther
            | Some t =>
                match nth_error (stors src) (stor t) with
                | None => Err EOther
                | Some d =>
                    let o' := length (objs dst) in
                    bind (travel copy src (dset o o' memo) (rebuild copy t d dst) r) (fun q => Ok (fst q, o' :: snd q))
                end
            end
        end
    end.
  (* loads(dumps(obj, copy_tensor=copy)); the receiver sees the shared memory, or nothing *)
  Definition transfer (copy : bool) (src : mem) (refs : list nat) : res (mem * list nat) :=
    bind (travel copy src [] (MkM [] (if copy then [] else stors src)) refs) (fun q => Ok (snd (fst q), snd q)).
End P.
Arguments mem : clear implicits.
