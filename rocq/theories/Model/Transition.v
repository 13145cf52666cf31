(* Model of machin/frame/transition.py (TransitionBase, Transition) and of
   machin/frame/buffers/buffer.py: Buffer.post_process_batch, make_tensor_from_batch.
   A tensor is the list of its rows along dimension 0; rows are opaque (type X), so
   shape compatibility of rows, devices and dtypes are not modelled. *)
From Verif Require Import Lib.Base.
From Verif Require Export Lib.Str.
Open Scope list_scope.
Set Implicit Arguments.

Section Transition.
  Context {X : Type}.

  Inductive val :=
  | VT (rows : list X)      (* tensor with dim() >= 1 *)
  | VT0 (x : X)             (* tensor with dim() = 0 *)
  | VS (x : X)              (* python scalar *)
  | VO (x : X).             (* any other object, not convertible to a tensor *)

  (* value of an attribute: a dictionary (major attributes) or a single value *)
  Inductive aval := AD (d : list (string * val)) | AV (v : val).

  (* transition.py:45-58 *)
  Record trans := MkTr {
    tr_maj : list string; tr_sub : list string; tr_cus : list string;
    tr_data : list (string * aval) }.
  Definition tr_keys (t : trans) : list string := tr_maj t ++ tr_sub t ++ tr_cus t.

  (* 65-66 __getitem__ = getattr *)
  Definition tr_get (t : trans) (k : string) : res aval :=
    match dget k (tr_data t) with Some v => Ok v | None => Err EAttr end.
  Definition tr_put (t : trans) (k : string) (v : aval) : trans :=
    MkTr (tr_maj t) (tr_sub t) (tr_cus t) (dset k v (tr_data t)).

  Definition mem (k : string) (l : list string) : bool := existsb (String.eqb k) l.

  (* 191-203, inner loop over one major attribute *)
  Fixpoint chk_dict (d : list (string * val)) (bs : option nat) : res (option nat) :=
    match d with
    | [] => Ok bs
    | (_, VT rows) :: r =>
        match bs with
        | None => chk_dict r (Some (length rows))
        | Some b => if b =? length rows then chk_dict r bs else Err EValue
        end
    | _ => Err EValue
    end.
  (* 189-203; a value without .items() raises AttributeError *)
  Fixpoint chk_major (t : trans) (ks : list string) (bs : option nat) : res (option nat) :=
    match ks with
    | [] => Ok bs
    | k :: r => bind (tr_get t k) (fun v =>
        match v with
        | AD d => bind (chk_dict d bs) (chk_major t r)
        | AV _ => Err EAttr
        end)
    end.
  (* 204-228 *)
  Fixpoint chk_sub (t : trans) (ks : list string) (bs : option nat) : res unit :=
    match ks with
    | [] => Ok tt
    | k :: r => bind (tr_get t k) (fun v =>
        match v with
        | AV (VS _) => match bs with Some 1 => chk_sub t r bs | _ => Err EValue end
        | AV (VT rows) =>
            match bs with
            | Some b => if b =? length rows then chk_sub t r bs else Err EValue
            | None => Err EValue
            end
        | _ => Err EValue
        end)
    end.
  (* 180-229 *)
  Definition chk_base (t : trans) : res (option nat) :=
    bind (chk_major t (tr_maj t) None) (fun bs =>
    bind (chk_sub t (tr_sub t) bs) (fun _ => Ok bs)).
  (* 286-293 *)
  Definition chk (t : trans) : res unit :=
    bind (chk_base t) (fun bs => match bs with Some 1 => Ok tt | _ => Err EValue end).

  (* 68-74: the value is stored before it is checked *)
  Definition setitem (t : trans) (k : string) (v : aval) : trans * res unit :=
    if mem k (tr_keys t) then (tr_put t k v, chk (tr_put t k v)) else (t, Err ERuntime).

  (* 76-86 after construction: the value is never stored *)
  Definition setattr (t : trans) (k : string) (v : aval) : trans * res unit :=
    if mem k (tr_keys t) then (t, chk t) else (t, Err ERuntime).

  (* 253-284 + 45-62: constructor of the default Transition.  [kw] are the keyword
     arguments sorted by key; detaching does not change the modelled data. *)
  Definition tr_new (state action next_state : list (string * val)) (reward terminal : val)
             (kw : list (string * aval)) : res trans :=
    let t := MkTr ["state"; "action"; "next_state"]%string ["reward"; "terminal"]%string (dkeys kw)
      (fold_left (fun d p => dset (fst p) (snd p) d) kw
        [("state", AD state); ("action", AD action); ("next_state", AD next_state);
         ("reward", AV reward); ("terminal", AV terminal)]%string) in
    bind (chk t) (fun _ => Ok t).

  (* ---- buffer.py ---- *)
  (* a collected column: concatenated tensor or plain list *)
  Inductive col := CT (rows : list X) | CL (vs : list aval).
  Inductive out := OCol (c : col) | ODict (d : list (string * col)).

  (* [it.to(device) for it in batch] followed by t.cat(batch, dim=0), 399-402 *)
  Fixpoint cat_tensors (vs : list aval) : res (list X) :=
    match vs with
    | [] => Ok []
    | AV (VT rows) :: r => bind (cat_tensors r) (fun q => Ok (rows ++ q))
    | AV (VT0 _) :: _ => Err ERuntime
    | _ => Err EAttr
    end.
  (* t.tensor(batch).view(batch_size, -1), 403-407.  Simplification: any element that is
     not a scalar makes the batch "not concatenable". *)
  Fixpoint cat_scalars (vs : list aval) : res (list X) :=
    match vs with
    | [] => Ok []
    | AV (VS x) :: r => bind (cat_scalars r) (fun q => Ok (x :: q))
    | _ => Err EValue
    end.
  (* 380-410 *)
  Definition make_tensor (vs : list aval) (concatenate : bool) : res col :=
    match concatenate, vs with
    | true, AV (VT _) :: _ => bind (cat_tensors vs) (fun q => Ok (CT q))
    | true, AV (VT0 _) :: _ => bind (cat_tensors vs) (fun q => Ok (CT q))
    | true, _ :: _ => bind (cat_scalars vs) (fun q => Ok (CT q))
    | _, _ => Ok (CL vs)
    end.

  Fixpoint mapM {A B} (f : A -> res B) (l : list A) : res (list B) :=
    match l with
    | [] => Ok []
    | a :: r => bind (f a) (fun b => bind (mapM f r) (fun q => Ok (b :: q)))
    end.

  (* item[attr][sub_k].to(device), 295 *)
  Definition get_sub (attr sk : string) (t : trans) : res aval :=
    bind (tr_get t attr) (fun v =>
      match v with
      | AV _ => Err EType
      | AD d => match dget sk d with
                | None => Err EKey
                | Some (VT r) => Ok (AV (VT r))
                | Some (VT0 x) => Ok (AV (VT0 x))
                | Some _ => Err EAttr
                end
      end).
  (* [item[attr] for item in batch] *)
  Definition get_col (attr : string) (batch : list trans) : res (list aval) :=
    mapM (fun t => tr_get t attr) batch.

  (* 285-300 *)
  Definition major_out (first : trans) (batch : list trans) (concatenate : bool) (attr : string) : res out :=
    bind (tr_get first attr) (fun v =>
      match v with
      | AV _ => Err EAttr
      | AD d => bind (mapM (fun sk => bind (mapM (get_sub attr sk) batch) (fun vs =>
                             bind (make_tensor vs concatenate) (fun c => Ok (sk, c)))) (dkeys d))
                     (fun q => Ok (ODict q))
      end).
  (* 331-348: loop over the custom attributes not used yet (order of a python set, modelled
     as the order of the attribute list; the result is a dictionary) *)
  Fixpoint star_out (batch : list trans) (concatenate : bool) (addi : list string)
           (cus used : list string) : res (list (string * col) * list string) :=
    match cus with
    | [] => Ok ([], used)
    | k :: r =>
        if mem k used then star_out batch concatenate addi r used
        else bind (get_col k batch) (fun vs =>
             bind (make_tensor vs (concatenate && mem k addi)) (fun c =>
             bind (star_out batch concatenate addi r (used ++ [k])) (fun p =>
             Ok ((k, c) :: fst p, snd p))))
    end.

  (* 284-349, the loop over sample_attrs; result.append order *)
  Fixpoint pp_loop (first : trans) (batch : list trans) (concatenate : bool) (addi : list string)
           (attrs used : list string) : res (list out) :=
    match attrs with
    | [] => Ok []
    | a :: r =>
        if mem a (tr_maj first) then
          bind (major_out first batch concatenate a) (fun o =>
          bind (pp_loop first batch concatenate addi r (used ++ [a])) (fun q => Ok (o :: q)))
        else if mem a (tr_sub first) then
          bind (get_col a batch) (fun vs => bind (make_tensor vs concatenate) (fun c =>
          bind (pp_loop first batch concatenate addi r (used ++ [a])) (fun q => Ok (OCol c :: q))))
        else if mem a (tr_cus first) then
          bind (get_col a batch) (fun vs => bind (make_tensor vs (concatenate && mem a addi)) (fun c =>
          bind (pp_loop first batch concatenate addi r (used ++ [a])) (fun q => Ok (OCol c :: q))))
        else if String.eqb a "*" then
          bind (star_out batch concatenate addi (tr_cus first) used) (fun p =>
          bind (pp_loop first batch concatenate addi r (snd p)) (fun q => Ok (ODict (fst p) :: q)))
        else pp_loop first batch concatenate addi r used
    end.

  (* 261-349 *)
  Definition post_process (batch : list trans) (concatenate : bool)
             (attrs : option (list string)) (addi : option (list string)) : res (option (list out)) :=
    match batch with
    | [] => Ok None
    | first :: _ =>
        let attrs := match attrs with Some a => a | None => tr_keys first end in
        let addi := match addi with Some a => a | None => [] end in
        bind (pp_loop first batch concatenate addi attrs []) (fun q => Ok (Some q))
    end.
End Transition.
Arguments val : clear implicits.
Arguments aval : clear implicits.
Arguments trans : clear implicits.
Arguments col : clear implicits.
Arguments out : clear implicits.
