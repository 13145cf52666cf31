(* Model of what a sampled batch shares with the storage: Buffer.post_process_batch and make_tensor_from_batch
   (machin/frame/buffers/buffer.py 261-413) on the heap of Model/StoreCopy.v.
   Contents of memory are opaque; torch.cat and torch.tensor are functions of the contents which may fail. The pre- and
   postprocessing hooks are the identity. The custom attributes collected by "*" are taken in their order in the first
   transition. The result is a list of values with the name of their attribute; the program returns the values only. *)
From Verif Require Export Lib.Base Lib.Str Model.StoreCopy.
Open Scope list_scope.
Open Scope nat_scope.
Set Implicit Arguments.

Section SampleAlias.
  Context {X : Type}.
  Variables (cat mk : list X -> option X).
  Variables (dev : nat) (conc : bool) (extra : list string).
  Inductive rv := RTen (a : nat) | RList (l : list (slot X)).
  Inductive ro := RDict (d : list (string * rv)) | RVal (v : rv).
  Definition mem (k : string) (l : list string) : bool := existsb (String.eqb k) l.

  (* item[attr]: getattr *)
  Definition attr_of (t : tran X) (k : string) : res (slot X) :=
    match dget k (a_maj t ++ a_sub t ++ a_cus t) with Some v => Ok v | None => Err EAttr end.
  Fixpoint move_all (l : list nat) (h : heap X) : res (list nat * heap X) :=
    match l with
    | [] => Ok ([], h)
    | a :: r => bind (move dev a h) (fun q => bind (move_all r (snd q)) (fun q' => Ok (fst q :: fst q', snd q')))
    end.
  Fixpoint values (l : list nat) (h : heap X) : res (list X) :=
    match l with
    | [] => Ok []
    | a :: r => match nth_error (tens h) a with
                | None => Err EOther
                | Some t => match nth_error (cells h) (t_cell t) with
                            | None => Err EOther
                            | Some x => bind (values r h) (fun xs => Ok (x :: xs))
                            end
                end
    end.
  Fixpoint tens_of (l : list (slot X)) : res (list nat) :=
    match l with
    | [] => Ok []
    | STen a :: r => bind (tens_of r) (fun q => Ok (a :: q))
    | _ => Err EAttr                                                    (* no .to *)
    end.
  Fixpoint plain_of (l : list (slot X)) : res (list X) :=
    match l with
    | [] => Ok []
    | SVal x :: r => bind (plain_of r) (fun q => Ok (x :: q))
    | _ => Err EValue
    end.
  (* a tensor with contents of its own on the requested device *)
  Definition fresh_ten (x : X) (h : heap X) : rv * heap X :=
    (RTen (length (tens h)), new_ten (new_cell h x) (MkTen (length (cells h)) true dev)).
  (* 401-413 *)
  Definition make_tensor (c : bool) (l : list (slot X)) (h : heap X) : res (rv * heap X) :=
    match c, l with
    | true, STen _ :: _ =>
        bind (tens_of l) (fun a => bind (move_all a h) (fun q => bind (values (fst q) (snd q)) (fun xs =>
          match cat xs with Some x => Ok (fresh_ten x (snd q)) | None => Err ERuntime end)))
    | true, _ :: _ =>
        bind (plain_of l) (fun xs => match mk xs with Some x => Ok (fresh_ten x h) | None => Err EValue end)
    | _, _ => Ok (RList l, h)
    end.
  (* [item[attr][sub_k].to(device) for item in batch], 296 *)
  Fixpoint col_major (k sk : string) (batch : list (tran X)) (h : heap X) : res (list nat * heap X) :=
    match batch with
    | [] => Ok ([], h)
    | t :: r =>
        bind (attr_of t k) (fun v =>
        match v with
        | SDict a =>
            match nth_error (dicts h) a with
            | None => Err EOther
            | Some d => match dget sk d with
                        | None => Err EKey
                        | Some b => bind (move dev b h) (fun q => bind (col_major k sk r (snd q)) (fun q' => Ok (fst q :: fst q', snd q')))
                        end
            end
        | _ => Err EType
        end)
    end.
  (* 287-303: one entry for every key of the dictionary in the first transition *)
  Fixpoint do_major (k : string) (sks : list string) (batch : list (tran X)) (h : heap X) : res (list (string * rv) * heap X) :=
    match sks with
    | [] => Ok ([], h)
    | sk :: r => bind (col_major k sk batch h) (fun q => bind (make_tensor conc (map (@STen X) (fst q)) (snd q)) (fun q1 =>
                 bind (do_major k r batch (snd q1)) (fun q2 => Ok ((sk, fst q1) :: fst q2, snd q2))))
    end.
  Fixpoint col (k : string) (batch : list (tran X)) : res (list (slot X)) :=
    match batch with
    | [] => Ok []
    | t :: r => bind (attr_of t k) (fun v => bind (col k r) (fun q => Ok (v :: q)))
    end.
  (* 304-318, 319-333 *)
  Definition do_list (c : bool) (k : string) (batch : list (tran X)) (h : heap X) : res (rv * heap X) :=
    bind (col k batch) (fun l => make_tensor c l h).
  (* 334-351 *)
  Fixpoint do_star (names used : list string) (batch : list (tran X)) (h : heap X) : res (list (string * rv) * heap X) :=
    match names with
    | [] => Ok ([], h)
    | k :: r => if mem k used then do_star r used batch h
                else bind (do_list (conc && mem k extra) k batch h) (fun q =>
                     bind (do_star r used batch (snd q)) (fun q' => Ok ((k, fst q) :: fst q', snd q')))
    end.
  (* 285-353 *)
  Fixpoint pp (t0 : tran X) (attrs used : list string) (batch : list (tran X)) (h : heap X) : res (list (string * ro) * heap X) :=
    match attrs with
    | [] => Ok ([], h)
    | k :: r =>
        if mem k (dkeys (a_maj t0)) then
          bind (attr_of t0 k) (fun v =>
          match v with
          | SDict a => match nth_error (dicts h) a with
                       | None => Err EOther
                       | Some d => bind (do_major k (dkeys d) batch h) (fun q =>
                                   bind (pp t0 r (k :: used) batch (snd q)) (fun q' => Ok ((k, RDict (fst q)) :: fst q', snd q')))
                       end
          | _ => Err EAttr                                              (* no .keys() *)
          end)
        else if mem k (dkeys (a_sub t0)) then
          bind (do_list conc k batch h) (fun q =>
          bind (pp t0 r (k :: used) batch (snd q)) (fun q' => Ok ((k, RVal (fst q)) :: fst q', snd q')))
        else if mem k (dkeys (a_cus t0)) then
          bind (do_list (conc && mem k extra) k batch h) (fun q =>
          bind (pp t0 r (k :: used) batch (snd q)) (fun q' => Ok ((k, RVal (fst q)) :: fst q', snd q')))
        else if String.eqb k "*" then
          bind (do_star (dkeys (a_cus t0)) used batch h) (fun q =>
          bind (pp t0 r (dkeys (a_cus t0) ++ used) batch (snd q)) (fun q' => Ok ((k, RDict (fst q)) :: fst q', snd q')))
        else pp t0 r used batch h                                       (* ignored *)
    end.
  (* 272-284 *)
  Definition post_process (batch : list (tran X)) (attrs : option (list string)) (h : heap X)
    : res (option (list (string * ro)) * heap X) :=
    match batch with
    | [] => Ok (None, h)
    | t0 :: _ =>
        bind (pp t0 (match attrs with Some l => l | None => dkeys (a_maj t0) ++ dkeys (a_sub t0) ++ dkeys (a_cus t0) end) [] batch h)
             (fun q => Ok (Some (fst q), snd q))
    end.
End SampleAlias.
Arguments rv : clear implicits.
Arguments ro : clear implicits.
