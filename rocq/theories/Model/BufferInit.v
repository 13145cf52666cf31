(* Model of the constructors of the replay buffers of machin/frame/buffers and of the part of
   Python they rely on: binding of arguments to parameters, rejection of a keyword that is
   given twice, the C3 method resolution order and cooperative super().__init__ calls.
   Calls of the base class object are not needed: Buffer.__init__ does not call super().
   Registration of the rpc services is not modelled, its precondition
   (assert group.is_member()) is. *)
From Coq Require Export String.
From Verif Require Export Lib.Base.
Close Scope string_scope.
Open Scope nat_scope.
Set Implicit Arguments.

(* the values that constructors handle *)
Inductive pyv :=
| VNone | VStr (s : string) | VInt (n : Z) | VDec (num den : nat) | VObj (id : nat)
| VStore (size device : pyv)          (* TransitionStorageBasic(size, device) *)
| VTree (size : pyv)                  (* WeightTree(size) *)
| VZeros (size : pyv).                (* np.zeros([size], dtype=np.uint64) *)

Notation dic := (list (string * pyv)).

(* expressions occurring as arguments and on the right of  self.x = ... *)
Inductive expr :=
| Par (p : string) | Lit (v : pyv)
| StoreOr (storage size device : string)   (* TransitionStorageBasic(size, device) if storage is None else storage *)
| TreeOf (size : string) | ZerosOf (size : string) | EmptyDict.

Record init := MkInit {
  i_params : list (string * option pyv);      (* parameters after self, with defaults; each __init__ also collects kwargs *)
  i_super  : option (list (string * expr));   (* super().__init__ with keywords k = e and the received kwargs *)
  i_sets   : list (string * expr);            (* self.x = e, after the super call *)
  i_member : bool }.                          (* assert group.is_member(), after that *)

(* --- Python: binding of positional and keyword arguments --- *)
Fixpoint positional (ps : list (string * option pyv)) (pos : list pyv) : res dic :=
  match pos, ps with
  | [], _ => Ok []
  | _ :: _, [] => Err EType
  | v :: pos', (p, _) :: ps' => bind (positional ps' pos') (fun r => Ok ((p, v) :: r))
  end.
(* a call with the keywords of a and of b: TypeError when a keyword occurs twice *)
Definition merge (a b : dic) : res dic :=
  if existsb (fun kv => dmem (fst kv) a) b then Err EType else Ok (a ++ b).
(* every parameter gets its argument or its default *)
Fixpoint bind_params (ps : list (string * option pyv)) (args : dic) : res dic :=
  match ps with
  | [] => Ok []
  | (p, d) :: r =>
      match dget p args, d with
      | Some v, _ | None, Some v => bind (bind_params r args) (fun e => Ok ((p, v) :: e))
      | None, None => Err EType
      end
  end.
(* what is left goes to kwargs *)
Definition leftover (ps : list (string * option pyv)) (args : dic) : dic :=
  filter (fun kv => negb (dmem (fst kv) ps)) args.

Definition par (env : dic) (p : string) : pyv := match dget p env with Some v => v | None => VNone end.
Definition eval (env : dic) (e : expr) : pyv :=
  match e with
  | Par p => par env p
  | Lit v => v
  | StoreOr st sz dv => match par env st with VNone => VStore (par env sz) (par env dv) | v => v end
  | TreeOf sz => VTree (par env sz)
  | ZerosOf sz => VZeros (par env sz)
  | EmptyDict => VObj 0
  end.
Definition set_all (env : dic) (l : list (string * expr)) (self : dic) : dic :=
  fold_left (fun s ke => dset (fst ke) (eval env (snd ke)) s) l self.

(* --- the classes --- *)
Inductive cls := Buffer | RNNBuffer | DistributedBuffer | PrioritizedBuffer | DistributedPrioritizedBuffer
| RNNDistributedBuffer | RNNPrioritizedBuffer | RNNDistributedPrioritizedBuffer.
#[global] Instance Eqb_cls : Eqb cls.
Proof.
  refine {| eqb := fun a b => match a, b with
    | Buffer, Buffer | RNNBuffer, RNNBuffer | DistributedBuffer, DistributedBuffer
    | PrioritizedBuffer, PrioritizedBuffer | DistributedPrioritizedBuffer, DistributedPrioritizedBuffer
    | RNNDistributedBuffer, RNNDistributedBuffer | RNNPrioritizedBuffer, RNNPrioritizedBuffer
    | RNNDistributedPrioritizedBuffer, RNNDistributedPrioritizedBuffer => true | _, _ => false end |}.
  intros [] []; constructor; congruence.
Defined.

(* the class statements *)
Definition bases (c : cls) : list cls :=
  match c with
  | Buffer => []                                                       (* buffer.py 12 *)
  | RNNBuffer => [Buffer]                                              (* rnn_buffers.py 19 *)
  | DistributedBuffer => [Buffer]                                      (* buffer_d.py 17 *)
  | PrioritizedBuffer => [Buffer]                                      (* prioritized_buffer.py 234 *)
  | DistributedPrioritizedBuffer => [PrioritizedBuffer]                (* prioritized_buffer_d.py 11 *)
  | RNNDistributedBuffer => [RNNBuffer; DistributedBuffer]             (* rnn_buffers.py 190 *)
  | RNNPrioritizedBuffer => [RNNBuffer; PrioritizedBuffer]             (* rnn_buffers.py 259 *)
  | RNNDistributedPrioritizedBuffer => [RNNBuffer; DistributedPrioritizedBuffer]   (* rnn_buffers.py 415 *)
  end.

(* Python's C3 linearisation (object left out) *)
Definition in_tail (c : cls) (l : list cls) : bool := existsb (eqb c) (tl l).
Fixpoint c3_head (cands all : list (list cls)) : option cls :=
  match cands with
  | [] => None
  | [] :: r => c3_head r all
  | (c :: _) :: r => if existsb (in_tail c) all then c3_head r all else Some c
  end.
Definition c3_drop (c : cls) (l : list cls) : list cls :=
  match l with x :: r => if eqb x c then r else l | [] => [] end.
Fixpoint c3_merge (fuel : nat) (ls : list (list cls)) : list cls :=
  match fuel with
  | O => []
  | S f => match c3_head ls ls with
           | None => []
           | Some c => c :: c3_merge f (map (c3_drop c) ls)
           end
  end.
Fixpoint mro_at (fuel : nat) (c : cls) : list cls :=
  match fuel with
  | O => []
  | S f => c :: c3_merge 8 (map (mro_at f) (bases c) ++ [bases c])
  end.
Definition mro (c : cls) : list cls := mro_at 8 c.

Open Scope string_scope.
Open Scope list_scope.
Definition cpu : pyv := VStr "cpu".
Definition p_size := ("buffer_size", Some (VInt 1000000%Z)).
Definition p_device := ("buffer_device", Some cpu).
Definition p_storage := ("storage", Some VNone).
Definition p_length : string * option pyv := ("sample_length", None).
Definition p_dim := ("sample_dimension", Some (VInt 1%Z)).
Definition p_name : string * option pyv := ("buffer_name", None).
Definition p_group : string * option pyv := ("group", None).
(* epsilon = 1e-2, alpha = 0.6, beta = 0.4, beta_increment_per_sampling = 0.001 *)
Definition p_prio := [("epsilon", Some (VDec 1 100)); ("alpha", Some (VDec 6 10)); ("beta", Some (VDec 4 10));
                      ("beta_increment_per_sampling", Some (VDec 1 1000))].
Definition same (p : string) : string * expr := (p, Par p).
Definition f_prio := [same "epsilon"; same "alpha"; same "beta"; same "beta_increment_per_sampling"].

Definition init_of (c : cls) : init :=
  match c with
  | Buffer =>          (* buffer.py 13-46 *)
      MkInit [p_size; p_device; p_storage] None
        [("storage", StoreOr "storage" "buffer_size" "buffer_device"); ("transition_episode_number", EmptyDict);
         ("episode_transition_handles", EmptyDict); ("episode_counter", Lit (VInt 0%Z))] false
  | RNNBuffer =>       (* rnn_buffers.py 20-78 *)
      MkInit [p_length; p_dim; p_size; p_device; p_storage]
        (Some [same "buffer_size"; same "buffer_device"; same "storage"])
        [same "sample_length"; same "sample_dimension"] false
  | DistributedBuffer =>      (* buffer_d.py 18-77 *)
      MkInit [p_name; p_group; p_size; p_storage]
        (Some [same "buffer_size"; ("buffer_device", Lit cpu); same "storage"])
        [same "buffer_name"; same "group"] true
  | PrioritizedBuffer =>      (* prioritized_buffer.py 235-277 *)
      MkInit ([p_size; p_device] ++ p_prio)
        (Some [same "buffer_size"; same "buffer_device"; ("storage", Lit VNone)])
        (f_prio ++ [("curr_beta", Par "beta"); ("wt_tree", TreeOf "buffer_size")]) false
  | DistributedPrioritizedBuffer =>      (* prioritized_buffer_d.py 12-108 *)
      MkInit ([p_name; p_group; p_size] ++ p_prio)
        (Some ([same "buffer_size"; ("buffer_device", Lit cpu)] ++ f_prio))
        [same "buffer_name"; ("buffer_version_table", ZerosOf "buffer_size"); same "group"] true
  | RNNDistributedBuffer =>   (* rnn_buffers.py 191-256 *)
      MkInit [p_name; p_group; p_length; p_dim; p_size; p_device; p_storage]
        (Some [same "buffer_name"; same "group"; same "sample_length"; same "sample_dimension";
               same "buffer_size"; same "buffer_device"; same "storage"]) [] false
  | RNNPrioritizedBuffer =>   (* rnn_buffers.py 260-338 *)
      MkInit ([p_length; p_dim; p_size; p_device] ++ p_prio)
        (Some ([same "sample_length"; same "sample_dimension"; same "buffer_size"; same "buffer_device"] ++ f_prio)) [] false
  | RNNDistributedPrioritizedBuffer =>   (* rnn_buffers.py 416-500 *)
      MkInit ([p_name; p_group; p_length; p_dim; p_size; p_device] ++ p_prio)
        (Some ([same "buffer_name"; same "group"; same "sample_length"; same "sample_dimension"; same "buffer_size";
                same "buffer_device"] ++ f_prio)) [] false
  end.
Close Scope string_scope.

(* the __init__ methods of the classes of a resolution order, entered with keywords [args];
   the result is the attribute dictionary of the object *)
Fixpoint run_init (member : bool) (order : list cls) (args : dic) : res dic :=
  match order with
  | [] => if args then Ok [] else Err EType          (* object.__init__ takes no arguments *)
  | c :: rest =>
      let i := init_of c in
      bind (bind_params (i_params i) args) (fun env =>
      let kw := leftover (i_params i) args in
      bind (match i_super i with
            | None => Ok []
            | Some fwd => bind (merge (map (fun ke => (fst ke, eval env (snd ke))) fwd) kw) (run_init member rest)
            end) (fun self =>
      let self1 := set_all env (i_sets i) self in
      if i_member i && negb member then Err EAssert else Ok self1))
  end.

(* c called with positional arguments pos and keywords kw *)
Definition construct (member : bool) (c : cls) (pos : list pyv) (kw : dic) : res dic :=
  bind (positional (i_params (init_of c)) pos) (fun p =>
  bind (merge p kw) (run_init member (mro c))).
