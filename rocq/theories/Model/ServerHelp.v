(* machin/frame/helpers/servers.py grad_server_helper 8-109 and model_server_helper 112-155,
   machin/frame/algorithms/a3c.py init_from_config 207-248, the primary branch of
   machin/parallel/server/param_server.py _task_reduce_grad 427-450.

   Simplifications: models, learning rates and keyword arguments are values of arbitrary types; a model creator is
   given by the model it returns; group creation and barriers (C28-C30) and the reduction itself (C23) are left out;
   the paired values of the new group are a dictionary that rejects a second value for a key (C28). *)
From Coq Require Import Ascii.
From Verif Require Import Lib.Base Model.LoadSave.
Set Implicit Arguments.

Section Grad.
  Context {M L KW SA SK : Type}.     (* models, learning rates, optimizer kwargs, scheduler args and kwargs *)
  Record optim := MkOptim { o_cls : nat; o_model : M; o_lr : L; o_kw : KW }.
  Record sched := MkSched { s_cls : nat; s_optim : optim; s_args : SA; s_kwargs : SK }.
  (* the local variable optimizer: the class that was passed, or whatever line 93 bound to it *)
  Inductive ovar := OClass (c : nat) | OInst (o : optim).
  (* optimizer(model.parameters(), lr=lr, **optim_kwargs): an optimizer object is not callable *)
  Definition call_optim (v : ovar) (m : M) (lr : L) (kw : KW) : res optim :=
    match v with OClass c => Ok (MkOptim c m lr kw) | OInst _ => Err EType end.

  (* what manage_model and start leave in a PushPullGradServerImpl (param_server.py 353-395) *)
  Record server := MkServer { managed : option (M * optim * option sched); started : bool }.
  Definition fresh := MkServer None false.

  (* 56-57: a float, a list, or an int (which is neither) *)
  Inductive rates := Rate (x : L) | Rates (l : list L) | RInt (n : nat).
  (* 59-61: "given or [default] * n" *)
  Definition or_default {A} (given : option (list A)) (d : A) (n : nat) : list A :=
    match given with Some (x :: r) => x :: r | _ => repeat d n end.

  (* one round of the loop 72-99 for each tuple of the zip; stops at the shortest list *)
  Fixpoint setup (sc : option nat) (v : ovar) (ms : list M) (svs : list server)
                 (kws : list KW) (lrs : list L) (sas : list SA) (sks : list SK) : list server * res unit :=
    match ms, svs, kws, lrs, sas, sks with
    | m :: ms, sv :: rest, kw :: kws, lr :: lrs, sa :: sas, sk :: sks =>
        match call_optim v m lr kw with
        | Err e => (sv :: rest, Err e)
        | Ok o =>
            let (s, v') := match sc with
                           | None => (None, v)                                     (* 88-91 *)
                           | Some c => (Some (MkSched c o sa sk), OInst o)         (* 92-98 *)
                           end in
            let (rest', r) := setup sc v' ms rest kws lrs sas sks in
            (MkServer (Some (m, o, s)) true :: rest', r)                           (* 99 *)
        end
    | _, svs, _, _, _, _ => (svs, Ok tt)
    end.

  Variables (kw0 : KW) (sa0 : SA) (sk0 : SK).      (* {}, (), {} *)
  (* 51-99: the servers of this process; primary: get_cur_name() == members[0] *)
  Definition grad_server_helper (primary : bool) (creators : list M) (optimizer : nat) (lr : rates)
      (okw : option (list KW)) (sc : option nat) (sargs : option (list SA)) (skw : option (list SK)) : list server * res unit :=
    let n := length creators in
    let servers := repeat fresh n in
    if primary then
      match (match lr with Rate x => Ok (repeat x n) | Rates l => Ok l | RInt _ => Err EType end) with
      | Err e => (servers, Err e)                                                  (* zip(..., 1, ...) *)
      | Ok lrs => setup sc (OClass optimizer) creators servers (or_default okw kw0 n) lrs
                        (or_default sargs sa0 n) (or_default skw sk0 n)
      end
    else (servers, Ok tt).
End Grad.
Arguments rates : clear implicits.
Arguments server : clear implicits.
Arguments optim : clear implicits.
Arguments sched : clear implicits.

(* ---- names and accessors ---- *)
Definition grad_prefix : name := ["g";"r";"a";"d";"_";"s";"e";"r";"v";"e";"r";"_"]%char.
Definition model_prefix : name := ["m";"o";"d";"e";"l";"_";"s";"e";"r";"v";"e";"r";"_"]%char.
Definition o_suffix : name := ["_";"o";"_";"s";"e";"r";"v";"e";"r"]%char.
(* paired values: an ordered server, or an accessor that was given one *)
Inductive paired := POrdered (i : nat) | PAccessor (o : nat).
(* RpcGroup.pair: a key can be paired only once *)
Definition pair_val (k : name) (v : paired) (g : list (name * paired)) : res (list (name * paired)) :=
  if dmem k g then Err EKey else Ok (g ++ [(k, v)]).
Definition get_paired (k : name) (g : list (name * paired)) : res paired :=
  match dget k g with Some v => Ok v | None => Err EKey end.
Fixpoint for_each {A S} (f : A -> S -> res S) (l : list A) (s : S) : res S :=
  match l with [] => Ok s | x :: r => bind (f x s) (for_each f r) end.
Fixpoint collect {A B} (f : A -> res B) (l : list A) : res (list B) :=
  match l with [] => Ok [] | x :: r => bind (f x) (fun y => bind (collect f r) (fun ys => Ok (y :: ys))) end.

(* PushPullModelServerImpl.__init__, param_server.py 125-140: ordered server number i, then the accessor *)
Definition start_model_server (i : nat) (g : list (name * paired)) : res (list (name * paired)) :=
  let nm := model_prefix ++ show i in
  bind (pair_val (nm ++ o_suffix) (POrdered i) g) (fun g =>
  bind (get_paired (nm ++ o_suffix) g) (fun o =>
  match o with POrdered j => pair_val nm (PAccessor j) g | PAccessor _ => Err EOther end)).
(* 140-151: the loop runs in the first member only; the look-up in every process *)
Definition model_server_helper (n : nat) (g : list (name * paired)) : res (list paired) :=
  bind (for_each start_model_server (seq 0 n) g) (fun g =>
  collect (fun i => get_paired (model_prefix ++ show i) g) (seq 0 n)).
(* PushPullGradServerImpl.__init__, param_server.py 283-332, in the primary reducer: the accessor of server i uses the
   ordered server "<name>_o_server" *)
Definition start_grad_server (i : nat) (g : list (name * paired)) : res (list (name * paired)) :=
  let nm := grad_prefix ++ show i in
  bind (pair_val (nm ++ o_suffix) (POrdered i) g) (fun g => pair_val nm (PAccessor i) g).
(* 65-70 and 102-105 *)
Definition grad_server_accessors (n : nat) (g : list (name * paired)) : res (list paired) :=
  bind (for_each start_grad_server (seq 0 n) g) (fun g =>
  collect (fun i => get_paired (grad_prefix ++ show i) g) (seq 0 n)).

(* ---- A3C.init_from_config 207-248 ---- *)
Section A3c.
  Context {C A K M L SA SK : Type} (build : C -> A -> K -> M).
  Fixpoint zip3 (a : list C) (b : list A) (c : list K) : list (C * A * K) :=
    match a, b, c with x :: a, y :: b, z :: c => (x, y, z) :: zip3 a b c | _, _, _ => [] end.
  Definition build3 (x : C * A * K) : M := let '(m, a, k) := x in build m a k.
  (* 217-220 *)
  Definition a3c_models (cls : list C) (args : list A) (kws : list K) : list M := map build3 (zip3 cls args kws).
  (* 221-224: the lambdas are called after the comprehension has finished, when m, arg and kwarg are those of its
     last round *)
  Definition a3c_creators (cls : list C) (args : list A) (kws : list K) : list M :=
    let rounds := zip3 cls args kws in
    match rev rounds with
    | [] => []
    | final :: _ => map (fun _ => build3 final) rounds
    end.
  (* 233-245, in the primary reducer *)
  Definition a3c_servers (sa0 : SA) (sk0 : SK) (cls : list C) (args : list A) (kws : list K) (optimizer : nat)
      (actor_lr critic_lr : L) (sc : option nat) (sargs : list SA) (skw : list SK) : list (server M L unit SA SK) * res unit :=
    grad_server_helper tt sa0 sk0 true (a3c_creators cls args kws) optimizer (Rates [actor_lr; critic_lr]) None
      sc (Some sargs) (Some skw).
End A3c.

(* ---- the primary branch of _task_reduce_grad, param_server.py 427-450 ---- *)
Section Reduce.
  Context {P G L : Type}.
  (* the managed model, its version, the learning rate of the optimizer, how often the scheduler was stepped,
     what was pushed to the ordered server (state, version, previous version) *)
  Record primary := MkPrimary { p_params : P; p_version : nat; p_sched : nat; p_pushed : list (P * nat * nat) }.
  Variables (rate : nat -> L)               (* the rate after k steps of the scheduler *)
            (optimize : L -> P -> G -> P).  (* optimizer.step *)
  Definition reduce_primary (s : primary) (g : G) : primary :=
    let p := optimize (rate (p_sched s)) (p_params s) g in
    MkPrimary p (p_version s + 1) (p_sched s) (p_pushed s ++ [(p, p_version s + 1, p_version s)]).
End Reduce.
