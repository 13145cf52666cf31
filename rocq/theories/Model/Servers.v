(* Model of machin/parallel/server/ordered_server.py (OrderedServerSimpleImpl, 79-142) and of
   machin/parallel/server/param_server.py (PushPullModelServer 21-91, PushPullGradServerImpl
   208-493).  Remote calls are atomic steps (each service body runs under the server lock, or
   is a single thread-safe queue operation).  Values are immutable here, so the deepcopy calls
   are identities.  Not modelled: network failures, devices. *)
From Verif Require Import Lib.Rat.
Open Scope nat_scope.
Set Implicit Arguments.

(* ------------------------- ordered server ------------------------- *)
Section OS.
  Context {K A : Type} `{Eqb K}.

  (* ordered_server.py:104,125 : key -> OrderedDict(version -> value) *)
  Definition odict := list (nat * A).
  Definition ostore := list (K * odict).

  (* next(reversed(ref)) and its value *)
  Fixpoint olast {B} (l : list B) : option B :=
    match l with [] => None | [x] => Some x | _ :: r => olast r end.

  (* ordered_server.py:112-128; next(reversed({})) raises StopIteration *)
  Definition os_push (depth : nat) (st : ostore) (k : K) (v : A) (ver prev : nat) : ostore * res bool :=
    match dget k st with
    | Some ref =>
        match olast ref with
        | None => (st, Err EOther)
        | Some (newest, _) =>
            let same := newest =? prev in
            let ref1 := if same then dset ver v ref else ref in
            let ref2 := if depth + 1 <? length ref1 then tl ref1 else ref1 in
            (dset k ref2 st, Ok same)
        end
    | None => (dset k [(ver, v)] st, Ok true)
    end.

  (* ordered_server.py:130-142 *)
  Definition os_pull (st : ostore) (k : K) (ver : option nat) : res (option (A * nat)) :=
    match dget k st with
    | None => Ok None
    | Some ref =>
        match ver with
        | Some w => match dget w ref with Some v => Ok (Some (v, w)) | None => Ok None end
        | None => match olast ref with Some (w, v) => Ok (Some (v, w)) | None => Err EOther end
        end
    end.

  Inductive oreq := OPush (k : K) (v : A) (ver prev : nat) | OPull (k : K) (ver : option nat).
  Inductive oans := APush (b : bool) | APull (r : option (A * nat)) | AErr (e : err).
  Definition os_step (depth : nat) (st : ostore) (q : oreq) : ostore * oans :=
    match q with
    | OPush k v ver prev => match os_push depth st k v ver prev with
                            | (s, Ok b) => (s, APush b) | (s, Err e) => (s, AErr e) end
    | OPull k ver => (st, match os_pull st k ver with Ok r => APull r | Err e => AErr e end)
    end.
  Fixpoint os_run (depth : nat) (st : ostore) (qs : list oreq) : ostore * list oans :=
    match qs with
    | [] => (st, [])
    | q :: r => let (s1, a) := os_step depth st q in
                let (s2, l) := os_run depth s1 r in (s2, a :: l)
    end.
End OS.
Arguments ostore : clear implicits.
Arguments oreq : clear implicits.
Arguments oans : clear implicits.

(* ------------------------- model server ------------------------- *)
(* The key model_name is the number 0. *)
Section MS.
  Context {A : Type}.

  (* a client process: its model parameters, the attribute pp_version if present, and
     whether it is between the failed push and the following pull of push() *)
  Record client := MkC { cl_par : A; cl_ver : option nat; cl_wait : bool }.
  Record msys := MkM { ms_srv : ostore nat A; ms_cl : nat -> client }.

  Definition setc (f : nat -> client) (i : nat) (c : client) : nat -> client :=
    fun j => if j =? i then c else f j.

  (* what happens, per step *)
  Inductive mact :=
  | MTrain (i : nat) (p : A)          (* the client changes its parameters *)
  | MPush (i : nat) (pull_on_fail : bool)  (* 49-60: up to and including the remote push *)
  | MPullFail (i : nat)               (* 62-67: the pull after a failed push *)
  | MPull (i : nat).                  (* 84-91 *)

  Inductive mev := EvNone | EvAccept (ver : nat) (p : A) | EvReject | EvErr.

  (* 49-50: pp_version defaults to 0 (the attribute is then set) *)
  Definition ver_of (c : client) : nat := match cl_ver c with Some v => v | None => 0 end.

  Definition ms_step (depth : nat) (s : msys) (a : mact) : msys * mev :=
    match a with
    | MTrain i p =>
        let c := ms_cl s i in
        if cl_wait c then (s, EvNone) else
        (MkM (ms_srv s) (setc (ms_cl s) i (MkC p (cl_ver c) false)), EvNone)
    | MPush i pof =>
        let c := ms_cl s i in
        if cl_wait c then (s, EvNone) else
        match os_push depth (ms_srv s) 0 (cl_par c) (ver_of c + 1) (ver_of c) with
        | (srv, Ok true) =>
            (MkM srv (setc (ms_cl s) i (MkC (cl_par c) (Some (ver_of c + 1)) false)), EvAccept (ver_of c + 1) (cl_par c))
        | (srv, Ok false) =>
            (MkM srv (setc (ms_cl s) i (MkC (cl_par c) (Some (ver_of c)) pof)), EvReject)
        | (srv, Err _) => (MkM srv (ms_cl s), EvErr)
        end
    | MPullFail i =>
        let c := ms_cl s i in
        if cl_wait c then
          match os_pull (ms_srv s) 0 None with
          | Ok (Some (p, v)) => (MkM (ms_srv s) (setc (ms_cl s) i (MkC p (Some v) false)), EvNone)
          | _ => (s, EvErr)  (* 63-64: RuntimeError *)
          end
        else (s, EvNone)
    | MPull i =>
        let c := ms_cl s i in
        if cl_wait c then (s, EvNone) else
        match os_pull (ms_srv s) 0 None with
        | Ok (Some (p, v)) =>
            (if match cl_ver c with None => true | Some w => w <? v end
             then MkM (ms_srv s) (setc (ms_cl s) i (MkC p (Some v) false)) else s, EvNone)
        | Ok None => (s, EvNone)
        | Err _ => (s, EvErr)
        end
    end.

  Fixpoint ms_run (depth : nat) (s : msys) (l : list mact) : msys * list mev :=
    match l with
    | [] => (s, [])
    | a :: r => let (s1, e) := ms_step depth s a in
                let (s2, es) := ms_run depth s1 r in (s2, e :: es)
    end.
  Definition ms_init (par : nat -> A) : msys := MkM [] (fun i => MkC (par i) None false).
End MS.
Arguments client : clear implicits.
Arguments msys : clear implicits.
Arguments mact : clear implicits.
Arguments mev : clear implicits.

(* ------------------------- gradient server ------------------------- *)
(* A tensor is its list of entries (shape = length); a gradient dictionary maps parameter
   names (numbers here) to tensors. *)
Definition tensor := list Qc.
Definition gdict := list (nat * tensor).
Inductive rmethod := RSum | RMean.

Definition tadd (x y : tensor) : tensor := map (fun q => (fst q + snd q)%Qc) (combine x y).

(* param_server.py:479-484 *)
Definition collect_grad (acc : list (nat * list tensor)) (g : gdict) : list (nat * list tensor) :=
  fold_left (fun a q => match dget (fst q) a with
                        | None => dset (fst q) [snd q] a
                        | Some l => dset (fst q) (l ++ [snd q]) a
                        end) g acc.

(* t.stack raises RuntimeError on different shapes; sum/mean over dimension 0 *)
Definition reduce_tensors (m : rmethod) (l : list tensor) : res tensor :=
  match l with
  | [] => Err ERuntime
  | x :: r =>
      if forallb (fun y => length y =? length x) r
      then let s := fold_left tadd r x in
           Ok (match m with RSum => s | RMean => map (fun v => (v / nq (length l))%Qc) s end)
      else Err ERuntime
  end.

Fixpoint reduce_all (m : rmethod) (d : list (nat * list tensor)) : res gdict :=
  match d with
  | [] => Ok []
  | (k, l) :: r => bind (reduce_tensors m l) (fun v => bind (reduce_all m r) (fun r' => Ok ((k, v) :: r')))
  end.

(* param_server.py:475-493 after the batch has been read *)
Definition reduce_batch (m : rmethod) (batch : list gdict) : res gdict :=
  reduce_all m (fold_left collect_grad batch []).

(* one reducer process.  The two queues, the thread's program counter, and ghost logs:
   everything ever put into each queue, everything taken out (with its fate), all reduced
   batches with their result. *)
Inductive fate := FDiscard | FBatch (n : nat).
Record gq := MkQ { q_items : list gdict; q_out : list (gdict * fate); q_batches : nat }.
Inductive rpc :=
| PWait | PDiscM | PDiscS | PChkM | PGetM (b : list gdict) | PChkS | PGetS (b : list gdict) | PSend (r : gdict) | PDead.
Record reducer := MkR { r_m : gq; r_s : gq; r_pc : rpc; r_redm : list (list gdict * gdict); r_reds : list (list gdict * gdict) }.
Definition r_new : reducer := MkR (MkQ [] [] 0) (MkQ [] [] 0) PWait [] [].

Section GS.
  Variable m : rmethod.
  Variables bsz maxq : nat.
  Variable primary : nat.

  Definition q_put (q : gq) (g : gdict) : gq := MkQ (q_items q ++ [g]) (q_out q) (q_batches q).
  Definition q_take (q : gq) (f : fate) : gq :=
    match q_items q with [] => q | g :: r => MkQ r (q_out q ++ [(g, f)]) (q_batches q) end.
  Definition q_next (q : gq) : gq := MkQ (q_items q) (q_out q) (S (q_batches q)).
  Definition qsize (q : gq) : nat := length (q_items q).

  Definition gsys := nat -> reducer.
  Definition setr (s : gsys) (i : nat) (r : reducer) : gsys := fun j => if j =? i then r else s j.

  (* one step of the reduction thread of process i (param_server.py:411-465).  queue.get()
     blocks on an empty queue: the step is then a no-op.  A stop request ends the thread. *)
  Definition r_step (s : gsys) (i : nat) (stop : bool) : gsys :=
    let r := s i in
    let keep pc := MkR (r_m r) (r_s r) pc (r_redm r) (r_reds r) in
    match r_pc r with
    | PWait =>  (* 414-420 *)
        if (qsize (r_m r) <? bsz) && (qsize (r_s r) <? bsz)
        then if stop then setr s i (keep PDead) else s
        else setr s i (keep PDiscM)
    | PDiscM => (* 422-423 *)
        if maxq <? qsize (r_m r)
        then setr s i (MkR (q_take (r_m r) FDiscard) (r_s r) PDiscM (r_redm r) (r_reds r))
        else setr s i (keep PDiscS)
    | PDiscS => (* 424-425 *)
        if maxq <? qsize (r_s r)
        then setr s i (MkR (r_m r) (q_take (r_s r) FDiscard) PDiscS (r_redm r) (r_reds r))
        else setr s i (keep PChkM)
    | PChkM => (* 427 *)
        setr s i (keep (if bsz <=? qsize (r_m r) then PGetM [] else PChkS))
    | PGetM b => (* 475-477, 478-493, 436-450 (the model update itself is not modelled) *)
        if length b <? bsz
        then match q_items (r_m r) with
             | [] => s
             | g :: _ => setr s i (MkR (q_take (r_m r) (FBatch (q_batches (r_m r)))) (r_s r) (PGetM (b ++ [g])) (r_redm r) (r_reds r))
             end
        else match reduce_batch m b with
             | Ok d => setr s i (MkR (q_next (r_m r)) (r_s r) PChkS (r_redm r ++ [(b, d)]) (r_reds r))
             | Err _ => setr s i (keep PDead)
             end
    | PChkS => (* 452 *)
        setr s i (keep (if bsz <=? qsize (r_s r) then PGetS [] else PWait))
    | PGetS b =>
        if length b <? bsz
        then match q_items (r_s r) with
             | [] => s
             | g :: _ => setr s i (MkR (r_m r) (q_take (r_s r) (FBatch (q_batches (r_s r)))) (PGetS (b ++ [g])) (r_redm r) (r_reds r))
             end
        else match reduce_batch m b with
             | Ok d => setr s i (MkR (r_m r) (q_next (r_s r)) (PSend d) (r_redm r) (r_reds r ++ [(b, d)]))
             | Err _ => setr s i (keep PDead)
             end
    | PSend d => (* 463-465: remote push into the primary's master queue (398-407) *)
        let s1 := setr s i (keep PWait) in
        let p := s1 primary in
        setr s1 primary (MkR (q_put (r_m p) d) (r_s p) (r_pc p) (r_redm p) (r_reds p))
    | PDead => s
    end.

  (* a client pushes a gradient to the secondary reducer i (181-184, 398-403) *)
  Definition c_push (s : gsys) (i : nat) (g : gdict) : gsys :=
    let r := s i in setr s i (MkR (r_m r) (q_put (r_s r) g) (r_pc r) (r_redm r) (r_reds r)).

  Inductive gact := GPush (i : nat) (g : gdict) | GStep (i : nat) (stop : bool).
  Definition g_step (s : gsys) (a : gact) : gsys :=
    match a with GPush i g => c_push s i g | GStep i st => r_step s i st end.
  Definition g_run (s : gsys) (l : list gact) : gsys := fold_left g_step l s.
  Definition g_init : gsys := fun _ => r_new.
End GS.
