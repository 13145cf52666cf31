(* Model of machin/parallel/pool.py: result objects, job cache, workers and
   handler threads of BasePool (73-879), worker identities of CtxPool (1150-1237)
   and worker queues of P2PPool (1097-1135).

   Simplifications: one submission (creating the result object and putting all
   its tasks) is one atomic step; completion is still arbitrary afterwards.  Task
   functions are pure: their outcome is a function of the argument.  Pickling is
   not modelled except that putting a task may fail (the [pf] oracle).  Worker
   deaths, task completion and handler iterations are scheduled arbitrarily by
   the label list.  User callbacks do not raise. *)
From Verif Require Import Lib.Base.
Set Implicit Arguments.

Section Pool.
  Variables A V E : Type.

  (* (True, value) / (False, exception), pool.py 752-755 *)
  Inductive outcome (T : Type) := Good (t : T) | Bad (e : E).
  Arguments Good {T} _.
  Arguments Bad {T} _.

  Inductive payload := PV (v : V) | PL (l : list V).

  (* pool.py 23-24  map_caller: list(map(f, xs)), stops at the first exception *)
  Fixpoint map_caller (f : A -> outcome V) (xs : list A) : outcome (list V) :=
    match xs with
    | [] => Good []
    | x :: r =>
        match f x with
        | Bad e => Bad e
        | Good v => match map_caller f r with Good vs => Good (v :: vs) | Bad e => Bad e end
        end
    end.

  Inductive work := WOne (f : A -> outcome V) (x : A) | WMap (f : A -> outcome V) (xs : list A).

  (* pool.py 751-755  the guarded call in worker *)
  Definition exec (w : work) : outcome payload :=
    match w with
    | WOne f x => match f x with Good v => Good (PV v) | Bad e => Bad e end
    | WMap f xs => match map_caller f xs with Good vs => Good (PL vs) | Bad e => Bad e end
    end.

  (* pool.py 828-842  _split_tasks; islice of 0 elements ends the loop at once.
     The fuel is the length of the input. *)
  Fixpoint split_go (fuel : nat) (c : nat) (it : list A) : list (list A) :=
    match fuel with
    | O => []
    | S k =>
        match firstn c it with
        | [] => []
        | x => x :: split_go k c (skipn c it)
        end
    end.
  Definition split_tasks (xs : list A) (c : nat) : list (list A) := split_go (S (length xs)) c xs.

  (* ---- result objects ---- *)
  Inductive mval := MVals (l : list (option V)) | MExc (e : E).

  Inductive robj :=
  (* AsyncResult 73-147: event, (success, value), callback calls *)
  | RApply (ready : bool) (val : option (outcome payload)) (cb : list (outcome payload))
  (* MapResult 150-193: chunksize, number_left, success, value, event, callback calls *)
  | RMap (c : Z) (nleft : Z) (val : mval) (ready : bool) (cb : list mval)
  (* IMapIterator 196-270 / IMapUnorderedIterator 273-287 *)
  | RIter (ordered : bool) (len idx : nat) (items : list (outcome payload))
          (uns : list (nat * outcome payload)).

  Definition plist (p : payload) : list V := match p with PV v => [v] | PL l => l end.

  (* Python  l[a:b] = r  for 0 <= a <= b *)
  Definition slice_set {T} (l : list T) (a b : nat) (r : list T) : list T :=
    firstn a l ++ r ++ skipn b l.

  (* pool.py 255-258  while self._index in self._unsorted *)
  Fixpoint drain (fuel idx : nat) (items : list (outcome payload))
           (uns : list (nat * outcome payload)) :=
    match fuel with
    | O => (idx, items, uns)
    | S k =>
        match dget idx uns with
        | Some o => drain k (S idx) (items ++ [o]) (ddel idx uns)
        | None => (idx, items, uns)
        end
    end.

  (* the three set methods: 136-147, 170-193, 244-263, 278-287.  The flag says
     that the job is deleted from the cache. *)
  Definition obj_set (k : nat) (o : outcome payload) (r : robj) : robj * bool :=
    match r with
    | RApply _ _ cb => (RApply true (Some o) (cb ++ [o]), true)
    | RMap c nleft val ready cb =>
        let left' := (nleft - 1)%Z in
        let val' :=
          match o, val with
          | Good p, MVals l =>
              MVals (slice_set l (k * Z.to_nat c) (S k * Z.to_nat c) (map Some (plist p)))
          | Bad e, MVals _ => MExc e
          | _, MExc e => MExc e
          end in
        if (left' =? 0)%Z
        then (RMap c left' val' true (cb ++ [val']), true)
        else (RMap c left' val' ready cb, false)
    | RIter true len idx items uns =>
        let '(idx', items', uns') :=
          if idx =? k
          then drain (length uns) (S idx) (items ++ [o]) uns
          else (idx, items, dset k o uns) in
        (RIter true len idx' items' uns', idx' =? len)
    | RIter false len idx items uns =>
        (RIter false len (S idx) (items ++ [o]) uns, S idx =? len)
    end.

  Inductive answer :=
  | ANone | ARaise (e : err) | AJob (j : nat)
  | AItem (o : outcome payload) | AStop | AWait.

  (* pool.py 211-242  next: an item, StopIteration, or wait (TimeoutError when
     the wait does not produce an item).  The wait releases the lock, so the
     second attempt after it is another LNext step. *)
  Definition obj_next (r : robj) : robj * answer :=
    match r with
    | RIter b len idx (o :: items) uns => (RIter b len idx items uns, AItem o)
    | RIter b len idx [] uns => (r, if idx =? len then AStop else AWait)
    | _ => (r, ARaise EType)
    end.

  (* pool.py 110-134  get: None while it blocks *)
  Inductive got := GOne (p : payload) | GList (l : list (option V)) | GRaise (e : E).
  Definition obj_get (r : robj) : option got :=
    match r with
    | RApply true (Some (Good p)) _ => Some (GOne p)
    | RApply true (Some (Bad e)) _ => Some (GRaise e)
    | RMap _ _ (MVals l) true _ => Some (GList l)
    | RMap _ _ (MExc e) true _ => Some (GRaise e)
    | _ => None
    end.

  (* ---- submissions ---- *)
  Inductive job :=
  | JApply (f : A -> outcome V) (x : A)
  | JMap (f : A -> outcome V) (xs : list A) (c : nat)
  | JIter (ordered : bool) (f : A -> outcome V) (xs : list A) (c : nat).

  Definition works (jb : job) : list work :=
    match jb with
    | JApply f x => [WOne f x]
    | JMap f xs c => map (WMap f) (split_tasks xs c)
    | JIter _ f xs c =>
        if c =? 1 then map (WOne f) xs else map (WMap f) (split_tasks xs c)
    end.

  (* constructors 78-86, 155-168, 201-209; the flag says that the job stays in
     the cache.  _number_left is length // c + bool(length % c). *)
  Definition new_obj (jb : job) : robj * bool :=
    match jb with
    | JApply _ _ => (RApply false None [], true)
    | JMap _ xs c =>
        if c =? 0 then (RMap 0 0 (MVals (repeat None (length xs))) true [], false)
        else (RMap (Z.of_nat c)
                   (Z.of_nat (length xs / c + (if length xs mod c =? 0 then 0 else 1)))
                   (MVals (repeat None (length xs))) false [], true)
    | JIter b _ _ _ => (RIter b (length (works jb)) 0 [] [], true)
    end.

  Record task := { t_job : nat; t_chunk : nat; t_work : work }.

  Inductive wstate := WIdle | WBusy (t : task) | WDead.
  Inductive pstate := PRun | PClose | PTerm.

  Inductive event :=
  | ESubmit (j : nat) (jb : job) (pf : nat -> option E)
  | EReport (j k : nat) (o : outcome payload)
  | EYield (j : nat) (o : outcome payload)
  | ELost (j k : nat).

  Record st := {
    s_state : pstate;                  (* _state *)
    s_ctr : nat;                       (* _job_counter *)
    s_objs : list (nat * robj);        (* result objects held by the callers *)
    s_cache : list nat;                (* keys of _cache *)
    s_in : list (option task);         (* _inqueue; None is the sentinel *)
    s_pool : list wstate;              (* _pool *)
    s_out : list (nat * nat * outcome payload);   (* _outqueue *)
    s_wh : bool; s_rh : bool;          (* handler threads running *)
    s_log : list event                 (* ghost: history *)
  }.

  Variable procs : nat.                (* _processes *)

  Definition init : st :=
    {| s_state := PRun; s_ctr := 0; s_objs := []; s_cache := []; s_in := [];
       s_pool := repeat WIdle procs; s_out := []; s_wh := true; s_rh := true; s_log := [] |}.

  Definition rm (j : nat) (l : list nat) := filter (fun i => negb (i =? j)) l.

  (* pool.py 820-823 and 781-785  self._cache[job].set(idx, obj), KeyError passes *)
  Definition report (j k : nat) (o : outcome payload) (s : st) : st :=
    if existsb (Nat.eqb j) (s_cache s)
    then match dget j (s_objs s) with
         | Some r =>
             let '(r', d) := obj_set k o r in
             {| s_state := s_state s; s_ctr := s_ctr s; s_objs := dset j r' (s_objs s);
                s_cache := if d then rm j (s_cache s) else s_cache s;
                s_in := s_in s; s_pool := s_pool s; s_out := s_out s;
                s_wh := s_wh s; s_rh := s_rh s; s_log := s_log s ++ [EReport j k o] |}
         | None => s
         end
    else s.

  Definition put_in (t : option task) (s : st) : st :=
    {| s_state := s_state s; s_ctr := s_ctr s; s_objs := s_objs s; s_cache := s_cache s;
       s_in := s_in s ++ [t]; s_pool := s_pool s; s_out := s_out s;
       s_wh := s_wh s; s_rh := s_rh s; s_log := s_log s |}.

  (* pool.py 774-785  _submit_task, for consecutive chunks from k on *)
  Fixpoint put_all (j k : nat) (ws : list work) (pf : nat -> option E) (s : st) : st :=
    match ws with
    | [] => s
    | w :: r =>
        put_all j (S k) r pf
          match pf k with
          | Some e => report j k (Bad e) s
          | None => put_in (Some {| t_job := j; t_chunk := k; t_work := w |}) s
          end
    end.

  (* pool.py 769-772 *)
  Definition bump (s : st) : st :=
    {| s_state := s_state s; s_ctr := S (s_ctr s); s_objs := s_objs s; s_cache := s_cache s;
       s_in := s_in s; s_pool := s_pool s; s_out := s_out s;
       s_wh := s_wh s; s_rh := s_rh s; s_log := s_log s |}.

  Definition register (j : nat) (jb : job) (pf : nat -> option E) (s : st) : st :=
    let '(r, c) := new_obj jb in
    {| s_state := s_state s; s_ctr := s_ctr s; s_objs := s_objs s ++ [(j, r)];
       s_cache := if c then s_cache s ++ [j] else s_cache s;
       s_in := s_in s; s_pool := s_pool s; s_out := s_out s;
       s_wh := s_wh s; s_rh := s_rh s; s_log := s_log s ++ [ESubmit j jb pf] |}.

  Definition submit (jb : job) (pf : nat -> option E) (s : st) : st * answer :=
    let j := s_ctr s in
    (put_all j 0 (works jb) pf (register j jb pf (bump s)), AJob j).

  Definition running (s : st) : bool := match s_state s with PRun => true | _ => false end.

  (* pool.py 528-533  the chunk size actually used; [plen] is len(self._pool) as
     seen by the submitting thread (it is transiently smaller than _processes
     while the worker handler replaces workers).  None: ZeroDivisionError. *)
  Definition map_chunksize (c : option Z) (n plen : nat) : res Z :=
    bind (match c with
          | Some z => Ok z
          | None =>
              if plen =? 0 then Err EZeroDiv
              else Ok (Z.of_nat (n / (plen * 4) + (if n mod (plen * 4) =? 0 then 0 else 1)))
          end)
         (fun z => Ok (if n =? 0 then 0%Z else z)).

  Inductive label :=
  | LApply (f : A -> outcome V) (x : A) (pf : nat -> option E)
  | LMap (f : A -> outcome V) (xs : list A) (c : option Z) (plen : nat) (pf : nat -> option E)
  | LIter (ordered : bool) (f : A -> outcome V) (xs : list A) (c : Z) (pf : nat -> option E)
  | LNext (j : nat)
  | LTake (w : nat) | LFinish (w : nat) | LCrash (w : nat)
  | LResult | LHandler | LClose | LTerm | LKill.

  Definition set_pool (p : list wstate) (s : st) : st :=
    {| s_state := s_state s; s_ctr := s_ctr s; s_objs := s_objs s; s_cache := s_cache s;
       s_in := s_in s; s_pool := p; s_out := s_out s;
       s_wh := s_wh s; s_rh := s_rh s; s_log := s_log s |}.
  Definition set_in (q : list (option task)) (s : st) : st :=
    {| s_state := s_state s; s_ctr := s_ctr s; s_objs := s_objs s; s_cache := s_cache s;
       s_in := q; s_pool := s_pool s; s_out := s_out s;
       s_wh := s_wh s; s_rh := s_rh s; s_log := s_log s |}.
  Definition set_out (q : list (nat * nat * outcome payload)) (s : st) : st :=
    {| s_state := s_state s; s_ctr := s_ctr s; s_objs := s_objs s; s_cache := s_cache s;
       s_in := s_in s; s_pool := s_pool s; s_out := q;
       s_wh := s_wh s; s_rh := s_rh s; s_log := s_log s |}.
  Definition set_threads (wh rh : bool) (s : st) : st :=
    {| s_state := s_state s; s_ctr := s_ctr s; s_objs := s_objs s; s_cache := s_cache s;
       s_in := s_in s; s_pool := s_pool s; s_out := s_out s;
       s_wh := wh; s_rh := rh; s_log := s_log s |}.
  Definition set_state (p : pstate) (s : st) : st :=
    {| s_state := p; s_ctr := s_ctr s; s_objs := s_objs s; s_cache := s_cache s;
       s_in := s_in s; s_pool := s_pool s; s_out := s_out s;
       s_wh := s_wh s; s_rh := s_rh s; s_log := s_log s |}.
  Definition add_log (e : event) (s : st) : st :=
    {| s_state := s_state s; s_ctr := s_ctr s; s_objs := s_objs s; s_cache := s_cache s;
       s_in := s_in s; s_pool := s_pool s; s_out := s_out s;
       s_wh := s_wh s; s_rh := s_rh s; s_log := s_log s ++ [e] |}.
  Definition set_objs (o : list (nat * robj)) (s : st) : st :=
    {| s_state := s_state s; s_ctr := s_ctr s; s_objs := o; s_cache := s_cache s;
       s_in := s_in s; s_pool := s_pool s; s_out := s_out s;
       s_wh := s_wh s; s_rh := s_rh s; s_log := s_log s |}.

  Definition alive (w : wstate) : bool := match w with WDead => false | _ => true end.

  (* pool.py 794-796 and 807-809  the common loop condition of both handlers *)
  Definition keep_going (s : st) : bool :=
    match s_state s with
    | PRun => true
    | PClose => match s_cache s with [] => false | _ => true end
    | PTerm => false
    end.

  (* pool.py 659-679 + 634-657  maintain_pool: drop dead workers, repopulate *)
  Definition maintain (p : list wstate) : list wstate :=
    let l := filter alive p in l ++ repeat WIdle (procs - length l).

  Definition lost_of (w : wstate) : list event :=
    match w with WBusy t => [ELost (t_job t) (t_chunk t)] | _ => [] end.

  Definition step (s : st) (l : label) : st * answer :=
    match l with
    | LApply f x pf =>                                  (* 363-393 *)
        if running s then submit (JApply f x) pf s else (s, ARaise EValue)
    | LMap f xs c plen pf =>                            (* 519-544 *)
        if running s then
          match map_chunksize c (length xs) plen with
          | Err e => (s, ARaise e)
          | Ok z => if (z <? 0)%Z then (bump s, ARaise EValue)   (* islice *)
                    else submit (JMap f xs (Z.to_nat z)) pf s
          end
        else (s, ARaise EValue)
    | LIter b f xs c pf =>                              (* 546-574 *)
        if running s then
          if (c <? 1)%Z then (bump s, ARaise EValue)
          else submit (JIter b f xs (Z.to_nat c)) pf s
        else (s, ARaise EValue)
    | LNext j =>
        match dget j (s_objs s) with
        | None => (s, ARaise EKey)
        | Some r =>
            let '(r', a) := obj_next r in
            match a with
            | AItem o => (add_log (EYield j o) (set_objs (dset j r' (s_objs s)) s), a)
            | _ => (s, a)
            end
        end
    | LTake w =>                                        (* 743-747 *)
        match nth_error (s_pool s) w, s_in s with
        | Some WIdle, Some t :: q => (set_in q (set_pool (upd w (WBusy t) (s_pool s)) s), ANone)
        | Some WIdle, None :: q => (set_in q (set_pool (upd w WDead (s_pool s)) s), ANone)
        | _, _ => (s, ANone)
        end
    | LFinish w =>                                      (* 751-757 *)
        match nth_error (s_pool s) w with
        | Some (WBusy t) =>
            (set_out (s_out s ++ [(t_job t, t_chunk t, exec (t_work t))])
                     (set_pool (upd w WIdle (s_pool s)) s), ANone)
        | _ => (s, ANone)
        end
    | LCrash w =>                     (* a crash, or maxtasksperchild reached *)
        match nth_error (s_pool s) w with
        | Some (WBusy t) =>
            (add_log (ELost (t_job t) (t_chunk t)) (set_pool (upd w WDead (s_pool s)) s), ANone)
        | Some WIdle => (set_pool (upd w WDead (s_pool s)) s, ANone)
        | _ => (s, ANone)
        end
    | LResult =>                                        (* 806-825 *)
        if s_rh s then
          if keep_going s then
            match s_out s with
            | [] => (s, ANone)
            | (j, k, o) :: q => (report j k o (set_out q s), ANone)
            end
          else (set_threads (s_wh s) false s, ANone)
        else (s, ANone)
    | LHandler =>                                       (* 788-803 *)
        if s_wh s then
          if keep_going s then (set_pool (maintain (s_pool s)) s, ANone)
          else (set_threads false (s_rh s)
                 (set_in (s_in s ++ repeat None (length (s_pool s))) s), ANone)
        else (s, ANone)
    | LClose =>                                         (* 576-587 *)
        if running s then (set_state PClose s, ANone) else (s, ANone)
    | LTerm => (set_state PTerm s, ANone)               (* 589-597, 844-851 *)
    | LKill =>                                          (* 853-869: after both handlers joined *)
        match s_state s with
        | PTerm => if s_wh s || s_rh s then (s, ANone)
                   else (fold_left (fun s e => add_log e s) (flat_map lost_of (s_pool s))
                           (set_pool (map (fun _ => WDead) (s_pool s)) s), ANone)
        | _ => (s, ANone)
        end
    end.

  Definition run (ls : list label) : st := fold_left (fun s l => fst (step s l)) ls init.
  (* close() of P2PPool, 1126-1130, is terminate() *)
  Definition p2p_close : label := LTerm.
End Pool.

Arguments Good {E T} _.
Arguments Bad {E T} _.
Arguments PV {V} _.
Arguments PL {V} _.
Arguments WDead {A V E}.
Arguments WIdle {A V E}.

(* ---- CtxPool worker identities (1199-1231, maintain_pool 659-679) ----
   The maintenance thread runs interleaved with worker deaths: it visits the pool
   from the back, deletes the workers found dead, computes the missing ids and
   spawns one worker per missing id. *)
Section Ctx.
  Variable C : Type.

  Record cworker := { c_id : nat; c_ctx : option C; c_alive : bool }.
  Inductive mpc := MIdle | MReap (i : nat) | MNeed | MSpawn (todo : list nat).
  (* cp_gone: processes no longer in self._pool (ghost; they still run if they were not dead) *)
  Record cpool := { cp_pool : list cworker; cp_gone : list cworker; cp_pc : mpc }.

  Variable ctxs : list C.
  Definition nprocs := length ctxs.      (* 1177-1182: lengths must agree *)

  Definition remove_at {T} (i : nat) (l : list T) := firstn i l ++ skipn (S i) l.
  (* del self._pool[i] *)
  Definition cdel (i : nat) (s : cpool) (pc : mpc) : cpool :=
    {| cp_pool := remove_at i (cp_pool s);
       cp_gone := cp_gone s ++ match nth_error (cp_pool s) i with Some w => [w] | None => [] end;
       cp_pc := pc |}.
  Definition cpc (s : cpool) (pc : mpc) : cpool :=
    {| cp_pool := cp_pool s; cp_gone := cp_gone s; cp_pc := pc |}.

  Inductive clabel :=
  | CDie (i : nat)
  | CMaint (order : list nat -> list nat).   (* iteration order of the set need_ids *)

  (* 1206-1207  set(range(processes)) - ids *)
  Definition need_ids (p : list cworker) : list nat :=
    filter (fun i => negb (existsb (Nat.eqb i) (map c_id p))) (seq 0 nprocs).

  Definition cstep (s : cpool) (l : clabel) : cpool :=
    match l with
    | CDie i =>
        match nth_error (cp_pool s) i with
        | Some w => {| cp_pool := upd i {| c_id := c_id w; c_ctx := c_ctx w; c_alive := false |}
                                      (cp_pool s);
                       cp_gone := cp_gone s; cp_pc := cp_pc s |}
        | None => s
        end
    | CMaint order =>
        match cp_pc s with
        | MIdle => cpc s (MReap (length (cp_pool s)))
        | MReap 0 => cpc s MNeed
        | MReap (S i) =>
            match nth_error (cp_pool s) i with
            | Some w => if c_alive w then cpc s (MReap i) else cdel i s (MReap i)
            | None => cpc s (MReap i)
            end
        | MNeed =>
            cpc s (MSpawn (firstn (nprocs - length (cp_pool s)) (order (need_ids (cp_pool s)))))
        | MSpawn [] => cpc s MIdle
        | MSpawn (pid :: r) =>
            {| cp_pool := cp_pool s ++ [{| c_id := pid; c_ctx := nth_error ctxs pid; c_alive := true |}];
               cp_gone := cp_gone s; cp_pc := MSpawn r |}
        end
    end.

  (* the constructor calls repopulate_pool on the empty pool *)
  Definition cinit : cpool := {| cp_pool := []; cp_gone := []; cp_pc := MNeed |}.
  Definition crun (ls : list clabel) : cpool := fold_left cstep ls cinit.
End Ctx.

(* ---- P2PPool worker queues (1102-1126): worker -> sub queue index ---- *)
Section P2P.
  Variable n : nat.
  Definition p2p_repopulate (p : list (nat * bool)) : list (nat * bool) :=
    p ++ map (fun i => (i, true)) (seq 0 (n - length p)).
  Definition p2p_maintain (p : list (nat * bool)) : list (nat * bool) :=
    p2p_repopulate (filter snd p).
  Definition p2p_die (i : nat) (p : list (nat * bool)) : list (nat * bool) :=
    match nth_error p i with Some (q, _) => upd i (q, false) p | None => p end.
End P2P.
