(* machin/parallel/distributed/_world.py: the RPC lookup tables (54-163,
   599-834), the group barrier (872-895, 967-973) and group creation
   (212-217, 347-397), as transition systems.  Process, group and key names are
   numbers.  An RPC is delivered, executed and answered without failure; the
   moment at which the remote side executes it is chosen by the schedule. *)
From Verif Require Import Lib.Base.
Set Implicit Arguments.

Definition fupd {T} (f : nat -> T) (i : nat) (x : T) : nat -> T := fun j => if j =? i then x else f j.

(* ------------------------------------------------------------------ *)
Section Lut.
  Variable V : Type.           (* paired values / services *)

  (* LUTType *)
  Inductive tbl := TVal | TSvc.
  Definition gkey := (nat * nat)%type.             (* (group_name, key) *)

  (* WORLD.value_lut and WORLD.service_lut on the manager, 322-323 *)
  Record luts := { l_val : dict gkey nat; l_svc : dict gkey nat }.
  Definition tget (t : tbl) (l : luts) := match t with TVal => l_val l | TSvc => l_svc l end.
  Definition tput (t : tbl) (d : dict gkey nat) (l : luts) : luts :=
    match t with
    | TVal => {| l_val := d; l_svc := l_svc l |}
    | TSvc => {| l_val := l_val l; l_svc := d |}
    end.

  (* 54-61 *)
  Definition set_entry (t : tbl) (gk : gkey) (p : nat) (l : luts) : luts * bool :=
    if dmem gk (tget t l) then (l, false) else (tput t (dset gk p (tget t l)) l, true).
  (* 64-71 *)
  Definition unset_entry (t : tbl) (gk : gkey) (p : nat) (l : luts) : luts * bool :=
    match dget gk (tget t l) with
    | Some q => if q =? p then (tput t (ddel gk (tget t l)) l, true) else (l, false)
    | None => (l, false)
    end.
  (* 74-80; 83-89 is the same test *)
  Definition get_entry (t : tbl) (gk : gkey) (l : luts) : option nat := dget gk (tget t l).

  (* One RpcGroup object, 599-612 (barrier state apart). *)
  Record obj := { o_proc : nat; o_grp : nat; o_val : dict nat V; o_svc : dict nat V; o_dead : bool }.
  Definition oget (t : tbl) (o : obj) := match t with TVal => o_val o | TSvc => o_svc o end.
  Definition oput (t : tbl) (d : dict nat V) (o : obj) : obj :=
    match t with
    | TVal => {| o_proc := o_proc o; o_grp := o_grp o; o_val := d; o_svc := o_svc o; o_dead := o_dead o |}
    | TSvc => {| o_proc := o_proc o; o_grp := o_grp o; o_val := o_val o; o_svc := d; o_dead := o_dead o |}
    end.
  Definition okey (o : obj) (k : nat) : gkey := (o_grp o, k).

  Inductive ans := RDone | RVal (v : V) | RBool (b : bool) | RExc (e : err).

  (* A call in progress on object o.  pair/register: 632-661, 737-767;
     unpair/deregister: 664-694, 770-802; get_paired/service call: 711-734,
     950-965 with 100-131 and 134-163 on the holder; is_paired: 696-709. *)
  Inductive call :=
  | CPair (t : tbl) (o k : nat) (v : V)            (* local check *)
  | CPair1 (t : tbl) (o k : nat) (v : V)           (* rpc to the manager *)
  | CPair2 (t : tbl) (o k : nat) (v : V) (ok : bool)
  | CUnpair (t : tbl) (o k : nat)
  | CUnpair1 (t : tbl) (o k : nat)
  | CUnpair2 (t : tbl) (o k : nat) (ok : bool)
  | CGet (t : tbl) (o k : nat)                     (* local check *)
  | CGet1 (t : tbl) (o k : nat)                    (* rpc to the manager *)
  | CGet2 (t : tbl) (g k holder : nat)             (* rpc to the holder *)
  | CPurge (t : tbl) (g k holder : nat)            (* holder's rpc to the manager *)
  | CHas (t : tbl) (o k : nat)
  | CDone (a : ans).

  (* what the manager was asked and answered (ghost) *)
  Inductive origin := OUnpair | OPurge.
  Inductive req :=
  | QSet (t : tbl) (gk : gkey) (p : nat) (ok : bool)
  | QUnset (w : origin) (t : tbl) (gk : gkey) (p : nat) (ok : bool)
  | QGet (t : tbl) (gk : gkey) (owner : option nat).

  Record lst := { w_luts : luts; w_groups : dict (nat * nat) nat; (* (proc, group) -> object *)
                  w_objs : list obj; w_calls : list call; w_log : list req }.
  Definition linit : lst := {| w_luts := {| l_val := []; l_svc := [] |}; w_groups := []; w_objs := [];
                               w_calls := []; w_log := [] |}.

  Definition set_obj (i : nat) (o : obj) (s : lst) : lst :=
    {| w_luts := w_luts s; w_groups := w_groups s; w_objs := upd i o (w_objs s);
       w_calls := w_calls s; w_log := w_log s |}.
  Definition set_call (i : nat) (c : call) (s : lst) : lst :=
    {| w_luts := w_luts s; w_groups := w_groups s; w_objs := w_objs s;
       w_calls := upd i c (w_calls s); w_log := w_log s |}.
  Definition set_luts (l : luts) (q : req) (s : lst) : lst :=
    {| w_luts := l; w_groups := w_groups s; w_objs := w_objs s;
       w_calls := w_calls s; w_log := w_log s ++ [q] |}.

  (* one step of call number i *)
  Definition advance (i : nat) (c : call) (s : lst) : lst :=
    match c with
    | CPair t o k v =>                                              (* 646-649, 751-755 *)
        match nth_error (w_objs s) o with
        | None => s
        | Some ob => set_call i (if dmem k (oget t ob) then CDone (RExc EKey) else CPair1 t o k v) s
        end
    | CPair1 t o k v =>                                             (* 651-655, 757-761 *)
        match nth_error (w_objs s) o with
        | None => s
        | Some ob =>
            let (l, ok) := set_entry t (okey ob k) (o_proc ob) (w_luts s) in
            set_call i (CPair2 t o k v ok) (set_luts l (QSet t (okey ob k) (o_proc ob) ok) s)
        end
    | CPair2 t o k v ok =>                                          (* 656-661, 762-767 *)
        match nth_error (w_objs s) o with
        | None => s
        | Some ob => if ok then set_call i (CDone RDone) (set_obj o (oput t (dset k v (oget t ob)) ob) s)
                     else set_call i (CDone (RExc EKey)) s
        end
    | CUnpair t o k =>                                              (* 676-680, 782-787 *)
        match nth_error (w_objs s) o with
        | None => s
        | Some ob => set_call i (if dmem k (oget t ob) then CUnpair1 t o k else CDone (RExc EKey)) s
        end
    | CUnpair1 t o k =>                                             (* 682-686, 789-793 *)
        match nth_error (w_objs s) o with
        | None => s
        | Some ob =>
            let (l, ok) := unset_entry t (okey ob k) (o_proc ob) (w_luts s) in
            set_call i (CUnpair2 t o k ok) (set_luts l (QUnset OUnpair t (okey ob k) (o_proc ob) ok) s)
        end
    | CUnpair2 t o k ok =>                                          (* 687-694, 794-802 *)
        match nth_error (w_objs s) o with
        | None => s
        | Some ob =>
            if ok then
              match dpop k (oget t ob) with
              | Ok d => set_call i (CDone RDone) (set_obj o (oput t d ob) s)
              | Err e => set_call i (CDone (RExc e)) s
              end
            else set_call i (CDone (RExc ERuntime)) s
        end
    | CGet t o k =>                                                 (* 722-723, 951-952 *)
        match nth_error (w_objs s) o with
        | None => s
        | Some ob => set_call i (if dmem k (oget t ob) then CGet2 t (o_grp ob) k (o_proc ob) else CGet1 t o k) s
        end
    | CGet1 t o k =>                                                (* 725-733, 954-962 *)
        match nth_error (w_objs s) o with
        | None => s
        | Some ob =>
            let r := get_entry t (okey ob k) (w_luts s) in
            set_call i (match r with Some p => CGet2 t (o_grp ob) k p | None => CDone (RExc EKey) end)
                       (set_luts (w_luts s) (QGet t (okey ob k) r) s)
        end
    | CGet2 t g k p =>
        match dget (p, g) (w_groups s) with
        | None => set_call i (CPurge t g k p) s                     (* 103-111, 137-145 *)
        | Some o =>
            match nth_error (w_objs s) o with
            | None => s
            | Some ob =>
                match dget k (oget t ob) with
                | Some v => set_call i (CDone (RVal v)) s           (* 114-116, 149-150 *)
                | None => set_call i (CPurge TVal g k p) s          (* 119-127 (VALUE also for a service), 152-159 *)
                end
            end
        end
    | CPurge t g k p =>
        let (l, ok) := unset_entry t (g, k) p (w_luts s) in
        set_call i (CDone (RExc EKey)) (set_luts l (QUnset OPurge t (g, k) p ok) s)
    | CHas t o k =>
        match nth_error (w_objs s) o with
        | None => s
        | Some ob =>
            let r := get_entry t (okey ob k) (w_luts s) in
            set_call i (CDone (RBool (match r with Some _ => true | None => false end)))
                       (set_luts (w_luts s) (QGet t (okey ob k) r) s)
        end
    | CDone _ => s
    end.

  Inductive wlabel :=
  | WNew (p g : nat)          (* RpcGroup(...) is constructed on process p, 368; also when a pickled
                                 group object is received, 975-977, which is never published *)
  | WPublish (o : nat)        (* self.groups[group_name] = group, 366-371 *)
  | WDestroy (o : nat)        (* destroy, 898-907 *)
  | WCall (c : call)          (* a method is called on an object *)
  | WStep (i : nat).          (* call i proceeds *)

  Definition starts (c : call) : bool :=
    match c with CPair _ _ _ _ | CUnpair _ _ _ | CGet _ _ _ | CHas _ _ _ => true | _ => false end.

  Definition wstep (s : lst) (l : wlabel) : lst :=
    match l with
    | WNew p g => {| w_luts := w_luts s; w_groups := w_groups s;
                     w_objs := w_objs s ++ [{| o_proc := p; o_grp := g; o_val := []; o_svc := []; o_dead := false |}];
                     w_calls := w_calls s; w_log := w_log s |}
    | WPublish o =>
        match nth_error (w_objs s) o with
        | None => s
        | Some ob => if dmem (o_proc ob, o_grp ob) (w_groups s) then s
                     else {| w_luts := w_luts s; w_groups := dset (o_proc ob, o_grp ob) o (w_groups s);
                             w_objs := w_objs s; w_calls := w_calls s; w_log := w_log s |}
        end
    | WDestroy o =>
        match nth_error (w_objs s) o with
        | None => s
        | Some ob =>
            if o_dead ob then s
            else {| w_luts := w_luts s; w_groups := ddel (o_proc ob, o_grp ob) (w_groups s);
                    w_objs := upd o {| o_proc := o_proc ob; o_grp := o_grp ob; o_val := o_val ob;
                                       o_svc := o_svc ob; o_dead := true |} (w_objs s);
                    w_calls := w_calls s; w_log := w_log s |}
        end
    | WCall c => if starts c
                 then {| w_luts := w_luts s; w_groups := w_groups s; w_objs := w_objs s;
                         w_calls := w_calls s ++ [c]; w_log := w_log s |}
                 else s
    | WStep i => match nth_error (w_calls s) i with Some c => advance i c s | None => s end
    end.

  Definition wrun (ls : list wlabel) : lst := fold_left wstep ls linit.
End Lut.

(* ------------------------------------------------------------------ *)
(* RpcGroup.barrier.  Members are 0 .. n-1, sorted; member 0 polls.    *)
Section Barrier.
  Variable n : nat.

  (* a member other than 0: after `_barrier_status = True` it calls
     `_barrier_event.wait()`, which under the event's lock reads the flag and
     either returns or starts waiting for a notification (threading.Event) *)
  Inductive fpc := FOut | FEntered | FWaiting | FWoken.
  (* member 0: polling member i (883-891), or executing statement st of
     _rpc_exit_barrier on member i (892-893, 970-973) *)
  Inductive exst := E1 | E2 | E3.
  Inductive lpc := BOut | BPoll (i : nat) | BExit (i : nat) (st : exst).

  Record bst := { b_status : nat -> bool; b_flag : nat -> bool; b_pc : nat -> fpc; b_lead : lpc;
                  b_ent : nat -> nat; b_ex : nat -> nat }.
  Definition binit : bst :=
    {| b_status := fun _ => false; b_flag := fun _ => false; b_pc := fun _ => FOut; b_lead := BOut;
       b_ent := fun _ => 0; b_ex := fun _ => 0 |}.

  Inductive blabel := BLead | BMem (m : nat).

  Definition set_lead (l : lpc) (s : bst) : bst :=
    {| b_status := b_status s; b_flag := b_flag s; b_pc := b_pc s; b_lead := l;
       b_ent := b_ent s; b_ex := b_ex s |}.

  Definition bstep (s : bst) (l : blabel) : bst :=
    match l with
    | BLead =>
        match b_lead s with
        | BOut =>                                               (* 881-882 *)
            {| b_status := fupd (b_status s) 0 true; b_flag := b_flag s; b_pc := b_pc s; b_lead := BPoll 0;
               b_ent := fupd (b_ent s) 0 (S (b_ent s 0)); b_ex := b_ex s |}
        | BPoll i =>                                            (* 884-891 *)
            if i <? n then set_lead (if b_status s i then BPoll (S i) else BPoll 0) s
            else set_lead (BExit 0 E1) s
        | BExit i E1 =>
            if i <? n then                                      (* 971 on member i *)
              {| b_status := fupd (b_status s) i false; b_flag := b_flag s; b_pc := b_pc s;
                 b_lead := BExit i E2; b_ent := b_ent s; b_ex := b_ex s |}
            else                                                (* barrier returns *)
              {| b_status := b_status s; b_flag := b_flag s; b_pc := b_pc s; b_lead := BOut;
                 b_ent := b_ent s; b_ex := fupd (b_ex s) 0 (S (b_ex s 0)) |}
        | BExit i E2 =>                                         (* 972: set() notifies the waiters *)
            {| b_status := b_status s; b_flag := fupd (b_flag s) i true;
               b_pc := match b_pc s i with FWaiting => fupd (b_pc s) i FWoken | _ => b_pc s end;
               b_lead := BExit i E3; b_ent := b_ent s; b_ex := b_ex s |}
        | BExit i E3 =>                                         (* 973: clear() *)
            {| b_status := b_status s; b_flag := fupd (b_flag s) i false; b_pc := b_pc s;
               b_lead := BExit (S i) E1; b_ent := b_ent s; b_ex := b_ex s |}
        end
    | BMem m =>
        if (0 <? m) && (m <? n) then
          let ret := {| b_status := b_status s; b_flag := b_flag s; b_pc := fupd (b_pc s) m FOut;
                        b_lead := b_lead s; b_ent := b_ent s; b_ex := fupd (b_ex s) m (S (b_ex s m)) |} in
          match b_pc s m with
          | FOut =>
              {| b_status := fupd (b_status s) m true; b_flag := b_flag s; b_pc := fupd (b_pc s) m FEntered;
                 b_lead := b_lead s; b_ent := fupd (b_ent s) m (S (b_ent s m)); b_ex := b_ex s |}
          | FEntered =>                                         (* 895 *)
              if b_flag s m then ret
              else {| b_status := b_status s; b_flag := b_flag s; b_pc := fupd (b_pc s) m FWaiting;
                      b_lead := b_lead s; b_ent := b_ent s; b_ex := b_ex s |}
          | FWaiting => s
          | FWoken => ret
          end
        else s
    end.
  Definition brun (s : bst) (ls : list blabel) : bst := fold_left bstep ls s.
End Barrier.

(* ------------------------------------------------------------------ *)
(* World.create_rpc_group for one group name, possibly called again after the
   group was destroyed.  Every member passes the same member list. *)
Section Create.
  Variable n : nat.

  (* member 0: sleeping (377), waiting for the poll results (378-384; rs holds
     the answers already computed), or for the unlock calls (386-391) *)
  Inductive cpcs := COut | CStart | CPoll (rs : nat -> option bool) (i : nat)
                  | CUnlock (d : nat -> bool) (i : nat).
  Record gst := { g_sig : nat -> option bool;      (* group_create_signals.get(group_name) *)
                  g_called : nat -> nat; g_ret : nat -> nat; g_lead : cpcs }.
  Definition ginit : gst :=
    {| g_sig := fun _ => None; g_called := fun _ => 0; g_ret := fun _ => 0; g_lead := COut |}.

  Inductive glabel :=
  | ACall (m : nat)     (* 371-373 on member m *)
  | AEval (m : nat)     (* _is_group_ready executes on m, 212-213 *)
  | AUnl (m : nat)      (* _unlock_group executes on m, 216-217 *)
  | ALead               (* member 0 proceeds *)
  | ARet (m : nat).     (* member m <> 0 finds its signal True, 395-397 *)

  Definition glead (l : cpcs) (s : gst) : gst :=
    {| g_sig := g_sig s; g_called := g_called s; g_ret := g_ret s; g_lead := l |}.

  Definition gstep (s : gst) (l : glabel) : gst :=
    match l with
    | ACall m =>
        if (m <? n) && (g_called s m =? g_ret s m)%nat then
          {| g_sig := fupd (g_sig s) m (Some false); g_called := fupd (g_called s) m (S (g_called s m));
             g_ret := g_ret s; g_lead := if m =? 0 then CStart else g_lead s |}
        else s
    | AEval m =>
        match g_lead s with
        | CPoll rs i =>
            match rs m with
            | None => glead (CPoll (fupd rs m (Some (match g_sig s m with Some false => true | _ => false end))) i) s
            | Some _ => s
            end
        | _ => s
        end
    | AUnl m =>
        match g_lead s with
        | CUnlock d i =>
            if (m <? n) && negb (d m) then
              {| g_sig := fupd (g_sig s) m (Some true); g_called := g_called s; g_ret := g_ret s;
                 g_lead := CUnlock (fupd d m true) i |}
            else s
        | _ => s
        end
    | ALead =>
        match g_lead s with
        | COut => s
        | CStart => glead (CPoll (fun _ => None) 0) s
        | CPoll rs i =>
            if i <? n then
              match rs i with
              | Some true => glead (CPoll rs (S i)) s
              | Some false => glead CStart s
              | None => s
              end
            else glead (CUnlock (fun _ => false) 0) s
        | CUnlock d i =>
            if i <? n then if d i then glead (CUnlock d (S i)) s else s
            else {| g_sig := g_sig s; g_called := g_called s;
                    g_ret := fupd (g_ret s) 0 (S (g_ret s 0)); g_lead := COut |}
        end
    | ARet m =>
        if (0 <? m) && (m <? n) && (g_called s m =? S (g_ret s m)) then
          match g_sig s m with
          | Some true => {| g_sig := g_sig s; g_called := g_called s;
                            g_ret := fupd (g_ret s) m (S (g_ret s m)); g_lead := g_lead s |}
          | _ => s
          end
        else s
    end.
  Definition grun (s : gst) (ls : list glabel) : gst := fold_left gstep ls s.
End Create.
