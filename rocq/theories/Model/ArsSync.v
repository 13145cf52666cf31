(* Model of ARS.update, _sync_filter and _sync_actor (machin/frame/algorithms/ars.py 504-602, 640-668) and of the
   _sync_actor in the constructor (412), as run by all processes of the ARS group at once.
   Every process executes its list of instructions; any process may make the next step.  Process 0 is the manager
   (511-513, 641-643: first member of the group).
   - pair, unpair and get_paired(..).to_here() (machin/parallel/distributed/_world.py 632-740) are one step each:
     names are per process or used by the manager only, so a name has one owner (C28); a paired value is a reference, to_here() copies what the
     owner holds at that moment.  Pairing a paired name, unpairing or reading an absent one is a KeyError.
   - barrier is two steps, entering and returning; it returns once all members have entered it (C29, which also says
     when the call may miss its wake-up; that is left out here).
   - the model server is the one of Model/Servers.v.
   What is computed from the exchanged values is a parameter: [compute] (529-570, see C41 and C57), [merge]
   (573-583) and [adopt] (650-652, see C38); [res u i] is the rollout result which process i brings to its update u,
   and [obs u i] what its rollouts before that update do to its filter. *)
From Verif Require Import Lib.Base Model.Servers.
Set Implicit Arguments.

Section ArsSync.
  Variables (A R F : Type) (n depth : nat) (norm : bool).
  Variables (compute : A -> list R -> A) (merge : F -> list F -> F) (adopt : F -> F -> F).
  Variables (res : nat -> nat -> R) (obs : nat -> nat -> F -> F).
  Variables (par : nat -> A) (fil : nat -> F).

  Inductive instr :=
  | IPairR | IPairF | IPairM            (* 518-521; 522-525; 645 *)
  | IUnpairR | IUnpairF | IUnpairM      (* 586; 587-588; 654 *)
  | IEnter | ILeave                     (* barrier *)
  | IGather | IGatherF                  (* 529-570: one member per step, then the computation; 573-583 *)
  | IAdopt                              (* 648-651 *)
  | IPush | IPull.                      (* 662; 665 *)

  Definition barrier : list instr := [IEnter; ILeave].
  Definition only (b : bool) (l : list instr) : list instr := if b then l else [].
  (* 657-666 *)
  Definition sync_actor (mg : bool) : list instr := only mg [IPush] ++ barrier ++ only (negb mg) [IPull] ++ barrier.
  (* 640-655 *)
  Definition sync_filter (mg : bool) : list instr :=
    only mg [IPairM] ++ barrier ++ only (negb mg) [IAdopt] ++ barrier ++ only mg [IUnpairM] ++ barrier.
  (* 504-596 *)
  Definition update (mg : bool) : list instr :=
    [IPairR] ++ only norm [IPairF] ++ barrier
    ++ only mg ([IGather] ++ only norm [IGatherF]) ++ barrier
    ++ [IUnpairR] ++ only norm [IUnpairF] ++ barrier
    ++ only norm (sync_filter mg) ++ sync_actor mg.
  (* round 0 is the constructor, round u + 1 the update u *)
  Definition prog (i rd : nat) : list instr :=
    match rd with 0 => sync_actor (i =? 0) | S _ => update (i =? 0) end.

  Record proc := MkP { p_rd : nat; p_pc : nat; p_b : nat;          (* round, position, barriers entered *)
                       p_f : F; p_r : option R;                    (* filter and the result of the rollouts *)
                       p_pr : bool; p_pf : bool; p_pm : bool;      (* what is paired *)
                       p_got : list R; p_gotf : list F;
                       p_err : option err }.
  Record ast := MkA { a_proc : nat -> proc; a_ms : msys A }.
  Definition setp (s : ast) (i : nat) (p : proc) : ast := MkA (fun j => if j =? i then p else a_proc s j) (a_ms s).
  Definition setm (s : ast) (m : msys A) : ast := MkA (a_proc s) m.

  Definition next (p : proc) : proc :=
    MkP (p_rd p) (S (p_pc p)) (p_b p) (p_f p) (p_r p) (p_pr p) (p_pf p) (p_pm p) (p_got p) (p_gotf p) (p_err p).
  Definition fail (e : err) (p : proc) : proc :=
    MkP (p_rd p) (p_pc p) (p_b p) (p_f p) (p_r p) (p_pr p) (p_pf p) (p_pm p) (p_got p) (p_gotf p) (Some e).
  Definition set_b (b : nat) (p : proc) : proc :=
    MkP (p_rd p) (p_pc p) b (p_f p) (p_r p) (p_pr p) (p_pf p) (p_pm p) (p_got p) (p_gotf p) (p_err p).
  Definition set_f (f : F) (p : proc) : proc :=
    MkP (p_rd p) (p_pc p) (p_b p) f (p_r p) (p_pr p) (p_pf p) (p_pm p) (p_got p) (p_gotf p) (p_err p).
  Definition set_pr (b : bool) (p : proc) : proc :=
    MkP (p_rd p) (p_pc p) (p_b p) (p_f p) (p_r p) b (p_pf p) (p_pm p) (p_got p) (p_gotf p) (p_err p).
  Definition set_pf (b : bool) (p : proc) : proc :=
    MkP (p_rd p) (p_pc p) (p_b p) (p_f p) (p_r p) (p_pr p) b (p_pm p) (p_got p) (p_gotf p) (p_err p).
  Definition set_pm (b : bool) (p : proc) : proc :=
    MkP (p_rd p) (p_pc p) (p_b p) (p_f p) (p_r p) (p_pr p) (p_pf p) b (p_got p) (p_gotf p) (p_err p).
  Definition set_got (l : list R) (lf : list F) (p : proc) : proc :=
    MkP (p_rd p) (p_pc p) (p_b p) (p_f p) (p_r p) (p_pr p) (p_pf p) (p_pm p) l lf (p_err p).
  (* 597-602 and the rollouts up to the next update *)
  Definition finish (i : nat) (p : proc) : proc :=
    MkP (S (p_rd p)) 0 (p_b p) (obs (p_rd p) i (p_f p)) (Some (res (p_rd p) i)) (p_pr p) (p_pf p) (p_pm p) [] [] (p_err p).

  Definition pair (b : bool) (f : bool -> proc -> proc) (p : proc) : proc := if b then fail EKey p else next (f true p).
  Definition unpair (b : bool) (f : bool -> proc -> proc) (p : proc) : proc := if b then next (f false p) else fail EKey p.

  (* one step of process i *)
  Definition step (s : ast) (i : nat) : ast :=
    let p := a_proc s i in
    match p_err p with
    | Some _ => s
    | None =>
      match nth_error (prog i (p_rd p)) (p_pc p) with
      | None => setp s i (finish i p)
      | Some IPairR => setp s i (pair (p_pr p) set_pr p)
      | Some IPairF => setp s i (pair (p_pf p) set_pf p)
      | Some IPairM => setp s i (pair (p_pm p) set_pm p)
      | Some IUnpairR => setp s i (unpair (p_pr p) set_pr p)
      | Some IUnpairF => setp s i (unpair (p_pf p) set_pf p)
      | Some IUnpairM => setp s i (unpair (p_pm p) set_pm p)
      | Some IEnter => setp s i (next (set_b (S (p_b p)) p))
      | Some ILeave => if forallb (fun j => p_b p <=? p_b (a_proc s j)) (seq 0 n) then setp s i (next p) else s
      | Some IGather =>
          if length (p_got p) <? n then
            let q := a_proc s (length (p_got p)) in
            match p_pr q, p_r q with
            | true, Some r => setp s i (set_got (p_got p ++ [r]) (p_gotf p) p)
            | _, _ => setp s i (fail EKey p)
            end
          else setp (setm s (fst (ms_step depth (a_ms s) (MTrain i (compute (cl_par (ms_cl (a_ms s) i)) (p_got p)))))) i (next p)
      | Some IGatherF =>
          if length (p_gotf p) <? n then
            let q := a_proc s (length (p_gotf p)) in
            if p_pf q then setp s i (set_got (p_got p) (p_gotf p ++ [p_f q]) p) else setp s i (fail EKey p)
          else setp s i (next (set_f (merge (p_f p) (p_gotf p)) p))
      | Some IAdopt =>
          let q := a_proc s 0 in
          if p_pm q then setp s i (next (set_f (adopt (p_f p) (p_f q)) p)) else setp s i (fail EKey p)
      | Some IPush =>
          match ms_step depth (a_ms s) (MPush i true) with
          | (m, EvAccept _ _) => setp (setm s m) i (next p)
          | (m, _) => setp (setm s m) i (fail EAssert p)
          end
      | Some IPull =>
          match os_pull (ms_srv (a_ms s)) 0 None with
          | Ok (Some _) => setp (setm s (fst (ms_step depth (a_ms s) (MPull i)))) i (next p)
          | Ok None => setp s i (fail EAssert p)
          | Err e => setp s i (fail e p)
          end
      end
    end.

  Definition init : ast :=
    MkA (fun i => MkP 0 0 0 (fil i) None false false false [] [] None) (ms_init par).
  (* any schedule of the n processes *)
  Definition run (ls : list nat) : ast := fold_left (fun s i => if i <? n then step s i else s) ls init.
End ArsSync.
