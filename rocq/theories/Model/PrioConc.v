(* machin/frame/buffers/prioritized_buffer_d.py 204-266 (sample_batch) run by members of a group while all of them go on
   storing (112-137), clearing (164-171, 272-276), updating priorities (282-291) and sampling.

   sample_batch first asks every member for its weight sum and waits for all answers (222-228), computes the shares
   (229-234) and only then sends the sampling requests (236-245), whose answers are collected in the order of the group
   (247-259).  A request is served at any time after it was sent, under the lock of the member, hence in one step
   (DistBuffer.v).  All buffers are constructed already (C188 is about the constructors).
   post_process_batch is left out (C06). *)
From Verif Require Import Lib.Rat Model.Buffer Model.WeightTree Model.PrioritizedBuffer Model.DistBuffer.
Open Scope nat_scope.
Set Implicit Arguments.

Section PConc.
  Context {T : Type}.
  Variable ok : T -> bool.
  Variable norm : Qc -> Qc.
  Variable pw : Qc -> Qc -> Qc.
  Variables beta inc : Qc.
  Variables n cap : nat.                               (* members; capacity of each buffer *)

  (* a call of sample_batch: batch_size and the answers so far *)
  Record scall := MkSc { sc_size : nat; sc_w : nat -> option Qc; sc_ans : nat -> option (res (sres T)) }.
  Record pst := MkPst { p_mem : nat -> dpbuf T; p_calls : list scall }.
  Definition pinit : pst := MkPst (fun _ => dp_new beta cap) [].

  Definition pput {A} (f : nat -> A) (i : nat) (x : A) : nat -> A := fun j => if j =? i then x else f j.

  (* 228: [fut.wait() for fut in future] *)
  Fixpoint waited (w : nat -> option Qc) (i k : nat) : option (list Qc) :=
    match k with
    | 0 => Some []
    | S k => match w i, waited w (S i) k with Some x, Some l => Some (x :: l) | _, _ => None end
    end.
  (* 229 *)
  Definition weight_of_all (ws : list Qc) : Qc := (fold_left Qcplus ws 0%Qc + tiny)%Qc.

  Inductive plabel :=
  | PsStore (m : nat) (ep : list T) (ps : option (list Qc))      (* store_episode on member m *)
  | PsClear (m : nat)                                            (* clear or _clear_service on member m *)
  | PsUpdate (m : nat) (ps : list Qc) (idx vers : list nat)      (* _update_priority_service on member m *)
  | PsCall (size : nat)                                          (* some member calls sample_batch *)
  | PsWeigh (c m : nat)                                          (* member m answers _weight_sum_service for call c *)
  | PsSample (c m : nat) (us : list Qc).                         (* member m answers _sample_service, drawing us *)

  Definition on (s : pst) (m : nat) (d : dpbuf T) : pst := MkPst (pput (p_mem s) m d) (p_calls s).
  Definition with_call (s : pst) (c : nat) (k : scall) : pst := MkPst (p_mem s) (upd c k (p_calls s)).

  Definition pstep (s : pst) (l : plabel) : pst :=
    match l with
    | PsStore m ep ps => on s m (fst (dp_store ok norm (p_mem s m) ep ps))
    | PsClear m => on s m (dp_clear beta (p_mem s m))
    | PsUpdate m ps idx vers => on s m (fst (dp_update norm (p_mem s m) ps idx vers))
    | PsCall size => MkPst (p_mem s) (p_calls s ++ [MkSc size (fun _ => None) (fun _ => None)])
    | PsWeigh c m =>
        match nth_error (p_calls s) c with
        | None => s
        | Some k =>
            match sc_w k m with
            | Some _ => s
            | None => if (0 <? sc_size k) && (m <? n)                    (* 218-219 *)
                      then with_call s c (MkSc (sc_size k) (pput (sc_w k) m (Some (dp_weight_sum (p_mem s m)))) (sc_ans k))
                      else s
            end
        end
    | PsSample c m us =>
        match nth_error (p_calls s) c with
        | None => s
        | Some k =>
            match waited (sc_w k) 0 n, sc_ans k m with
            | Some ws, None =>
                let all := weight_of_all ws in
                if (0 <? sc_size k) && (m <? n) && (length us =? share (sc_size k) all (nth m ws 0%Qc)) then
                  let (d, a) := dp_sample pw inc (p_mem s m) us all in
                  with_call (on s m d) c (MkSc (sc_size k) (sc_w k) (pput (sc_ans k) m (Some a)))
                else s
            | _, _ => s
            end
        end
    end.
  Definition prun (s : pst) (ls : list plabel) : pst := fold_left pstep ls s.

  (* 247-259; None: still waiting *)
  Fixpoint gather (ans : nat -> option (res (sres T))) (i k : nat) (acc : nat * list T * dindex * list Qc)
    : option (res (nat * list T * dindex * list Qc)) :=
    match k with
    | 0 => Some (Ok acc)
    | S k =>
        match ans i with
        | None => None
        | Some (Err e) => Some (Err e)
        | Some (Ok (len, batch, idx, ver, w)) =>
            gather ans (S i) k
              (if len =? 0 then acc
               else match acc with (al, ab, ai, aw) => (al + len, ab ++ batch, dset i (idx, ver) ai, aw ++ w) end)
        end
    end.
  (* what call c has returned or raised by now, if it has *)
  Definition poutcome (s : pst) (c : nat) : option (res (nat * list T * dindex * list Qc)) :=
    match nth_error (p_calls s) c with
    | None => None
    | Some k => if sc_size k =? 0 then Some (Ok (0, [], [], []))
                else gather (sc_ans k) 0 n (0, [], [], [])
    end.
End PConc.
Arguments pst : clear implicits.
Arguments plabel : clear implicits.
Arguments scall : clear implicits.
