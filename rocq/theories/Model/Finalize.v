(* machin/parallel/util.py Finalize, 12-93: one finalizer object, observed by the process that
   registered it and by processes forked from it. Threads interleave arbitrarily between the
   deletion of the registry entry (atomic) and the rest of __call__ / cancel.

   Simplifications: process ids are never reused; fork does not happen inside the callback. *)
From Verif Require Import Lib.Base.

(* Per process copy: the entry in _finalizer_registry, whether self._key is still set, the number of
   threads that have deleted the entry in __call__ and in cancel and not finished yet. *)
Record pst := P { reg : bool; key : bool; calling : nat; cancelling : nat }.
Record fst_ := St { owner : nat; procs : list (nat * pst); runs : list nat (* pids in which the callback ran *) }.

(* __init__ in process [pid], 18-39 *)
Definition fin_new (pid : nat) : fst_ := St pid [(pid, P true true 0 0)] [].

Inductive ev :=
| Call (p : nat)        (* 56-58: del finalizer_registry[self._key] *)
| Continue (p : nat)    (* 62-74: compare process ids, run the callback, clear the fields *)
| Cancel (p : nat)      (* 80-81: del _finalizer_registry[self._key] *)
| Clear (p : nat)       (* 85-87: clear the fields *)
| Fork (p q : nat)      (* os.fork in p, child q: other threads do not survive *)
| Collected (p : nat).  (* the tracked object is garbage collected: weakref.ref(obj, self) calls
                           self(wr), 26-28; wr is taken for finalizer_registry (44), and "del wr[key]"
                           raises TypeError before anything happens *)

Definition with_proc (s : fst_) (p : nat) (f : pst -> pst) : fst_ :=
  match dget p (procs s) with
  | None => s
  | Some x => St (owner s) (dset p (f x) (procs s)) (runs s)
  end.

Definition step (s : fst_) (e : ev) : fst_ :=
  match e with
  | Call p => with_proc s p (fun x =>
      if (reg x && key x)%bool then P false (key x) (S (calling x)) (cancelling x) else x)
  | Continue p =>
      match dget p (procs s) with
      | Some x =>
          match calling x with
          | 0 => s
          | S n => St (owner s) (dset p (P (reg x) false n (cancelling x)) (procs s))
                      (if owner s =? p then p :: runs s else runs s)
          end
      | None => s
      end
  | Cancel p => with_proc s p (fun x =>
      if (reg x && key x)%bool then P false (key x) (calling x) (S (cancelling x)) else x)
  | Clear p => with_proc s p (fun x =>
      match cancelling x with 0 => x | S n => P (reg x) false (calling x) n end)
  | Fork p q =>
      match dget p (procs s), dget q (procs s) with
      | Some x, None => St (owner s) (dset q (P (reg x) (key x) 0 0) (procs s)) (runs s)
      | _, _ => s
      end
  | Collected p => s
  end.
Definition fin_run (s : fst_) (es : list ev) : fst_ := fold_left step es s.
