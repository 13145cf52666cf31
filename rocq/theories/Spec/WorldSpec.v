(* What C28-C30 and C56 mean, independently of how the tables are updated. *)
From Verif Require Import Lib.Base Model.World.
Set Implicit Arguments.

(* ---- lookup tables, seen through the requests the manager answered ---- *)
(* p owns key gk of table t after the requests q: p announced it with success
   and nobody withdrew it with success since. *)
Definition owned_by (q : list req) (t : tbl) (gk : gkey) (p : nat) : Prop :=
  exists i, nth_error q i = Some (QSet t gk p true) /\
            forall j w p', i < j -> nth_error q j <> Some (QUnset w t gk p' true).
Definition unowned (q : list req) (t : tbl) (gk : gkey) : Prop := forall p, ~ owned_by q t gk p.

(* the answer to the request that followed q *)
Definition right_answer (q : list req) (r : req) : Prop :=
  match r with
  | QSet t gk p ok => ok = true <-> unowned q t gk
  | QUnset w t gk p ok => ok = true <-> owned_by q t gk p
  | QGet t gk r => match r with Some p => owned_by q t gk p | None => unowned q t gk end
  end.

(* the process on whose behalf step l of s speaks to the manager to withdraw gk *)
Definition withdraws {V} (s : lst V) (l : wlabel V) (t : tbl) (gk : gkey) (p : nat) : Prop :=
  match l with
  | WStep _ i =>
      match nth_error (w_calls s) i with
      | Some (CUnpair1 _ t' o k) =>
          t' = t /\ exists ob, nth_error (w_objs s) o = Some ob /\ o_proc ob = p /\ gk = (o_grp ob, k)
      | Some (CPurge _ t' g k h) => t' = t /\ gk = (g, k) /\ h = p
      | _ => False
      end
  | _ => False
  end.

(* run call number i for c steps without interruption *)
Fixpoint alone {V} (c i : nat) (s : lst V) : lst V :=
  match c with O => s | S c' => alone c' i (wstep s (WStep V i)) end.
Definition call_now {V} (c : nat) (x : call V) (s : lst V) : lst V :=
  alone c (length (w_calls s)) (wstep s (WCall x)).
Definition result {V} (s : lst V) (i : nat) : option (ans V) :=
  match nth_error (w_calls s) i with Some (CDone a) => Some a | _ => None end.

(* object o is the group object that process p currently publishes for g *)
Definition holds {V} (s : lst V) (t : tbl) (o : nat) (ob : obj V) (k : nat) (v : V) : Prop :=
  nth_error (w_objs s) o = Some ob /\ dget k (oget t ob) = Some v.

(* pair, unpair, register and deregister calls that have not returned *)
Definition mutating {V} (c : call V) : option nat :=
  match c with
  | CPair _ o _ _ | CPair1 _ o _ _ | CPair2 _ o _ _ _ => Some o
  | CUnpair _ _ o _ | CUnpair1 _ _ o _ | CUnpair2 _ _ o _ _ => Some o
  | _ => None
  end.
(* executions in which the calls that change one group object do not overlap
   and no failed lookup removes a table entry *)
Definition orderly_label {V} (s : lst V) (l : wlabel V) : Prop :=
  match l with
  | WCall c => match mutating c with
               | Some o => forall i c', nth_error (w_calls s) i = Some c' -> mutating c' <> Some o
               | None => True
               end
  | WStep _ i => match nth_error (w_calls s) i with Some (CPurge _ _ _ _ _) => False | _ => True end
  | _ => True
  end.
Inductive orderly {V} : lst V -> Prop :=
| or_init : orderly (linit V)
| or_step s l : orderly s -> orderly_label s l -> orderly (wstep s l).

(* ---- barrier ---- *)
(* no member m runs between the set() and the clear() done on m's event *)
Definition calm_label (s : bst) (l : blabel) : Prop :=
  match l, b_lead s with BMem m, BExit i E3 => m <> i | _, _ => True end.
(* every member already waits on its event when it is released *)
Definition prompt_label (s : bst) (l : blabel) : Prop :=
  match l, b_lead s with BLead, BExit (S i) E2 => b_pc s (S i) = FWaiting | _, _ => True end.
Fixpoint along (n : nat) (P : bst -> blabel -> Prop) (s : bst) (ls : list blabel) : Prop :=
  match ls with [] => True | l :: r => P s l /\ along n P (bstep n s l) r end.

Definition bar_separates (n : nat) (s : bst) : Prop :=
  forall j m m', m < n -> m' < n -> j <= b_ex s m -> j <= b_ent s m'.

(* ---- group creation ---- *)
Definition creation_waits (n : nat) (s : gst) : Prop :=
  forall j m m', m < n -> m' < n -> j <= g_ret s m -> j <= g_called s m'.
