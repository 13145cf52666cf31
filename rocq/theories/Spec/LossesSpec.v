(* What a projected distribution and a weighted loss should be. *)
From Coq Require Import QArith.
From Verif Require Import Lib.Rat.
Close Scope Q_scope.
Open Scope nat_scope.

(* the share of an atom at distance x (in units of the atom spacing) *)
Definition tent (x : Qc) : Qc := Qcmax 0 (1 - Qcabs x)%Qc.
Definition integral (x : Qc) : Prop := exists z : Z, x = Q2Qc (inject_Z z).

(* where the Bellman image of atom j lies, in units of the spacing, for [n] atoms on [lo, hi]:
   reward + g * atom_j (reward alone when terminal), kept [eps] away from both ends *)
Definition image (lo hi eps g : Qc) (n : nat) (reward : Qc) (terminal : bool) (j : nat) : Qc :=
  let step := ((hi - lo) / (nq n - 1))%Qc in
  let x := if terminal then reward else (reward + g * (lo + nq j * step))%Qc in
  let y := if Qclt_le_dec x (lo + eps) then (lo + eps)%Qc
           else if Qclt_le_dec (hi - eps) x then (hi - eps)%Qc else x in
  ((y - lo) / step)%Qc.

(* mean over samples of weight times loss *)
Definition weighted_mean (w l : list Qc) : Qc :=
  (sumn (fun i => nth i w 0 * nth i l 0)%Qc 0 (length l) / nq (length l))%Qc.
Definition plain_mean (l : list Qc) : Qc := (qsum l / nq (length l))%Qc.
