(* What the targets should be, as closed formulas over an episode. *)
From Verif Require Import Lib.Rat Model.Returns.
Open Scope nat_scope.
Set Implicit Arguments.

Section Spec.
  Context {S : Type}.
  Variable t0 : tr S.                                   (* only a default for nth *)
  Notation "ep @ i" := (nth i ep t0) (at level 9).

  (* sum of g^k * reward of step i+k, for the m steps from i on *)
  Definition disc_sum (g : Qc) (ep : list (tr S)) (i m : nat) : Qc :=
    sumn (fun k => (Qcpower g k * tr_r (ep @ (i + k)))%Qc) 0 m.

  (* product of f a .. f (a+n-1) *)
  Fixpoint prodn (f : nat -> Qc) (a n : nat) : Qc :=
    match n with O => 1%Qc | Datatypes.S m => (f a * prodn f (Datatypes.S a) m)%Qc end.

  (* one step temporal difference, bootstrapping with the value of next_state unless terminal *)
  Definition td (g : Qc) (V : S -> Qc) (t : tr S) : Qc :=
    (tr_r t + (if tr_t t then 0 else g * V (tr_n t)) - V (tr_s t))%Qc.
  (* generalized advantage of step i *)
  Definition gae (g l : Qc) (V : S -> Qc) (ep : list (tr S)) (i : nat) : Qc :=
    sumn (fun k => (Qcpower (g * l) k * td g V (ep @ (i + k)))%Qc) 0 (length ep - i).
  (* the same with the last step of the episode taken to be terminal, whatever its flag says *)
  Definition cut (ep : list (tr S)) : list (tr S) :=
    map (fun k => let t := ep @ k in
                  MkTr (tr_s t) (tr_n t) (tr_r t) (tr_t t || Nat.eqb (k + 1) (length ep)) (tr_value t) (tr_gae t) (tr_len t))
        (seq 0 (length ep)).

  (* consecutive steps; the critic sees next_state and the following state alike *)
  Definition chained (V : S -> Qc) (ep : list (tr S)) : Prop :=
    forall i, i + 1 < length ep -> V (tr_n (ep @ i)) = V (tr_s (ep @ (i + 1))).
  (* no terminal flag before the last step *)
  Definition no_early_end (ep : list (tr S)) : Prop :=
    forall i, i + 1 < length ep -> tr_t (ep @ i) = false.
  Definition ends_terminal (ep : list (tr S)) : Prop := tr_t (ep @ (length ep - 1)) = true.

  (* the two episodes differ at most in the attribute the code writes *)
  Definition same_but_value (a b : tr S) : Prop := b = set_value (tr_value b) a.
  Definition same_but_value_gae (a b : tr S) : Prop := b = set_gae (tr_gae b) (set_value (tr_value b) a).

  (* V-trace (Espeholt et al. 2018, equation 1) for step s of one episode:
     V(x_s) + sum_t g^(t-s) (c_s .. c_{t-1}) delta_t *)
  Definition vtrace (g : Qc) (v c d : nat -> Qc) (len s : nat) : Qc :=
    (v s + sumn (fun k => Qcpower g k * prodn c s k * d (s + k)%nat) 0 (len - s))%Qc.

  (* clipped importance weight, and the weighted temporal difference *)
  Definition clipped (bound x : Qc) : Qc := if Qclt_le_dec x bound then x else bound.
  Definition wtd (g rho : Qc) (V : S -> Qc) (t : tr S) : Qc := (rho * td g V t)%Qc.
  (* V-trace target of step s of one episode *)
  Definition vtrace_of (g bc br : Qc) (V : S -> Qc) (sim : tr S -> Qc) (ep : list (tr S)) (s : nat) : Qc :=
    vtrace g (fun k => V (tr_s (ep @ k))) (fun k => clipped bc (sim (ep @ k)))
             (fun k => wtd g (clipped br (sim (ep @ k))) V (ep @ k)) (length ep) s.
  (* where episode j of a chained batch starts *)
  Definition start (eps : list (list (tr S))) (j : nat) : nat := length (concat (firstn j eps)).
End Spec.
