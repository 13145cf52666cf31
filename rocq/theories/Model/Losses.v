(* Model of
     machin/frame/algorithms/rainbow.py   RAINBOW.update 225-308 (target distribution, loss)
     machin/frame/algorithms/dqn_per.py   DQNPer.update  126-138 (loss, priorities)
     machin/frame/algorithms/ddpg_per.py  DDPGPer.update 129-133, 153-159.
   Exact rationals instead of floats; networks, the criterion and log are arbitrary functions
   or given data. *)
From Coq Require Import QArith Qround.
From Verif Require Import Lib.Rat.
Close Scope Q_scope.
Open Scope nat_scope.
Set Implicit Arguments.

(* torch floor, ceil and clamp *)
Definition qfloor (x : Qc) : Z := Qfloor (this x).
Definition qceil (x : Qc) : Z := Qceiling (this x).
Definition zq (z : Z) : Qc := Q2Qc (inject_Z z).
Definition clamp (lo hi x : Qc) : Qc := Qcmin (Qcmax x lo) hi.

Fixpoint map2 {A B C} (f : A -> B -> C) (l : list A) (m : list B) : list C :=
  match l, m with a :: l', b :: m' => f a b :: map2 f l' m' | _, _ => [] end.

(* tensor.index_add_(dim=0, index, source) on a vector *)
Fixpoint index_add (t : list Qc) (idx : list Z) (src : list Qc) : res (list Qc) :=
  match idx, src with
  | i :: idx', s :: src' =>
      if ((i <? 0) || (Z.of_nat (length t) <=? i))%Z%bool then Err EIndex
      else let k := Z.to_nat i in index_add (upd k (nth k t 0 + s)%Qc t) idx' src'
  | _, _ => Ok t
  end.

Section Projection.
  Variables (v_min v_max eps gamma_n : Qc).      (* eps is the 1e-6 of line 257; gamma_n = discount ** n *)
  Variable A : nat.                              (* atom_num *)
  (* one row of the batch: value, terminal, target_next_q_dist[i, next_action] *)
  Definition row := (Qc * bool * list Qc)%type.
  (* 232: t.linspace(v_min, v_max, atom_num)[j] *)
  Definition support (j : nat) : Qc := (v_min + nq j * ((v_max - v_min) / (nq A - 1)))%Qc.
  (* 248-254, dqn.py 498-501 *)
  Definition bellman (value : Qc) (terminal : bool) (j : nat) : Qc :=
    (value + gamma_n * (if terminal then 0 else 1) * support j)%Qc.
  (* 257-265 *)
  Definition delta_z : Qc := ((v_max - v_min) / (nq A - 1))%Qc.
  Definition pos (value : Qc) (terminal : bool) (j : nat) : Qc :=
    ((clamp (v_min + eps) (v_max - eps) (bellman value terminal j) - v_min) / delta_z)%Qc.
  (* 246-293; the flat target_dist before the final view(batch_size, atom_num) *)
  Definition project (rows : list row) : res (list Qc) :=
    if A =? 1 then Err EZeroDiv                                          (* 260 *)
    else
      let B := length rows in
      let b := concat (map (fun '(v, t, _) => map (pos v t) (seq 0 A)) rows) in
      let dist := concat (map (fun '(_, _, p) => p) rows) in
      let l := map qfloor b in
      let u := map qceil b in                                            (* 266 *)
      let l_dist := map2 (fun b l => b - zq l)%Qc b l in                  (* 271 *)
      let u_dist := map2 (fun b u => zq u - b)%Qc b u in                  (* 272 *)
      let l_weight := map2 Qcmult u_dist dist in                         (* 273 *)
      let u_weight := map2 Qcmult l_dist dist in                         (* 274 *)
      let offset := concat (map (fun i => repeat (Z.of_nat (i * A)) A) (seq 0 B)) in  (* 279-284 *)
      bind (index_add (repeat 0%Qc (B * A)) (map2 Z.add l offset) l_weight) (fun t1 =>
            index_add t1 (map2 Z.add u offset) u_weight).
End Projection.

(* Tensors of rank one and two with torch's broadcasting multiplication and mean. *)
Inductive ten := V1 (l : list Qc) | V2 (rows : list (list Qc)).
(* [n] against [m]: equal lengths or one of them is 1 *)
Definition bc1 (f : Qc -> Qc -> Qc) (a b : list Qc) : res (list Qc) :=
  if length a =? length b then Ok (map2 f a b)
  else match a, b with
       | [x], _ => Ok (map (f x) b)
       | _, [y] => Ok (map (fun x => f x y) a)
       | _, _ => Err ERuntime
       end.
Fixpoint seqr {X} (l : list (res X)) : res (list X) :=
  match l with
  | [] => Ok []
  | r :: l' => bind r (fun x => bind (seqr l') (fun xs => Ok (x :: xs)))
  end.
Definition bc2 (f : Qc -> Qc -> Qc) (a b : list (list Qc)) : res ten :=
  bind (if length a =? length b then seqr (map2 (bc1 f) a b)
        else match a, b with
             | [x], _ => seqr (map (bc1 f x) b)
             | _, [y] => seqr (map (fun x => bc1 f x y) a)
             | _, _ => Err ERuntime
             end) (fun r => Ok (V2 r)).
Definition rows_of (t : ten) : list (list Qc) := match t with V1 l => [l] | V2 r => r end.
Definition bop (f : Qc -> Qc -> Qc) (a b : ten) : res ten :=
  match a, b with
  | V1 x, V1 y => bind (bc1 f x y) (fun r => Ok (V1 r))
  | _, _ => bc2 f (rows_of a) (rows_of b)
  end.
Definition entries (t : ten) : list Qc := match t with V1 l => l | V2 r => concat r end.
Definition mean (t : ten) : Qc := (qsum (entries t) / nq (length (entries t)))%Qc.
(* t.view([batch_size, 1]) of a vector *)
Definition column (l : list Qc) : ten := V2 (map (fun x => [x]) l).

Section Losses.
  (* rainbow.py 301-303 and 308: sum over atoms of -(target * log(q + 1e-6)), then the weighted mean *)
  Variable lg : Qc -> Qc.
  Definition rb_sample_loss (target q : list Qc) : Qc := qsum (map2 (fun t p => - (t * lg p))%Qc target q).
  Definition rb_loss (targets qs : list (list Qc)) (w : list Qc) : res Qc :=
    bind (bop Qcmult (V1 (map2 rb_sample_loss targets qs)) (column w)) (fun t => Ok (mean t)).
  (* rainbow.py 305 *)
  Definition rb_abs_error (targets qs : list (list Qc)) : list Qc :=
    map (fun l => (Qcabs l + Q2Qc (1 # 1000000))%Qc) (map2 rb_sample_loss targets qs).

  (* dqn_per.py 126-130, ddpg_per.py 129-133: criterion with reduction "none" on [batch,1]
     tensors, times the [batch,1] weights, mean *)
  Variable crit : Qc -> Qc -> Qc.
  Definition per_loss (cur y w : list Qc) : res Qc :=
    bind (bop crit (column cur) (column y)) (fun l =>
    bind (bop Qcmult l (column w)) (fun t => Ok (mean t))).
  (* dqn_per.py 132-138 (with the action values), ddpg_per.py 153-159 (with act_value):
     sum over dim 1 of |value - y| *)
  Definition per_abs_error (v y : list Qc) : res (list Qc) :=
    bind (bop (fun a b => Qcabs (a - b)%Qc) (column v) (column y)) (fun t => Ok (map qsum (rows_of t))).
End Losses.
