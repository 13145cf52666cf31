(* machin/frame/algorithms/trpo.py: _conjugate_gradients 303-337, _line_search 339-370, get_flat_params
   and set_flat_params 440-463, the call of _line_search in update 261-263;
   machin/model/algorithms/trpo.py: ActorContinuous.compare_kl 118-140, ActorDiscrete.get_fim 63-69.

   Simplifications: exact rationals instead of floats; the loss and the KL divergence are functions
   of the parameters; a division by zero (inf / nan in torch) is [None]. *)
From Verif Require Import Lib.Rat.
Set Implicit Arguments.
Local Open Scope Qc_scope.

Definition vec := list Qc.
Fixpoint zipw (f : Qc -> Qc -> Qc) (a b : vec) : vec :=
  match a, b with x :: a', y :: b' => f x y :: zipw f a' b' | _, _ => [] end.
Definition vadd := zipw Qcplus.
Definition vsub := zipw Qcminus.
Definition scale (k : Qc) (a : vec) : vec := map (Qcmult k) a.
Fixpoint dot (a b : vec) : Qc :=
  match a, b with x :: a', y :: b' => x * y + dot a' b' | _, _ => 0 end.

(* a model: its parameter tensors, each flattened *)
Definition get_flat (m : list vec) : vec := List.concat m.                      (* 440-450 *)
Fixpoint set_flat (m : list vec) (v : vec) : list vec :=                        (* 452-463 *)
  match m with
  | [] => []
  | p :: r => firstn (length p) v :: set_flat r (skipn (length p) v)
  end.

Fixpoint half_pow (i : nat) : Qc := match i with O => 1 | S j => half_pow j * (1 / (1 + 1)) end.

Section LineSearch.
  Variables (loss kl : list vec -> Qc) (kl_max_delta : Qc) (full_step : vec).
  (* 343-370; [i] is the next exponent, [n] the number of fractions left *)
  Fixpoint search (flat : vec) (loss0 : Qc) (m : list vec) (i n : nat) : list vec * bool :=
    match n with
    | O => (set_flat m flat, false)                                             (* 369-370 *)
    | S n' =>
        let m' := set_flat m (vadd flat (scale (half_pow i) full_step)) in
        if (Qcleb (kl m') kl_max_delta && Qcltb 0 (loss0 - loss m'))%bool then (m', true)
        else search flat loss0 m' (S i) n'
    end.
  Definition line_search (m : list vec) (max_backtracks : nat) : list vec * bool :=
    search (get_flat m) (loss m) m 0 max_backtracks.
  (* 261-263: line_search_backtracks is not passed, the default of 10 (341) is used *)
  Definition update_search (line_search_backtracks : nat) (m : list vec) : list vec * bool :=
    line_search m 10.
End LineSearch.

Section CG.
  Variables (Avp_f : vec -> vec) (eps res_threshold : Qc).
  Definition qdiv (a b : Qc) : option Qc := if Qc_eq_dec b 0 then None else Some (a / b).
  (* 322-336 *)
  Fixpoint cg_loop (n : nat) (x r p : vec) (rr : Qc) : option vec :=
    match n with
    | O => Some x
    | S n' =>
        let Avp := Avp_f p in
        match qdiv rr (dot p Avp + eps) with
        | Some alpha =>
            let x' := vadd x (scale alpha p) in
            let r' := vsub r (scale alpha Avp) in
            let rr' := dot r' r' in
            match qdiv rr' (rr + eps) with
            | Some beta =>
                if Qcltb rr' res_threshold then Some x'
                else cg_loop n' x' r' (vadd r' (scale beta p)) rr'
            | None => None
            end
        | None => None
        end
    end.
  Definition conjugate_gradients (b : vec) (iterations : nat) : option vec :=
    cg_loop iterations (map (fun _ => 0) b) b b (dot b b).
End CG.

Section Kl.
  Variable exp : Qc -> Qc.
  (* ActorContinuous.compare_kl for one sample, 118-140. action_log_std.expand_as is a view of the
     parameter, so log_std1 shows the new value once the new parameters are written back (128);
     std1 was computed before (126), std0 from log_std1 afterwards (132). *)
  Definition kl_term (mean_old mean_new ls_old ls_new : Qc) : Qc :=
    let log_std1 := ls_new in
    let log_std0 := ls_new in
    let std1 := exp ls_old in
    let std0 := exp log_std1 in
    log_std1 - log_std0
    + (std0 * std0 + (mean_new - mean_old) * (mean_new - mean_old)) / ((1 + 1) * (std1 * std1))
    - 1 / (1 + 1).
  Definition term (d : Qc * Qc * (Qc * Qc)) : Qc :=
    kl_term (fst (fst d)) (snd (fst d)) (fst (snd d)) (snd (snd d)).
  (* sum over the action dimensions: ((old mean, new mean), (old log std, new log std)) *)
  Definition compare_kl (dims : list (Qc * Qc * (Qc * Qc))) : Qc := qsum (map term dims).
End Kl.
(* ActorDiscrete.get_fim, 63-69, with action_param = probability + 1e-6 (30) *)
Definition get_fim (action_param : vec) : vec := action_param.
