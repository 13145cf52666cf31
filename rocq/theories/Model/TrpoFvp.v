(* machin/frame/algorithms/trpo.py: _fvp_fim 400-438, get_flat_grad 464-498 (a parameter without gradient counts as zero),
   the step size of update 258-260; machin/model/algorithms/trpo.py: ActorContinuous.get_kl 99-116 for one action
   component, ActorContinuous.get_fim 142-149.

   Simplifications: exact rationals instead of floats. The actor is represented by the Jacobian J of its flattened
   output mu = action_param.view(-1), one row per output component (sample-major), one column per flattened parameter; a
   parameter which does not influence the output has a column of zeros. Automatic differentiation of a linear function is
   the function applied to the unit vectors. np.sqrt is an argument. *)
From Verif Require Import Lib.Rat Model.Trpo.
Set Implicit Arguments.
Local Open Scope Qc_scope.

Section Fvp.
  Variables (n : nat) (J : list vec).                                  (* n flattened parameters *)
  (* get_flat_grad of (u * mu).sum() for a constant u: the sum of u_i times row i (464-498) *)
  Fixpoint jt_rows (rows : list vec) (u : vec) : vec :=
    match rows, u with
    | row :: rows', x :: u' => vadd (scale x row) (jt_rows rows' u')
    | _, _ => repeat 0 n
    end.
  Definition jt (u : vec) : vec := jt_rows J u.
  Definition unit_vec (m i : nat) : vec := map (fun k => if Nat.eqb k i then 1 else 0) (seq 0 m).
  (* 428-433: Jtv = (Jt * vector).sum() is linear in t_; its gradient with respect to t_ *)
  Definition jv (v : vec) : vec := map (fun i => dot (jt (unit_vec (length J) i)) v) (seq 0 (length J)).
  (* 420-438; M from get_fim *)
  Definition fvp_fim (M : vec) (batch_size : nat) (damping : Qc) (v : vec) : vec :=
    let MJv := zipw Qcmult M (jv v) in                                 (* 434 *)
    let JTMJv := map (fun x => x / nq batch_size) (jt MJv) in          (* 435-437 *)
    vadd JTMJv (scale damping v).                                      (* 438 *)
  (* 258-260 *)
  Definition beta_arg (kl_max_delta : Qc) (F : vec -> vec) (step_dir : vec) : Qc :=
    (1 + 1) * kl_max_delta / dot step_dir (F step_dir).
  Definition full_step (sqrt : Qc -> Qc) (kl_max_delta : Qc) (F : vec -> vec) (step_dir : vec) : vec :=
    scale (sqrt (beta_arg kl_max_delta F step_dir)) step_dir.
End Fvp.

Section Gauss.
  Variable exp : Qc -> Qc.
  (* get_fim 142-149: exp(-2 * action_log_std).squeeze(0).repeat(batch_size) *)
  Definition gauss_fim (log_std : vec) (batch_size : nat) : vec :=
    List.concat (repeat (map (fun l => exp (- (1 + 1) * l)) log_std) batch_size).
  (* get_kl 99-116, one action component of one sample *)
  Definition get_kl (mean0 mean1 log_std0 log_std1 : Qc) : Qc :=
    let std1 := exp log_std1 in
    let std0 := exp log_std0 in
    log_std1 - log_std0
    + (std0 * std0 + (mean0 - mean1) * (mean0 - mean1)) / ((1 + 1) * (std1 * std1))
    - 1 / (1 + 1).
End Gauss.
