(* machin/utils/learning_rate.py gen_learning_rate_func, 29-39. *)
From Verif Require Import Lib.Base.
Set Implicit Arguments.

(* for i in range(len(lr_map) - 1): if lr_map[i][0] <= step < lr_map[i + 1][0]: return lr_map[i][1]
   (30-34); otherwise lr_map[-1][1], which raises for an empty map (35-37) *)
Fixpoint learning_rate {R} (lr_map : list (Z * R)) (step : Z) : res R :=
  match lr_map with
  | [] => Err EIndex
  | (t0, r0) :: rest =>
      match rest with
      | [] => Ok r0
      | (t1, _) :: _ => if ((t0 <=? step) && (step <? t1))%Z then Ok r0 else learning_rate rest step
      end
  end.
