(* machin/frame/algorithms/trpo.py: _fvp_direct 372-398, the choice of the product in update 232-236;
   machin/model/algorithms/trpo.py: ActorDiscrete.get_kl 41-46, ActorContinuous.get_kl 99-116.

   t.autograd.grad(kl, ..., create_graph=True) followed by t.autograd.grad((flat_grad_kl * vector).sum(), ...) is modelled
   by numbers a + b e1 + c e2 + d e1 e2 with e1^2 = e2^2 = 0: computed at the parameters theta + e1 x + e2 v, the
   coefficient of e1 e2 is the second derivative in the directions x and v; component k of the result takes the unit
   vector k for x.  The actor's output is given by its value mu, its Jacobian J (rows as in TrpoFvp.v) and its second
   derivatives S2, which are arbitrary.  Exact rationals; exp and log are arguments. *)
From Verif Require Import Lib.Rat Model.Trpo Model.TrpoFvp.
Set Implicit Arguments.
Local Open Scope Qc_scope.

Record bd := Bd { re : Qc; d1 : Qc; d2 : Qc; d12 : Qc }.
Definition bconst (x : Qc) : bd := Bd x 0 0 0.
Definition detach (x : bd) : bd := bconst (re x).
Definition badd (x y : bd) : bd := Bd (re x + re y) (d1 x + d1 y) (d2 x + d2 y) (d12 x + d12 y).
Definition bsub (x y : bd) : bd := Bd (re x - re y) (d1 x - d1 y) (d2 x - d2 y) (d12 x - d12 y).
Definition bmul (x y : bd) : bd :=
  Bd (re x * re y) (re x * d1 y + d1 x * re y) (re x * d2 y + d2 x * re y)
     (re x * d12 y + d1 x * d2 y + d2 x * d1 y + d12 x * re y).
(* f(x) for a function with derivatives f1, f2 at re x *)
Definition bfun (f f1 f2 : Qc) (x : bd) : bd := Bd f (f1 * d1 x) (f1 * d2 x) (f1 * d12 x + f2 * (d1 x * d2 x)).
Definition binv (x : bd) : bd := bfun (/ re x) (- (/ (re x * re x))) ((1 + 1) / (re x * re x * re x)) x.
Definition bdiv (x y : bd) : bd := bmul x (binv y).
Definition bsum (l : list bd) : bd := fold_right badd (bconst 0) l.

Section Direct.
  Variables exp log : Qc -> Qc.
  Definition bexp (x : bd) : bd := bfun (exp (re x)) (exp (re x)) (exp (re x)) x.
  Definition blog (x : bd) : bd := bfun (log (re x)) (/ re x) (- (/ (re x * re x))) x.

  (* model/algorithms/trpo.py 101-115, one action component of one sample *)
  Definition kl_gauss (mean1 log_std1 : bd) : bd :=
    let mean0 := detach mean1 in
    let log_std0 := detach log_std1 in
    let std1 := bexp log_std1 in
    let std0 := detach std1 in
    let diff := bsub mean0 mean1 in
    bsub (badd (bsub log_std1 log_std0)
               (bdiv (badd (bmul std0 std0) (bmul diff diff)) (bmul (bconst (1 + 1)) (bmul std1 std1))))
         (bconst (1 / (1 + 1))).
  (* 43-45, one action of one sample *)
  Definition kl_cat (prob1 : bd) : bd :=
    let prob0 := detach prob1 in
    bmul prob0 (blog (bdiv prob0 prob1)).

  Variables (n : nat) (mu : vec) (J : list vec) (S2 : nat -> vec -> vec -> Qc).
  (* self.action_param.view(-1) at theta + e1 x + e2 v *)
  Definition out (x v : vec) : list bd :=
    map (fun i => Bd (nth i mu 0) (dot (nth i J []) x) (dot (nth i J []) v) (S2 i x v)) (seq 0 (length J)).
  (* action_log_std: the first parameter of a continuous actor *)
  Definition log_stds (ls : vec) (x v : vec) : list bd :=
    map (fun a => Bd (nth a ls 0) (nth a x 0) (nth a v 0) 0) (seq 0 (length ls)).
  (* 116 and frame/algorithms/trpo.py 386: sum over the actions, mean over the batch *)
  Definition mean_kl_gauss (ls : vec) (batch_size : nat) (x v : vec) : bd :=
    bdiv (bsum (map (fun q => kl_gauss (snd q) (nth (Nat.modulo (fst q) (length ls)) (log_stds ls x v) (bconst 0)))
                    (combine (seq 0 (length J)) (out x v))))
         (bconst (nq batch_size)).
  Definition mean_kl_cat (batch_size : nat) (x v : vec) : bd :=
    bdiv (bsum (map kl_cat (out x v))) (bconst (nq batch_size)).
  (* 385-398.  used: the parameters that kl depends on; grad() without allow_unused raises for others *)
  Definition fvp_direct (used : list bool) (kl : vec -> vec -> bd) (damping : Qc) (v : vec) : res vec :=
    if forallb (fun b => b) used
    then Ok (vadd (map (fun k => d12 (kl (unit_vec n k) v)) (seq 0 n)) (scale damping v))
    else Err ERuntime.
End Direct.
