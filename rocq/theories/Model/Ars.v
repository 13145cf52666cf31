(* Model of machin/frame/algorithms/ars.py: RunningStat 24-129, MeanStdFilter 132-242,
   SharedNoiseSampler 245-268, ARS.__init__ 325-411 (work split, noise checks, seeds),
   ARS.act 459-468 (filters), ARS.update 504-601, _get_reward_and_delta 610-623,
   _cal_gradient 625-638, _sync_filter 640-655.
   Simplifications: exact rationals instead of float64; one component of a state or parameter
   (all tensor operations here act component-wise); one state name k; square root, np.std and
   the noise values are arbitrary functions; pair/get_paired hand over the current value. *)
From Coq Require Import QArith.
From Verif Require Import Lib.Rat Model.Losses.
Close Scope Q_scope.
Open Scope nat_scope.
Set Implicit Arguments.

(* 24-56 *)
Record rstat := RS { rn : nat; rM : Qc; rS : Qc }.
Definition rs_new : rstat := RS 0 0%Qc 0%Qc.
(* 58-75 *)
Definition push (r : rstat) (x : Qc) : rstat :=
  let n_old := rn r in
  let n := S n_old in
  if n =? 1 then RS n x (rS r)
  else let delta := (x - rM r)%Qc in
       RS n (rM r + delta / nq n)%Qc (rS r + delta * delta * nq n_old / nq n)%Qc.
Definition pushes (r : rstat) (xs : list Qc) : rstat := fold_left push xs r.
(* 77-100; None stands for the NaN tensors of 0 / 0 *)
Definition merge (a b : rstat) : option rstat :=
  let n1 := rn a in let n2 := rn b in let n := n1 + n2 in
  if n =? 0 then None
  else let delta := (rM a - rM b)%Qc in
       Some (RS n ((nq n1 * rM a + nq n2 * rM b) / nq n)%Qc
                  (rS a + rS b + delta * delta * nq n1 * nq n2 / nq n)%Qc).
(* 112-122 *)
Definition mean (r : rstat) : Qc := rM r.
Definition var (r : rstat) : Qc := if 1 <? rn r then (rS r / (nq (rn r) - 1))%Qc else (rM r * rM r)%Qc.

Section Filter.
  Variable D : Type.                 (* values of the std tensor *)
  Variable sd : Qc -> D.             (* sqrt, then 210: below 1e-7 becomes inf *)
  Variable d_one : D.

  (* self.mean is either its own tensor or, after apply_stats, the very tensor rs._M *)
  Inductive mref := Own (v : Qc) | Alias.
  Record filt := F { f_rs : rstat; f_local : rstat; f_mean : mref; f_std : D }.
  (* 135-158 *)
  Definition f_new : filt := F rs_new rs_new (Own 0%Qc) d_one.
  Definition used_mean (f : filt) : Qc := match f_mean f with Own v => v | Alias => rM (f_rs f) end.
  (* assigning a new object to rs, or a new tensor to rs._M, leaves self.mean with the old tensor *)
  Definition rebind (f : filt) (r : rstat) : filt := F r (f_local f) (Own (used_mean f)) (f_std f).
  (* 160-162 *)
  Definition clear_local (f : filt) : filt := F (f_rs f) rs_new (f_mean f) (f_std f).
  (* 173-183 *)
  Definition collect (f : filt) (other : filt) : option filt :=
    match merge (f_rs f) (f_local other) with Some r => Some (rebind f r) | None => None end.
  (* 185-197 *)
  Definition sync (f other : filt) : filt :=
    let g := rebind f (f_rs other) in F (f_rs g) (f_local other) (f_mean g) (f_std g).
  (* 199-210 *)
  Definition apply_stats (f : filt) : filt := F (f_rs f) (f_local f) Alias (sd (var (f_rs f))).
  (* 212-236: new filter, and the mean and std used for the normalisation (x - mean) / (std + 1e-8) *)
  Definition filter_call (f : filt) (x : Qc) (update : bool) : filt * (Qc * D) :=
    let g := if update
             then F (push (f_rs f) x) (push (f_local f) x) (f_mean f) (f_std f)  (* in place: alias kept *)
             else f in
    (g, (used_mean g, f_std g)).

  Inductive fop := Filter (x : Qc) (update : bool) | Apply.
  Fixpoint frun (f : filt) (ops : list fop) : filt :=
    match ops with
    | [] => f
    | Filter x u :: r => frun (fst (filter_call f x u)) r
    | Apply :: r => frun (apply_stats f) r
    end.

  (* one member's self.filter.get(k); 461-463: created by the first act *)
  Definition member := option filt.
  Definition act (m : member) (x : Qc) : member :=
    Some (fst (filter_call (match m with Some f => f | None => f_new end) x true)).
  Definition acts (m : member) (xs : list Qc) : member := fold_left act xs m.

  (* 580-581: collect over all members; a member without the key raises KeyError *)
  Inductive cres := CErr | CNan | COk (f : filt).
  Fixpoint collect_all (f : filt) (ms : list member) : cres :=
    match ms with
    | [] => COk f
    | None :: _ => CErr
    | Some g :: r => match collect f g with Some f' => collect_all f' r | None => CNan end
    end.
  (* 649-651 in one worker *)
  Definition sync_worker (mf : member) (w : member) : res member :=
    match w with
    | None => Ok None
    | Some f => match mf with None => Err EKey | Some g => Ok (Some (apply_stats (sync f g))) end
    end.
  Fixpoint sync_all (mf : member) (ws : list member) : res (list member) :=
    match ws with
    | [] => Ok []
    | w :: r => bind (sync_worker mf w) (fun w' => bind (sync_all mf r) (fun r' => Ok (w' :: r')))
    end.
  (* 571-583, 593-594: filters during one ARS.update, the manager being the first member *)
  Definition filter_round (ms : list member) : res (list member) :=
    match ms with
    | [] => Ok []
    | mg :: ws =>
        match mg with
        | None => bind (sync_all None ws) (fun ws' => Ok (None :: ws'))
        | Some f =>
            match collect_all f ms with
            | CErr => Err EKey
            | CNan => Err EOther
            | COk f' => let g := clear_local (apply_stats f') in
                        bind (sync_all (Some g) ws) (fun ws' => Ok (Some g :: ws'))
            end
        end
    end.
  (* rounds of acting (one observation list per member) followed by update *)
  Fixpoint rounds (ms : list member) (h : list (list (list Qc))) : res (list member) :=
    match h with
    | [] => Ok ms
    | o :: r => bind (filter_round (map2 acts ms o)) (fun ms' => rounds ms' r)
    end.
End Filter.

(* 334-340; rollout_num - local_rollout_min may be negative *)
Definition segment_length (rollout_num w_num : nat) : nat := (rollout_num + w_num - 1) / w_num.
Definition local_rollout_min (rollout_num w_num w_index : nat) : nat := w_index * segment_length rollout_num w_num.
Definition local_rollout_num (rollout_num w_num w_index : nat) : Z :=
  Z.min (Z.of_nat (segment_length rollout_num w_num))
        (Z.of_nat rollout_num - Z.of_nat (local_rollout_min rollout_num w_num w_index)).
(* 400-401, 611: range of a negative number is empty *)
Definition local_rollouts (rollout_num w_num w_index : nat) : list nat :=
  map (fun lrn => lrn + local_rollout_min rollout_num w_num w_index)
      (seq 0 (Z.to_nat (local_rollout_num rollout_num w_num w_index))).
(* 399-408: (rollout, parameter index, seed) of the samplers one worker creates *)
Definition local_seeds (sample_seed rollout_num w_num param_num w_index : nat) : list (nat * nat * nat) :=
  flat_map (fun r_idx => map (fun p_idx => (r_idx, p_idx, sample_seed + r_idx * param_num + p_idx)) (seq 0 param_num))
           (local_rollouts rollout_num w_num w_index).

(* 373-388 *)
Inductive check := CkFine | CkWarn | CkRaise.
Definition noise_check (param_max noise_size : nat) : check :=
  if noise_size <? param_max * 10 then CkWarn
  else if noise_size <=? param_max then CkRaise
  else CkFine.
(* 256-268; [idx] is what RandomState.randint returns *)
Definition noise_get {A} (noise : list A) (idx size : nat) : list A := firstn size (skipn idx noise).
Definition noise_sample {A} (noise : list A) (size idx : nat) : res (nat * list A) :=
  if length noise + 1 <=? size then Err EValue            (* randint: low >= high *)
  else Ok (idx, noise_get noise idx size).

(* np.sort *)
Fixpoint qinsert (x : Qc) (l : list Qc) : list Qc :=
  match l with [] => [x] | y :: r => if Qcleb x y then x :: l else y :: qinsert x r end.
Fixpoint qsort (l : list Qc) : list Qc := match l with [] => [] | x :: r => qinsert x (qsort r) end.
(* np.percentile(l, 100 * q), linear interpolation *)
Definition percentile (l : list Qc) (q : Qc) : Qc :=
  let s := qsort l in
  let h := ((nq (length l) - 1) * q)%Qc in
  let lo := Z.to_nat (qfloor h) in
  let hi := Nat.min (lo + 1) (length l - 1) in
  (nth lo s 0 + (nth hi s 0 - nth lo s 0) * (h - zq (qfloor h)))%Qc.
(* 543-552 *)
Definition selected (used rollout_num : nat) (max_rewards : list Qc) : list nat :=
  let th := percentile max_rewards (1 - nq used / nq rollout_num)%Qc in
  filter (fun i => Qcleb th (nth i max_rewards 0%Qc)) (seq 0 (length max_rewards)).

Definition qmean (l : list Qc) : Qc := (qsum l / nq (length l))%Qc.
Section Update.
  Variable reward : nat -> list Qc * list Qc.       (* self.reward of the worker that owns the rollout: negative, positive *)
  Variable delta : nat -> nat.                      (* self.delta_idx[r][name] *)
  Variable noise : list Qc.
  Variable scale : list Qc -> Qc.                   (* np.std, or 1 when that is close to 0 (557-559) *)
  (* 610-623 *)
  Fixpoint get_reward_and_delta (r_range : list nat) : res (list Qc * list Qc * list nat) :=
    match r_range with
    | [] => Ok ([], [], [])
    | i :: r =>
        match reward i with
        | ([], _) | (_, []) => Err EAssert
        | (neg, pos) =>
            bind (get_reward_and_delta r) (fun '(p, n, d) => Ok (qmean pos :: p, qmean neg :: n, delta i :: d))
        end
    end.
  (* 529-539, in member order *)
  Fixpoint gather (rollout_num w_num : nat) (ws : list nat) : res (list Qc * list Qc * list nat) :=
    match ws with
    | [] => Ok ([], [], [])
    | w :: r =>
        bind (get_reward_and_delta (local_rollouts rollout_num w_num w)) (fun '(p, n, d) =>
        bind (gather rollout_num w_num r) (fun '(p', n', d') => Ok (p ++ p', n ++ n', d ++ d')))
    end.
  (* 529-565, 625-638: gradient of element [e] of a parameter of [size] elements *)
  Definition gradient (used rollout_num w_num size e : nat) : res Qc :=
    bind (gather rollout_num w_num (seq 0 w_num)) (fun '(pos, neg, d) =>
      let mx := map2 Qcmax pos neg in
      let idx := selected used rollout_num mx in
      let d' := map (fun i => nth i d 0) idx in
      let pos' := map (fun i => nth i pos 0%Qc) idx in
      let neg' := map (fun i => nth i neg 0%Qc) idx in
      let sc := scale (pos' ++ neg') in
      let diff := map2 (fun n p => n / sc - p / sc)%Qc neg' pos' in
      Ok (qmean (map2 (fun rd k => nth e (noise_get noise k size) 0 * rd)%Qc diff d'))).
End Update.
