(* machin/auto/envs/openai_gym.py: RLGymDiscActDataset.__next__ 83-140, RLGymContActDataset.__next__ 192-246;
   machin/auto/dataset.py DatasetResult 71-90; machin/frame/transition.py 279-286 (batch size 1).

   Simplifications: the environment is a state machine given by its reset and step functions (step may raise), the
   frame by its act functions; numbers are rationals; conversion of observations to tensors (dtype, flatten,
   unsqueeze) is part of reset and step; a loop that does not end within the given number of rounds has no result. *)
From Coq Require Import QArith Qcanon.
From Verif Require Import Lib.Base Lib.Rat.
Open Scope nat_scope.
Set Implicit Arguments.

(* ---- frames, tensors, what act functions return ---- *)
Inductive kind := KA2c | KPpo | KSac | KGail | KA3c | KImpala | KDqn | KDqnPer | KDqnApex | KRainbow
                | KDdpg | KDdpgPer | KHddpg | KTd3 | KDdpgApex | KArs | KTrpo | KMaddpg.
Inductive meth := MAct | MDiscNoise | MNoise.
Inductive tensor (X : Type) := Sca (x : X) | Vec (l : list X) | Mat (l : list (list X)).
Arguments Sca {X} _.
Arguments Vec {X} _.
Arguments Mat {X} _.
Inductive ret (X : Type) := Bare (t : tensor X) | Tup (l : list (tensor X)).
Arguments Bare {X} _.
Arguments Tup {X} _.

Section Choice.
  Context {X : Type}.
  (* r[0]: the first element of a tuple, the first row of a tensor *)
  Definition index0 (r : ret X) : res (tensor X) :=
    match r with
    | Tup (t :: _) => Ok t
    | Bare (Mat (x :: _)) => Ok (Vec x)
    | Bare (Vec (x :: _)) => Ok (Sca x)
    | _ => Err EIndex
    end.
  (* a value used where a tensor is needed: a tuple has no item() or detach() *)
  Definition bare (r : ret X) : res (tensor X) := match r with Bare t => Ok t | Tup _ => Err EAttr end.
  Definition unpack2 (r : ret X) : res (tensor X * tensor X) :=
    match r with
    | Tup [a; b] => Ok (a, b)
    | Bare (Mat [a; b]) => Ok (Vec a, Vec b)
    | Bare (Vec [a; b]) => Ok (Sca a, Sca b)
    | Bare (Sca _) => Err EType
    | _ => Err EValue
    end.
  Definition item (t : tensor X) : res X :=
    match t with Sca x => Ok x | Vec [x] => Ok x | Mat [[x]] => Ok x | _ => Err EValue end.

  (* 101-117 and 210-221: the method that is called *)
  Definition disc_meth (k : kind) : option meth :=
    match k with
    | KA2c | KPpo | KSac | KGail | KA3c | KImpala => Some MAct
    | KDqn | KDqnPer | KDqnApex | KRainbow => Some MDiscNoise
    | KDdpg | KDdpgPer | KHddpg | KTd3 | KDdpgApex => Some MDiscNoise
    | KArs => Some MAct
    | KTrpo | KMaddpg => None
    end.
  Definition cont_meth (k : kind) : option meth :=
    match k with
    | KA2c | KPpo | KSac | KGail | KA3c | KImpala => Some MAct
    | KDdpg | KDdpgPer | KHddpg | KTd3 | KDdpgApex => Some MNoise
    | KArs => Some MAct
    | KDqn | KDqnPer | KDqnApex | KRainbow | KTrpo | KMaddpg => None
    end.
  (* 118-124, 222-226: what the environment gets and what is stored *)
  Definition disc_choose (k : kind) (r : ret X) : res (X * tensor X) :=
    match k with
    | KA2c | KPpo | KSac | KGail | KA3c | KImpala =>
        bind (index0 r) (fun t => bind (item t) (fun x => Ok (x, t)))
    | KDdpg | KDdpgPer | KHddpg | KTd3 | KDdpgApex =>
        bind (unpack2 r) (fun tp => bind (item (fst tp)) (fun x => Ok (x, snd tp)))
    | _ => bind (bare r) (fun t => bind (item t) (fun x => Ok (x, t)))
    end.
  Definition cont_choose (k : kind) (r : ret X) : res (tensor X * tensor X) :=
    match k with
    | KArs => bind (bare r) (fun t => Ok (t, t))
    | _ => bind (index0 r) (fun t => Ok (t, t))
    end.

  (* transition.py 279-286: a transition has batch size 1 *)
  Definition size0 (t : tensor X) : option nat :=
    match t with Sca _ => None | Vec l => Some (length l) | Mat l => Some (length l) end.
  Definition accepted (t : tensor X) : bool := match size0 t with Some 1 => true | _ => false end.
  (* torch.cat(l, dim=0) when a batch is sampled *)
  Fixpoint cat (l : list (tensor X)) : res (tensor X) :=
    match l with
    | [] => Err EType
    | [t] => match t with Sca _ => Err EType | _ => Ok t end
    | t :: r => bind (cat r) (fun u => match t, u with
                                       | Vec a, Vec b => Ok (Vec (a ++ b))
                                       | Mat a, Mat b => Ok (Mat (a ++ b))
                                       | _, _ => Err EType
                                       end)
    end.
End Choice.

(* ---- __next__ ---- *)
Section Next.
  Context {E S V X I Img F : Type}.
  Record obs := MkObs { o_s : S; o_a : tensor X; o_n : S; o_r : Qc; o_t : bool }.
  Inductive log := LInfo (i : I) | LVideo (l : list Img) | LTotal (q : Qc).

  Variables (reset : E -> E * S) (step : E -> V -> E * res (S * Qc * bool * I)) (render : E -> Img).
  Variables (act : meth -> bool -> F -> S -> F * res (ret X)).       (* the bool: is_syncing *)
  Variables (meth_of : option meth) (choose : ret X -> res (V * tensor X)).
  Variable manual_sync : F -> F.
  Variable has_sync : bool.                                          (* the frame has manual_sync and set_sync *)

  (* environment, frame, is_syncing *)
  Record world := MkW { w_env : E; w_frame : F; w_sync : bool }.
  Definition set_sync (b : bool) (w : world) : world := if has_sync then MkW (w_env w) (w_frame w) b else w.
  Definition do_manual_sync (w : world) : world := if has_sync then MkW (w_env w) (manual_sync (w_frame w)) (w_sync w) else w.

  (* the local variables of the loop *)
  Record vars := MkV { v_state : S; v_total : Qc; v_obs : list obs; v_logs : list log; v_rend : list Img }.

  (* one round, 94-135; the bool: terminal *)
  Definition round (counter every : nat) (w : world) (v : vars) : world * res (vars * bool) :=
    match every with
    | 0 => (w, Err EZeroDiv)
    | _ =>
        let v := if (counter mod every) =? 0
                 then MkV (v_state v) (v_total v) (v_obs v) (v_logs v) (v_rend v ++ [render (w_env w)]) else v in
        match meth_of with
        | None => (w, Err ERuntime)
        | Some m =>
            let (f, r) := act m (w_sync w) (w_frame w) (v_state v) in
            let w := MkW (w_env w) f (w_sync w) in
            match bind r choose with
            | Err e => (w, Err e)
            | Ok (a, stored) =>
                let (e, r) := step (w_env w) a in
                let w := MkW e (w_frame w) (w_sync w) in
                match r with
                | Err x => (w, Err x)
                | Ok (s', rew, t, i) =>
                    (w, Ok (MkV s' (v_total v + rew)%Qc (v_obs v ++ [MkObs (v_state v) stored s' rew t])
                                (v_logs v ++ [LInfo i]) (v_rend v), t))
                end
            end
        end
    end.
  Fixpoint rounds (fuel counter every : nat) (w : world) (v : vars) : option (world * res vars) :=
    match fuel with
    | 0 => None
    | Datatypes.S fuel =>
        match round counter every w v with
        | (w, Err e) => Some (w, Err e)
        | (w, Ok (v, true)) => Some (w, Ok v)
        | (w, Ok (v, false)) => rounds fuel counter every w v
        end
    end.
  (* the counter after the call, the world, the result (observations, logs) *)
  Definition next (fuel counter every : nat) (w : world) : option (nat * world * res (list obs * list log)) :=
    let (e, s) := reset (w_env w) in
    let w := MkW e (w_frame w) (w_sync w) in
    let w := set_sync false (do_manual_sync w) in
    match rounds fuel counter every w (MkV s 0%Qc [] [] []) with
    | None => None
    | Some (w, Err e) => Some (counter, w, Err e)
    | Some (w, Ok v) =>
        let logs := v_logs v ++ (match v_rend v with [] => [] | l => [LVideo l] end) ++ [LTotal (v_total v)] in
        Some (counter + 1, set_sync true w, Ok (v_obs v, logs))
    end.
End Next.
