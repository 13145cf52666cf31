(* Model of machin/frame/algorithms/utils.py soft_update (8-27) and hard_update (30-42) and of
   the target network bookkeeping of the frameworks: dqn.py 167-213 and 460-467 (mode "double"),
   dqn_per.py 150-157, rainbow.py 318-326, ddpg.py 452-461, ddpg_per.py 171-180,
   td3.py 243-254, sac.py 370-379, which differ only in the number of tracked networks.
   A parameter or buffer is a flat vector; copying between different shapes (broadcast or
   error in torch) is an error here.  In DQN mode "vanilla" target and online network are one
   object, which is not modelled. *)
From Verif Require Import Lib.Rat Model.Losses.
Open Scope nat_scope.
Set Implicit Arguments.

Record net := MkNet { n_params : list (list Qc); n_bufs : list (list Qc) }.

(* for target_param, param in zip(...): target_param.data.copy_(f target_param param);
   an error leaves the earlier ones changed *)
Fixpoint copy_zip (f : Qc -> Qc -> Qc) (ts ss : list (list Qc)) : list (list Qc) * res unit :=
  match ts, ss with
  | t :: ts', s :: ss' =>
      if length t =? length s
      then let (r, e) := copy_zip f ts' ss' in (map2 f t s :: r, e)
      else (ts, Err ERuntime)
  | _, _ => (ts, Ok tt)                              (* zip stops at the shorter; the rest stays *)
  end.
(* utils.py 8-27; buffers are not touched *)
Definition soft_update (rate : Qc) (t s : net) : net * res unit :=
  let (p, e) := copy_zip (fun x y => x * (1 - rate) + y * rate)%Qc (n_params t) (n_params s) in
  (MkNet p (n_bufs t), e).
(* utils.py 30-42 *)
Definition hard_update (t s : net) : net * res unit :=
  let (b, e1) := copy_zip (fun _ y => y) (n_bufs t) (n_bufs s) in
  match e1 with
  | Err _ => (MkNet (n_params t) b, e1)
  | Ok _ => let (p, e2) := copy_zip (fun _ y => y) (n_params t) (n_params s) in (MkNet p b, e2)
  end.

(* every tracked pair in turn *)
Fixpoint all_pairs (f : net -> net -> net * res unit) (ts ss : list net) : list net * res unit :=
  match ts, ss with
  | t :: ts', s :: ss' =>
      match f t s with
      | (t', Ok _) => let (r, e) := all_pairs f ts' ss' in (t' :: r, e)
      | (t', Err e) => (t' :: ts', Err e)
      end
  | _, _ => (ts, Ok tt)
  end.

Record frame := MkFr { f_online : list net; f_target : list net; f_count : nat }.
Section Frame.
  Variables (rate : option Qc) (steps : option nat).    (* update_rate, update_steps *)
  (* dqn.py 179-184 and 199-200: the online networks are overwritten with the target ones *)
  Definition fr_new (online target : list net) : frame * res unit :=
    match rate, steps with
    | Some _, Some _ => (MkFr online target 0, Err EValue)
    | _, _ => let (o, e) := all_pairs hard_update online target in (MkFr o target 0, e)
    end.
  (* one update(): the optimizer turns the online networks into [online'] (arbitrary), then,
     when update_target is set, the targets follow *)
  Definition fr_update (st : frame) (x : list net * bool) : frame * res unit :=
    let (online', flag) := x in
    if flag then
      match rate with
      | Some r => let (t, e) := all_pairs (soft_update r) (f_target st) online' in (MkFr online' t (f_count st), e)
      | None =>
          let c := f_count st + 1 in
          match steps with
          | None => (MkFr online' (f_target st) c, Err EType)
          | Some 0 => (MkFr online' (f_target st) c, Err EZeroDiv)
          | Some k =>
              if c mod k =? 0
              then let (t, e) := all_pairs hard_update (f_target st) online' in (MkFr online' t c, e)
              else (MkFr online' (f_target st) c, Ok tt)
          end
      end
    else (MkFr online' (f_target st) (f_count st), Ok tt).
  (* a caller that ignores errors *)
  Definition fr_run (st : frame) (xs : list (list net * bool)) : frame :=
    fold_left (fun s x => fst (fr_update s x)) xs st.
End Frame.
