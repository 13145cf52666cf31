(* What parameter noise is meant to do, without storages: the unperturbed parameters change only by
   optimizer steps; a perturbed pass uses the noisy parameters generated last, generating new ones
   (unperturbed + noise) if the reset switch is on or there are none yet. *)
From Verif Require Import Lib.Base Model.ParamNoise.
Set Implicit Arguments.

Section S.
  Context {V : Type}.
  Variable add : V -> V -> V.
  Fixpoint add_all (i : nat) (vs : list V) (d : nat -> V) : list V :=
    match vs with [] => [] | v :: r => add v (d i) :: add_all (S i) r d end.
  (* unperturbed parameters, noisy parameters generated last *)
  Definition spec_step (s : list V * option (list V)) (e : event V) : list V * option (list V) :=
    match e with
    | Forward true reset noise =>
        match snd s with
        | Some w => if reset then (fst s, Some (add_all 0 (fst s) noise)) else s
        | None => (fst s, Some (add_all 0 (fst s) noise))
        end
    | Forward false _ _ | Backward _ => s
    | Step d => (add_all 0 (fst s) d, snd s)
    end.
  Definition spec_run (vs : list V) (es : list (event V)) := fold_left spec_step es (vs, None).
  (* what a forward pass right after the history [es] has to use *)
  Definition must_use (vs : list V) (es : list (event V)) (perturb reset : bool) (noise : nat -> V) : list V :=
    let s := spec_step (spec_run vs es) (Forward perturb reset noise) in
    if perturb then match snd s with Some w => w | None => [] end else fst s.

  (* Usage under which the hooks work: noise is regenerated and the optimizer runs only when the
     last forward pass was unperturbed (or, with a single parameter, after a backward pass). *)
  Fixpoint careful (single perturbed : bool) (es : list (event V)) : Prop :=
    match es with
    | [] => True
    | Forward true reset _ :: r => (reset = true -> perturbed = false) /\ careful single true r
    | Forward false _ _ :: r => careful single false r
    | Backward g :: r => careful single (perturbed && negb (single && existsb (fun b => b) g)) r
    | Step _ :: r => perturbed = false /\ careful single false r
    end.
End S.
