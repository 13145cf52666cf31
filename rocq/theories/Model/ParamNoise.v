(* machin/frame/noise/param_space_noise.py: AdaptiveParamNoise 10-68, _add_perturb_hook 77-132,
   perturb_adjust_hook of perturb_model 251-268.

   Simplifications: different parameters of the module never share storage, so every parameter has
   its own heap of storages; every parameter is a tensor; an operation of autograd that would reject
   an in-place change is not modelled. Parameter values are arbitrary, with an addition. *)
From Verif Require Import Lib.Base Lib.Rat.
Set Implicit Arguments.

Section Noise.
  Context {V : Type}.
  Variable add : V -> V -> V.
  Variable dflt : V.

  (* one parameter: its storages, the one the tensor points to, org_params[name], noisy_params[name] *)
  Record pst := PS { heap : list V; cur : nat; org : option nat; noisy : option nat }.
  Definition module := list pst.
  Definition pvalue (p : pst) : V := nth (cur p) (heap p) dflt.
  Definition values (m : module) : list V := map pvalue m.
  Definition m_new (vs : list V) : module := map (fun v => PS [v] 0 None None) vs.

  Definition is_some {A} (o : option A) : bool := match o with Some _ => true | None => false end.
  Definition org_params (m : module) : bool := existsb (fun p => is_some (org p)) m.      (* truth value of the dict *)
  Definition noisy_params (m : module) : bool := existsb (fun p => is_some (noisy p)) m.

  (* p.set_(q): afterwards p uses the storage of q. A missing entry would raise KeyError;
     it never is missing, see the lemma set_defined in the proofs. *)
  Definition set_ (p : pst) (q : option nat) : pst :=
    match q with Some l => PS (heap p) l (org p) (noisy p) | None => p end.
  (* in-place addition on the storage of p *)
  Definition inplace (p : pst) (d : V) : pst :=
    PS (upd (cur p) (add (pvalue p) d) (heap p)) (cur p) (org p) (noisy p).
  (* 95-101: org_params[n] = p.clone(); p += noise; noisy_params[n] = p.clone() *)
  Definition regenerate (p : pst) (noise : V) : pst :=
    let p1 := PS (heap p ++ [pvalue p]) (cur p) (Some (length (heap p))) None in
    let p2 := inplace p1 noise in
    PS (heap p2 ++ [pvalue p2]) (cur p2) (org p2) (Some (length (heap p2))).

  Fixpoint mapi_ {A B} (f : nat -> A -> B) (i : nat) (l : list A) : list B :=
    match l with [] => [] | a :: r => f i a :: mapi_ f (S i) r end.

  (* perturb_pre_hook, 83-109; the noise is what perturb_gen returned for each parameter *)
  Definition pre_hook (perturb reset : bool) (noise : nat -> V) (m : module) : module :=
    if perturb then
      if (noisy_params m && negb reset)%bool then map (fun p => set_ p (noisy p)) m
      else mapi_ (fun i p => regenerate p (noise i)) 0 m
    else if org_params m then map (fun p => set_ p (org p)) m else m.

  (* perturb_post_hook, 116-124: param_name and param_value are read when the hook runs, after the
     loop has ended, so every hook acts on the last parameter *)
  Fixpoint on_last (f : pst -> pst) (m : module) : module :=
    match m with [] => [] | [p] => [f p] | p :: r => p :: on_last f r end.
  Definition post_hook (m : module) : module :=
    if org_params m then on_last (fun p => set_ p (org p)) m else m.
  (* backward: the hook of every parameter that receives a gradient runs once *)
  Definition backward (grads : list bool) (m : module) : module :=
    fold_left (fun m' (g : bool) => if g then post_hook m' else m') grads m.

  Inductive event :=
  | Forward (perturb reset : bool) (noise : nat -> V)
  | Backward (grads : list bool)
  | Step (delta : nat -> V).                     (* optimizer: in-place update of every parameter *)
  Definition ev_step (m : module) (e : event) : module :=
    match e with
    | Forward p r n => pre_hook p r n m
    | Backward g => backward g m
    | Step d => mapi_ (fun i p => inplace p (d i)) 0 m
    end.
  Definition ev_run (m : module) (es : list event) : module := fold_left ev_step es m.
End Noise.
Arguments pst : clear implicits.
Arguments module : clear implicits.
Arguments event : clear implicits.

Section Adapt.
  Local Open Scope Qc_scope.
  (* AdaptiveParamNoise.adapt, 48-61 *)
  Definition adapt (desired coef distance stddev : Qc) : Qc :=
    if Qcltb desired distance then stddev / coef else stddev * coef.

  Context {Act : Type}.
  Variable dist : Act -> Act -> Qc.
  Variables desired coef : Qc.
  (* tmp_action and the current standard deviation *)
  Record ast := AS { with_noise : option Act; without_noise : option Act; stddev : Qc }.
  (* perturb_adjust_hook, 251-268 *)
  Definition adjust_hook (s : ast) (pass : bool * Act) : ast :=
    let s1 := if fst pass then AS (Some (snd pass)) (without_noise s) (stddev s)
              else AS (with_noise s) (Some (snd pass)) (stddev s) in
    match with_noise s1, without_noise s1 with
    | Some a, Some b => AS None None (adapt desired coef (dist a b) (stddev s1))
    | _, _ => s1
    end.
End Adapt.
