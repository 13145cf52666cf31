(* machin/frame/noise/action_space_noise.py 12-171 and machin/frame/noise/generator.py 33-203.

   Simplifications: exact rationals; a tensor is the list of rows of view(-1, shape[-1]), so every
   other dimension is flattened; t.rand and t.randn (dist.sample) are given by the caller, the former
   with entries in [0, 1); devices are ignored; inner parameters are tuples. *)
From Verif Require Import Lib.Base Lib.Rat.
Set Implicit Arguments.

Definition tensor := list (list Qc).
(* t.view(-1, t.shape[-1])[:, i] = f(...) *)
Definition column (i : nat) (f : Qc -> Qc) (t : tensor) : tensor :=
  map (fun row => match nth_error row i with Some x => upd i (f x) row | None => row end) t.
Definition each2 (f : Qc -> Qc -> Qc) (a b : tensor) : tensor :=
  map (fun p => map (fun q => f (fst q) (snd q)) (combine (fst p) (snd p))) (combine a b).

(* noise_param: a tuple of numbers, or one tuple per column *)
Inductive param (P : Type) := One (p : P) | Each (ps : list P).
Arguments One {P}. Arguments Each {P}.

(* 36-53, 81-100 without the clamp, 126-140: the two branches *)
Definition scaled {P} (cols : nat) (action noise1 noise2 : tensor) (f : P -> Qc -> Qc) (param : param P) (ratio : Qc)
  : res tensor :=
  match param with
  | Each [] => Err EIndex
  | Each ps =>
      if length ps =? cols then
        let noise := fold_left (fun n i => match nth_error ps i with
                                           | Some p => column i (f p) n
                                           | None => n
                                           end) (seq 0 cols) noise2 in
        Ok (each2 (fun a n => a + n * ratio)%Qc action noise)
      else Err EValue
  | One p => Ok (each2 (fun a n => a + n * ratio)%Qc action (map (map (f p)) noise1))
  end.

(* 12-53 *)
Definition add_uniform (cols : nat) (action rand : tensor) (param : param (Qc * Qc)) (ratio : Qc) : res tensor :=
  scaled cols action rand rand (fun p x => x * (snd p - fst p) + fst p)%Qc param ratio.
(* 56-100: mean, sigma, clip_min, clip_max; the results of clamp (91, 99) are thrown away *)
Definition add_clipped (cols : nat) (action rand : tensor) (param : param (Qc * Qc * Qc * Qc)) (ratio : Qc) : res tensor :=
  scaled cols action rand rand
    (fun p x => let '(mu, sigma, lo, hi) := p in x * (sigma - mu) + mu)%Qc param ratio.
(* 103-140: t.rand in the second branch (138) *)
Definition add_normal (cols : nat) (action rand randn : tensor) (param : param (Qc * Qc)) (ratio : Qc) : res tensor :=
  scaled cols action rand randn (fun p x => x * snd p + fst p)%Qc param ratio.

(* generator.py 64-98: dist.sample of Normal(mu, sigma) *)
Definition gen_clipped (mu sigma lo hi : Qc) (randn : list Qc) : list Qc := map (fun z => mu + sigma * z)%Qc randn.
(* 107-132: dist.sample of Uniform(min, max) *)
Definition gen_uniform (lo hi : Qc) (rand : list Qc) : list Qc := map (fun u => lo + u * (hi - lo))%Qc rand.

(* 138-200; flat tensors; sdt = sqrt(dt) *)
Record ou := { mu : Qc; sigma : Qc; theta : Qc; dt : Qc; sdt : Qc; shape : list nat; x0 : option (list Qc); x_prev : list Qc }.
Fixpoint numel (s : list nat) : nat := match s with [] => 1 | n :: r => n * numel r end.
(* 196-200 *)
Definition ou_reset (g : ou) : ou :=
  Build_ou (mu g) (sigma g) (theta g) (dt g) (sdt g) (shape g) (x0 g)
    (match x0 g with Some x => x | None => repeat 0%Qc (numel (shape g)) end).
(* 139-182 *)
Definition ou_new (m s th d sd : Qc) (sh : list nat) (start : option (list Qc * list nat)) : res ou :=
  match start with
  | None => Ok (ou_reset (Build_ou m s th d sd sh None []))
  | Some (x, xs) => if (if list_eq_dec Nat.eq_dec xs sh then true else false)
                    then Ok (ou_reset (Build_ou m s th d sd sh (Some x) [])) else Err EOther
  end.
(* 184-194 *)
Definition ou_call (g : ou) (randn : list Qc) : ou * list Qc :=
  let x := map (fun p => fst p + theta g * (mu g - fst p) * dt g + sigma g * sdt g * snd p)%Qc (combine (x_prev g) randn) in
  (Build_ou (mu g) (sigma g) (theta g) (dt g) (sdt g) (shape g) (x0 g) x, x).

(* broadcasting: shapes aligned at the last dimension *)
Fixpoint bcast_rev (a b : list nat) : option (list nat) :=
  match a, b with
  | [], _ => Some b
  | _, [] => Some a
  | x :: a', y :: b' =>
      match bcast_rev a' b' with
      | Some r => if x =? y then Some (x :: r) else if x =? 1 then Some (y :: r) else if y =? 1 then Some (x :: r) else None
      | None => None
      end
  end.
Definition bcast (a b : list nat) : option (list nat) := option_map (@rev nat) (bcast_rev (rev a) (rev b)).

(* add_ou_noise_to_action, 143-171: the global generator, and the shape of the result; noise_param is
   None or the keyword arguments (x0 left out) *)
Definition ou_shape (gen : option (list nat)) (action : list nat) (noise_param : bool) (reset : bool)
  : option (list nat) * res (list nat) :=
  let gen := if reset then None else gen in
  match gen with
  | None => if noise_param then
              (Some action, match bcast action action with Some s => Ok s | None => Err ERuntime end)
            else (None, Err EType)
  | Some s => (Some s, match bcast action s with Some r => Ok r | None => Err ERuntime end)
  end.
