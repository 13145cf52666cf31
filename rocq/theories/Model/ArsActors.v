(* machin/frame/algorithms/ars.py: get_actor_types 435-445, the choice of the actor in act 468-481,
   store_reward 484-502, _reset_reward_dict 668-672, _generate_parameter 674-700.
   Names are lists of ASCII characters; parameters are lists of rational elements (reshape, dtype and
   device are dropped); [ix r n] is the index RandomState.randint returns to the sampler of
   parameter n of rollout r. Normalisation of the state (459-467) is in Model/Ars.v. *)
From Coq Require Import Ascii QArith.
From Verif Require Import Lib.Rat Lib.Base Model.LoadSave Model.Losses Model.Ars.
Close Scope Q_scope.
Set Implicit Arguments.

#[global] Instance Eqb_bool : Eqb bool := {| eqb := Bool.eqb; eqb_spec := Bool.eqb_spec |}.

Definition positive_ : name := ["p"; "o"; "s"; "i"; "t"; "i"; "v"; "e"; "_"]%char.
Definition negative_ : name := ["n"; "e"; "g"; "a"; "t"; "i"; "v"; "e"; "_"]%char.
Definition original : name := ["o"; "r"; "i"; "g"; "i"; "n"; "a"; "l"]%char.

(* 441-444 *)
Definition actor_name (k : nat * bool) : name :=
  if snd k then positive_ ++ show (fst k) else negative_ ++ show (fst k).
Definition get_actor_types {M} (actors : list ((nat * bool) * M)) : list name := map actor_name (dkeys actors).

(* str.startswith *)
Fixpoint startswith (p s : name) : bool :=
  match p, s with
  | [], _ => true
  | a :: p', b :: s' => (Ascii.eqb a b && startswith p' s')%bool
  | _, [] => false
  end.
(* s.split("_") *)
Fixpoint split_us (s : name) : list name :=
  match s with
  | [] => [[]]
  | c :: r => if Ascii.eqb c "_" then [] :: split_us r
              else match split_us r with p :: ps => (c :: p) :: ps | [] => [[c]] end
  end.
(* int(s): surrounding white space, one optional sign, digits (an underscore cannot occur here) *)
Definition is_space (c : ascii) : bool :=
  (between (ascii_of_nat 9) (ascii_of_nat 13) c || between (ascii_of_nat 28) (ascii_of_nat 32) c)%bool.
Fixpoint drop_space (s : name) : name :=
  match s with c :: r => if is_space c then drop_space r else s | [] => [] end.
Definition strip (s : name) : name := rev (drop_space (rev (drop_space s))).
Definition digits_value (s : name) : res nat :=
  match s with [] => Err EValue | _ => if forallb is_digit s then Ok (int_of s) else Err EValue end.
Definition py_int (s : name) : res Z :=
  match strip s with
  | "+"%char :: r => bind (digits_value r) (fun v => Ok (Z.of_nat v))
  | "-"%char :: r => bind (digits_value r) (fun v => Ok (- Z.of_nat v)%Z)
  | r => bind (digits_value r) (fun v => Ok (Z.of_nat v))
  end.
(* actor_type.split("_")[1] and actor_type[0] == "p", 472-473 and 494-495 *)
Definition parse (s : name) : res (Z * bool) :=
  if (startswith positive_ s || startswith negative_ s)%bool then
    match split_us s with
    | _ :: p :: _ =>
        bind (py_int p) (fun i => Ok (i, match s with c :: _ => Ascii.eqb c "p" | [] => false end))
    | _ => Err EIndex
    end
  else Err EValue.                                            (* 477-481, 498-502 *)
(* lookup in a dictionary keyed by non-negative numbers *)
Definition key_of (i : Z) : res nat := if (i <? 0)%Z then Err EKey else Ok (Z.to_nat i).

Section A.
  Context {M R : Type}.
  (* 468-481 *)
  Definition choose (base : M) (actors : list ((nat * bool) * M)) (s : name) : res M :=
    if eqb s original then Ok base
    else bind (parse s) (fun '(i, b) => bind (key_of i) (fun r =>
         match dget (r, b) actors with Some m => Ok m | None => Err EKey end)).

  (* self.reward: rollout -> (negative rewards, positive rewards) *)
  Definition rewards := list (nat * (list R * list R)).
  (* 668-672 *)
  Definition reset_reward (rollouts : list nat) : rewards :=
    fold_left (fun d r => dset r ([], []) d) rollouts [].
  (* 492-502: self.reward[i][is_positive].append(reward); False is index 0 *)
  Definition store_reward (d : rewards) (x : R) (s : name) : rewards * res unit :=
    match bind (parse s) (fun '(i, b) => bind (key_of i) (fun r => Ok (r, b))) with
    | Err e => (d, Err e)
    | Ok (r, b) =>
        match dget r d with
        | None => (d, Err EKey)
        | Some (neg, pos) => (dset r (if (b : bool) then (neg, pos ++ [x]) else (neg ++ [x], pos)) d, Ok tt)
        end
    end.
  Definition store_rewards (d : rewards) (l : list (R * name)) : rewards :=
    fold_left (fun d xs => fst (store_reward d (fst xs) (snd xs))) l d.
End A.

Section G.
  Variable noise : list Qc.
  Variable ix : nat -> name -> nat.
  Definition params := list (name * list Qc).
  (* 684-697: positive actor, negative actor, noise indices *)
  Fixpoint perturb (r : nat) (ps : params) : res (params * params * list (name * nat)) :=
    match ps with
    | [] => Ok ([], [], [])
    | (n, p) :: rest =>
        bind (noise_sample noise (length p) (ix r n)) (fun '(i, delta) =>
        bind (perturb r rest) (fun '(pp, pn, d) =>
        Ok ((n, map2 Qcplus p delta) :: pp, (n, map2 Qcminus p delta) :: pn, (n, i) :: d)))
    end.
  (* 678-700: actor_with_delta and delta_idx *)
  Fixpoint generate (base : params) (rollouts : list nat)
    (actors : list ((nat * bool) * params)) (delta : list (nat * list (name * nat)))
    : res (list ((nat * bool) * params) * list (nat * list (name * nat))) :=
    match rollouts with
    | [] => Ok (actors, delta)
    | r :: rest =>
        bind (perturb r base) (fun '(pp, pn, d) =>
        generate base rest (dset (r, true) pp (dset (r, false) pn actors)) (dset r d delta))
    end.
  (* 678: actor_with_delta starts empty, delta_idx is kept from the previous update *)
  Definition generate_parameter (base : params) (rollouts : list nat) (delta : list (nat * list (name * nat))) :=
    generate base rollouts [] delta.
End G.
