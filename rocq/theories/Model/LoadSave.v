(* Saving and loading of models: machin/utils/prepare.py prep_load_model and
   machin/frame/algorithms/base.py TorchFramework.load / save.

   Simplifications: a file holds the complete state of one module ([Some c]) or something
   that t.load rejects, a subdirectory for instance ([None]); prep_load_state_dict always accepts
   a loaded state (same architecture); logging is dropped. File names are lists of ASCII characters. *)
From Coq Require Import Ascii Decimal DecimalNat.
From Verif Require Import Lib.Base.
Set Implicit Arguments.

Definition name := list ascii.
#[global] Instance Eqb_ascii : Eqb ascii := {| eqb := Ascii.eqb; eqb_spec := Ascii.eqb_spec |}.
Fixpoint list_eqb {A} `{Eqb A} (a b : list A) : bool :=
  match a, b with
  | [], [] => true
  | x :: a', y :: b' => (eqb x y && list_eqb a' b')%bool
  | _, _ => false
  end.
#[global] Instance Eqb_list {A} `{Eqb A} : Eqb (list A).
Proof.
  refine {| eqb := list_eqb |}.
  induction x as [|a x IH]; intros [|b y]; cbn; try (constructor; congruence).
  destruct (eqb_spec a b), (IH y); cbn; constructor; congruence.
Defined.

(* ---- the regular expression of prepare.py 80: ([a-zA-Z0-9_-]+)_([0-9]+)\.pt$ ---- *)
Definition between (a b : ascii) (c : ascii) : bool :=
  (N.leb (N_of_ascii a) (N_of_ascii c) && N.leb (N_of_ascii c) (N_of_ascii b))%bool.
Definition is_digit (c : ascii) : bool := between "0" "9" c.
Definition is_word (c : ascii) : bool :=
  (between "a" "z" c || between "A" "Z" c || is_digit c || Ascii.eqb c "_" || Ascii.eqb c "-")%bool.
Definition dot_pt : name := ["."; "p"; "t"]%char.

(* int(...) of a string of digits *)
Fixpoint to_dec (ds : list ascii) : uint :=
  match ds with
  | [] => Nil
  | c :: r =>
      let d := to_dec r in
      match N.to_nat (N_of_ascii c) - 48 with
      | 0 => D0 d | 1 => D1 d | 2 => D2 d | 3 => D3 d | 4 => D4 d
      | 5 => D5 d | 6 => D6 d | 7 => D7 d | 8 => D8 d | _ => D9 d
      end
  end.
Definition int_of (ds : list ascii) : nat := Nat.of_uint (to_dec ds).
(* decimal rendering of an int in an f-string *)
Fixpoint of_dec (d : uint) : list ascii :=
  match d with
  | Nil => []
  | D0 d => "0"%char :: of_dec d | D1 d => "1"%char :: of_dec d | D2 d => "2"%char :: of_dec d
  | D3 d => "3"%char :: of_dec d | D4 d => "4"%char :: of_dec d | D5 d => "5"%char :: of_dec d
  | D6 d => "6"%char :: of_dec d | D7 d => "7"%char :: of_dec d | D8 d => "8"%char :: of_dec d
  | D9 d => "9"%char :: of_dec d
  end.
Definition show (v : nat) : list ascii := of_dec (Nat.to_uint v).
Definition show_z (z : Z) : list ascii :=
  if (z <? 0)%Z then "-"%char :: show (Z.to_nat (- z)) else show (Z.to_nat z).

(* longest prefix of digits, and the rest *)
Fixpoint span_digits (l : list ascii) : list ascii * list ascii :=
  match l with
  | c :: r => if is_digit c then let (a, b) := span_digits r in (c :: a, b) else ([], l)
  | [] => ([], [])
  end.
Definition strip_rev_suffix (l : list ascii) : option (list ascii) :=
  match l with
  | t :: p :: d :: r => if list_eqb [d; p; t] dot_pt then Some r else None
  | _ => None
  end.
(* re.fullmatch, read from the right: the digits cannot contain "_", so the last "_"
   separates the two groups. Returns (group 1, int(group 2)), 80-83. *)
Definition fullmatch (m : name) : option (name * nat) :=
  match strip_rev_suffix (rev m) with
  | None => None
  | Some r =>
      match span_digits r with
      | ([], _) => None
      | (ds, c :: n) =>
          if (Ascii.eqb c "_" && forallb is_word n && negb (length n =? 0))%bool
          then Some (rev n, int_of (rev ds)) else None
      | (_, []) => None
      end
  end.

(* f"{net_name}_{version}.pt" : prepare.py 93, 116; base.py 150, 156 *)
Definition file (n : name) (version : list ascii) : name := n ++ "_"%char :: version ++ dot_pt.

Section Content.
  Context {C : Type}.
  Definition dir := list (name * option C).       (* os.listdir order *)
  Definition store := list (name * C).            (* modules, by attribute name *)

  (* version_map[n], 75-85 (a set; kept as a list, duplicates are harmless) *)
  Definition versions (d : dir) (n : name) : list nat :=
    flat_map (fun m => match fullmatch m with
                       | Some (n', v) => if eqb n' n then [v] else []
                       | None => [] end) (dkeys d).
  Definition memn (v : nat) (l : list nat) : bool := existsb (Nat.eqb v) l.

  (* the restoring loops 90-95 and 114-118; model_map : saved name -> module *)
  Fixpoint load_all (d : dir) (v : list ascii) (mm : list (name * name)) (st : store) : store * res unit :=
    match mm with
    | [] => (st, Ok tt)
    | (n, r) :: mm' =>
        match dget (file n v) d with
        | Some (Some c) => load_all d v mm' (dset r c st)
        | Some None | None => (st, Err EOther)
        end
    end.

  (* set.intersection of the version sets, 106 *)
  Definition common (d : dir) (mm : list (name * name)) : res (list nat) :=
    match mm with
    | [] => Err EType                     (* set.intersection() without arguments *)
    | (n, _) :: mm' =>
        Ok (filter (fun v => forallb (fun nr => memn v (versions d (fst nr))) mm') (versions d n))
    end.

  (* 104-118 *)
  Definition auto_find (d : dir) (mm : list (name * name)) (quiet : bool) (st : store) : store * res unit :=
    match common d mm with
    | Err e => (st, Err e)
    | Ok [] => if quiet then (st, Ok tt) else (st, Err ERuntime)
    | Ok (v :: vs) => load_all d (show (fold_left Nat.max vs v)) mm st
    end.

  (* prep_load_model, 52-118; the directory is None when it does not exist *)
  Definition prep_load_model (d : option dir) (mm : list (name * name)) (version : option Z)
      (quiet : bool) (st : store) : store * res unit :=
    match d with
    | None => (st, Err ERuntime)
    | Some d =>
        match version with
        | Some z =>
            if forallb (fun nr => (0 <=? z)%Z && memn (Z.to_nat z) (versions d (fst nr)))%bool mm
            then load_all d (show_z z) mm st
            else auto_find d mm quiet st
        | None => auto_find d mm quiet st
        end
    end.

  (* network_map[r] if present, the attribute name otherwise: base.py 112-121, 148-158 *)
  Definition saved_name (network_map : list (name * name)) (r : name) : name :=
    match dget r network_map with Some n => n | None => r end.
  (* TorchFramework.load, base.py 94-122: restore_map is a dict keyed by the saved name *)
  Definition restore_map (network_map : list (name * name)) (restorable : list name) : list (name * name) :=
    fold_left (fun m r => dset (saved_name network_map r) r m) restorable [].
  Definition fw_load (restorable : list name) (d : option dir) (network_map : list (name * name))
      (version : Z) (st : store) : store * res unit :=
    prep_load_model d (restore_map network_map restorable) (Some version) false st.
  (* TorchFramework.save, base.py 124-158. getattr of an absent module raises. *)
  Definition version_text (version : Z) : list ascii :=
    if (version =? -1)%Z then ["d"; "e"; "f"; "a"; "u"; "l"; "t"]%char else show_z version.
  Fixpoint fw_save (restorable : list name) (d : dir) (network_map : list (name * name))
      (version : Z) (st : store) : dir * res unit :=
    match restorable with
    | [] => (d, Ok tt)
    | r :: rs =>
        match dget r st with
        | None => (d, Err EAttr)
        | Some c =>
            fw_save rs (dset (file (saved_name network_map r) (version_text version)) (Some c) d) network_map version st
        end
    end.
End Content.
Arguments dir : clear implicits.
Arguments store : clear implicits.
