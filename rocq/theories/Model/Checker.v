(* machin/utils/checker.py: check_model 226-364 and the hook constructors 49-130.

   Simplifications: modules form a tree (no shared sub modules); names are lists of characters; the hooks
   given by the user are represented by the (name, value) pairs they are called with; values are
   tensors, listed by their first dimension. *)
From Verif Require Import Lib.Base.
From Coq Require Import Ascii.
Set Implicit Arguments.

Definition name := list ascii.
Definition dot : ascii := "."%char.
(* str.startswith *)
Fixpoint starts (p s : name) : bool :=
  match p, s with
  | [], _ => true
  | _, [] => false
  | a :: p', b :: s' => Ascii.eqb a b && starts p' s'
  end.

Section Checker.
  Context {T : Type}.     (* parameters *)
  Inductive modul := Mod (atom : bool) (params : list (name * T)) (children : list (name * modul)).
  Definition is_atom (m : modul) : bool := match m with Mod a _ _ => a end.
  Definition params_of (m : modul) : list (name * T) := match m with Mod _ p _ => p end.
  Definition has_children (m : modul) : bool := match m with Mod _ _ [] => false | _ => true end.

  (* nn.Module.named_modules: prefix + ('.' if prefix else '') + name *)
  Definition join (prefix x : name) : name := match prefix with [] => x | _ => prefix ++ dot :: x end.
  Fixpoint named (prefix : name) (m : modul) : list (name * modul) :=
    match m with
    | Mod a p cs => (prefix, m) :: flat_map (fun c => named (join prefix (fst c)) (snd c)) cs
    end.
  (* the loop 313-358: modules that get hooks *)
  Fixpoint select (checked : list name) (l : list (name * modul)) : list (name * modul) :=
    match l with
    | [] => []
    | (n, m) :: r =>
        if (has_children m && negb (is_atom m))%bool then select checked r
        else if existsb (fun k => starts k n) checked then select checked r
        else (n, m) :: select (checked ++ [n]) r
    end.
  Definition check_model (nm : name) (model : modul) : list (name * modul) := select [] (named nm model).

  (* 108-130: one hook per parameter; the hook reads param_name and param_value when it is called, after
     the loop has ended *)
  Definition param_calls (params : list (name * T)) : list (name * T) :=
    match rev params with
    | [] => []
    | lastp :: _ => map (fun _ => lastp) params
    end.
End Checker.

Section Values.
  Context {R : Type}.     (* entries along the first dimension *)
  Inductive value := Tensor (rows : list R) | Row (r : R).
  (* result of forward(): a tuple of values or a tensor *)
  Inductive output := OTuple (vs : list value) | OTensor (rows : list R).
  Variable str : nat -> name.
  (* 82-103; zip over a tensor yields its rows; [names]: _chk_output_names *)
  Definition output_calls (names : option (list name)) (o : output) : list (name * value) :=
    let default := match o with OTuple vs => map str (seq 0 (length vs)) | OTensor _ => [str 0] end in
    let names := match names with Some ns => ns | None => default end in
    combine names (match o with OTuple vs => vs | OTensor rows => map Row rows end).
  (* 54-72; args: the parameters of forward without self; getfullargspec lists self first *)
  Definition input_calls (self : name) (args : list name) (inputs : list value) : list (name * value) :=
    combine (self :: args) inputs.
End Values.
Arguments modul : clear implicits.
Arguments value : clear implicits.
Arguments output : clear implicits.
