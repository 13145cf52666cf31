(* machin/auto/pl_logger.py LocalMediaLogger: log_artifact 51-72, log_image 74-108, enumerate_till_valid 118-127;
   os.path.splitext and os.path.basename as far as these use them.

   Simplifications: the file system is a dictionary from paths to contents; directories exist; PIL and matplotlib write
   the content they are given; a missing source file raises. *)
From Coq Require Import Ascii.
From Verif Require Import Lib.Base Model.LoadSave.
Set Implicit Arguments.

Definition dot : ascii := "."%char.
Definition slash : ascii := "/"%char.
Definition under : ascii := "_"%char.
Definition png : name := [dot; "p"; "n"; "g"]%char.

(* genericpath._splitext: the last dot of the last component, unless only dots precede it there *)
Fixpoint last_dot (r : name) (acc : name) : option (name * name) :=
  match r with
  | [] => None
  | c :: t => if Ascii.eqb c dot then Some (t, acc) else if Ascii.eqb c slash then None else last_dot t (c :: acc)
  end.
Fixpoint component (r : name) : name :=
  match r with [] => [] | c :: t => if Ascii.eqb c slash then [] else c :: component t end.
Definition splitext (p : name) : name * name :=
  match last_dot (rev p) [] with
  | Some (t, ext) => if existsb (fun c => negb (Ascii.eqb c dot)) (component t) then (rev t, dot :: ext) else (p, [])
  | None => (p, [])
  end.
Definition basename (p : name) : name := rev (component (rev p)).

Section Files.
  Context {C : Type}.
  Definition files := list (name * C).
  (* 123-125 *)
  Definition numbered (path : name) (k : nat) : name :=
    let (root, ext) := splitext path in (root ++ under :: show k) ++ ext.
  (* 118-127: the loop, with a bound on its rounds *)
  Fixpoint search (fuel : nat) (fs : files) (path : name) (counter : nat) (cur : name) : option name :=
    match fuel with
    | 0 => None
    | S fuel => if dmem cur fs then search fuel fs path (counter + 1) (numbered path (counter + 1)) else Some cur
    end.
  Definition enumerate_till_valid (fuel : nat) (fs : files) (path : name) : option name := search fuel fs path 0 path.
  (* shutil.copy to a path that is not a directory *)
  Definition copy (src dst : name) (fs : files) : res files :=
    match dget src fs with None => Err EOther | Some c => Ok (dset dst c fs) end.
  (* 51-72; an empty destination counts as none; None: the search did not end *)
  Definition log_artifact (fuel : nat) (dir : name) (artifact : name) (destination : option name) (fs : files) : option (res files) :=
    let target := match destination with
                  | Some (c :: d) => dir ++ slash :: c :: d
                  | _ => dir ++ slash :: basename artifact
                  end in
    option_map (fun p => copy artifact p fs) (enumerate_till_valid fuel fs target).

  Inductive image := Pil (c : C) | Figure (c : C) | FilePath (p : name) | Unsupported.
  Record logger := MkL { counters : list (name * nat); disk : files }.
  Definition counter_of (l : logger) (n : name) : nat := match dget n (counters l) with Some k => k | None => 0 end.
  (* "step or counter": step 0 counts as no step *)
  Definition number (l : logger) (n : name) (step : option nat) : nat :=
    match step with Some (S k) => S k | _ => counter_of l n end.
  Definition image_path (dir n : name) (k : nat) (ext : name) : name := dir ++ slash :: n ++ under :: show k ++ ext.
  (* 74-108 *)
  Definition log_image (dir n : name) (im : image) (step : option nat) (l : logger) : logger * res unit :=
    let k := number l n step in
    let ext := match im with FilePath p => snd (splitext p) | _ => png end in
    let l := MkL (dset n (counter_of l n + 1) (counters l)) (disk l) in
    let path := image_path dir n k ext in
    match im with
    | Pil c | Figure c => (MkL (counters l) (dset path c (disk l)), Ok tt)
    | FilePath p => match copy p path (disk l) with
                    | Ok fs => (MkL (counters l) fs, Ok tt)
                    | Err e => (l, Err e)
                    end
    | Unsupported => (l, Err EValue)
    end.
End Files.
