(* machin/utils/save_env.py remove_trials_older_than 155-188;
   machin/utils/prepare.py prep_clear_dirs 12-24, prep_create_dirs 27-37; os.mkdir, os.makedirs and shutil.rmtree as far
   as these use them.

   Simplifications: strptime is a partial function from names to times (seconds); a path is the list of its components,
   last one first, and is not resolved through links (the directories given are no links, and nothing is created below a
   link); permissions and concurrent changes are left out. *)
From Coq Require Import ZArith.
From Verif Require Import Lib.Base.
Set Implicit Arguments.

Section Trials.
  Context {N : Type}.
  Variable parse : N -> option Z.
  Inductive entry := Dir | File | Link.
  (* 172-188: the entries that are left, in order; shutil.rmtree takes a directory only *)
  Fixpoint remove_old (now threshold : Z) (l : list (N * entry)) : list (N * entry) * res unit :=
    match l with
    | [] => ([], Ok tt)
    | (n, e) :: r =>
        match parse n with
        | None => let (r', x) := remove_old now threshold r in ((n, e) :: r', x)
        | Some t =>
            if (threshold <? now - t)%Z then
              match e with
              | Dir => remove_old now threshold r
              | _ => ((n, e) :: r, Err EOther)
              end
            else let (r', x) := remove_old now threshold r in ((n, e) :: r', x)
        end
    end.
  (* timedelta(days, hours, minutes, seconds) *)
  Definition seconds (days hours minutes secs : Z) : Z := (((days * 24 + hours) * 60 + minutes) * 60 + secs)%Z.
  (* 155-188 *)
  Definition remove_trials_older_than (now days hours minutes secs : Z) (l : list (N * entry)) : list (N * entry) * res unit :=
    remove_old now (seconds days hours minutes secs) l.
End Trials.

Section Tree.
  Context {K : Type} `{Eqb K}.
  (* NLink b: a link whose target exists (b) or not *)
  Inductive node := NDir | NFile | NLink (live : bool) | NSpecial.
  Definition path := list K.
  Definition tree := list (path * node).
  Fixpoint path_eqb (a b : path) : bool :=
    match a, b with
    | [], [] => true
    | x :: a, y :: b => eqb x y && path_eqb a b
    | _, _ => false
    end.
  Fixpoint lookup (p : path) (fs : tree) : option node :=
    match fs with [] => None | (q, n) :: r => if path_eqb p q then Some n else lookup p r end.
  (* the root is a directory *)
  Definition kind_at (fs : tree) (p : path) : option node := match p with [] => Some NDir | _ => lookup p fs end.
  (* os.path.exists *)
  Definition path_exists (fs : tree) (p : path) : bool :=
    match kind_at fs p with None | Some (NLink false) => false | _ => true end.
  (* os.mkdir *)
  Definition mkdir (p : path) (fs : tree) : tree * res unit :=
    match kind_at fs (tl p), kind_at fs p with
    | Some NDir, None => (fs ++ [(p, NDir)], Ok tt)
    | _, _ => (fs, Err EOther)
    end.
  (* os.makedirs; FileExistsError of the recursive call is ignored there, and mkdir then fails as the head is no directory *)
  Fixpoint makedirs (p : path) (fs : tree) : tree * res unit :=
    match p with
    | [] => (fs, Err EOther)
    | _ :: q =>
        if path_exists fs q then mkdir p fs
        else let (fs, r) := makedirs q fs in match r with Ok _ => mkdir p fs | Err e => (fs, Err e) end
    end.
  (* prepare.py 27-37 *)
  Fixpoint prep_create_dirs (ps : list path) (fs : tree) : tree * res unit :=
    match ps with
    | [] => (fs, Ok tt)
    | p :: r => if path_exists fs p then prep_create_dirs r fs
                else let (fs, x) := makedirs p fs in match x with Ok _ => prep_create_dirs r fs | Err e => (fs, Err e) end
    end.

  (* p is q or below it *)
  Fixpoint below (q p : path) : bool := path_eqb p q || match p with [] => false | _ :: t => below q t end.
  (* os.unlink, shutil.rmtree *)
  Definition unlink (q : path) (fs : tree) : tree := filter (fun x => negb (path_eqb (fst x) q)) fs.
  Definition rmtree (q : path) (fs : tree) : tree := filter (fun x => negb (below q (fst x))) fs.
  (* os.listdir *)
  Definition children (d : path) (fs : tree) : list path :=
    filter (fun p => match p with [] => false | _ :: q => path_eqb q d end) (map fst fs).
  (* prepare.py 20-24: os.path.isfile follows links; a fifo or a socket is none of the three *)
  Definition remove_child (fs : tree) (q : path) : tree :=
    match kind_at fs q with
    | Some NFile | Some (NLink _) => unlink q fs
    | Some NDir => rmtree q fs
    | _ => fs
    end.
  (* prepare.py 12-24; listdir of something that is no directory raises *)
  Fixpoint prep_clear_dirs (ds : list path) (fs : tree) : tree * res unit :=
    match ds with
    | [] => (fs, Ok tt)
    | d :: r => match kind_at fs d with
                | Some NDir => prep_clear_dirs r (fold_left remove_child (children d fs) fs)
                | _ => (fs, Err EOther)
                end
    end.
End Tree.
Arguments path : clear implicits.
Arguments tree : clear implicits.
