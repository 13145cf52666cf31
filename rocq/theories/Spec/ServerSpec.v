(* Specifications for the parameter servers. *)
From Verif Require Import Lib.Rat Model.Servers.
Open Scope nat_scope.
Set Implicit Arguments.

(* last n elements *)
Definition lastn {A} (n : nat) (l : list A) : list A := skipn (length l - n) l.

(* A compare-and-swap register with an unbounded log of accepted (version, value) pairs per
   key.  A push with the newest version itself replaces the newest entry. *)
Section Log.
  Context {K A : Type} `{Eqb K}.
  Definition logs := K -> list (nat * A).
  Definition newest_of (l : list (nat * A)) : option (nat * A) := nth_error l (length l - 1).
  Definition acceptable (l : list (nat * A)) (prev : nat) : bool :=
    match newest_of l with None => true | Some (w, _) => w =? prev end.
  Definition append (l : list (nat * A)) (ver : nat) (v : A) : list (nat * A) :=
    match newest_of l with
    | Some (w, _) => if w =? ver then firstn (length l - 1) l ++ [(ver, v)] else l ++ [(ver, v)]
    | None => [(ver, v)]
    end.
  Definition spec_step (keep : nat) (L : logs) (q : oreq K A) : logs * oans A :=
    match q with
    | OPush k v ver prev =>
        if acceptable (L k) prev
        then (fun k' => if eqb k' k then append (L k) ver v else L k', APush true)
        else (L, APush false)
    | OPull k None => (L, APull (match newest_of (L k) with Some (w, v) => Some (v, w) | None => None end))
    | OPull k (Some w) =>
        (L, APull (match find (fun q => fst q =? w) (lastn keep (L k)) with Some (_, v) => Some (v, w) | None => None end))
    end.
  Fixpoint spec_run (keep : nat) (L : logs) (qs : list (oreq K A)) : logs * list (oans A) :=
    match qs with
    | [] => (L, [])
    | q :: r => let (L1, a) := spec_step keep L q in
                let (L2, l) := spec_run keep L1 r in (L2, a :: l)
    end.

  (* no accepted push reuses a version number of the same key, except the newest one *)
  Fixpoint no_reuse (keep : nat) (L : logs) (qs : list (oreq K A)) : Prop :=
    match qs with
    | [] => True
    | q :: r => match q with
                | OPush k v ver prev => acceptable (L k) prev = true ->
                    match newest_of (L k) with
                    | None => True
                    | Some (w, _) => ver = w \/ ~ In ver (map fst (L k))
                    end
                | OPull _ _ => True
                end /\ no_reuse keep (fst (spec_step keep L q)) r
    end.
End Log.

(* gradient server: what was pushed to the secondary queue of reducer i *)
Definition pushed_to (i : nat) (l : list gact) : list gdict :=
  flat_map (fun a => match a with GPush j g => if j =? i then [g] else [] | GStep _ _ => [] end) l.

(* members of batch n *)
Definition batch_of (n : nat) (out : list (gdict * fate)) : list gdict :=
  flat_map (fun q => match snd q with FBatch k => if k =? n then [fst q] else [] | FDiscard => [] end) out.

(* what the reducer has already sent to the primary *)
Definition sent (r : reducer) : list gdict :=
  match r_pc r with
  | PSend _ => map snd (removelast (r_reds r))
  | _ => map snd (r_reds r)
  end.

(* entry j of parameter k in gradient g; None when g has no such entry *)
Definition gentry (k j : nat) (g : gdict) : option Qc :=
  match dget k g with Some t => nth_error t j | None => None end.
Definition contributions (k j : nat) (batch : list gdict) : list Qc :=
  flat_map (fun g => match gentry k j g with Some x => [x] | None => [] end) batch.

(* accepted pushes of a run of the model server *)
Definition accepts {A} (es : list (mev A)) : list (nat * A) :=
  flat_map (fun e => match e with EvAccept v p => [(v, p)] | _ => [] end) es.
