(* What a post-processed batch must look like, and which batches are well formed. *)
From Coq Require Import List Bool Arith.
From Verif Require Import Lib.Base Model.Transition.
Import ListNotations.
Open Scope list_scope.
Set Implicit Arguments.

Section Spec.
  Context {X : Type}.

  (* the single row a value contributes to a concatenated column *)
  Definition row_of (v : aval X) : option X :=
    match v with AV (VT [x]) => Some x | AV (VS x) => Some x | _ => None end.
  Definition is_tensor (v : aval X) : Prop := exists x, v = AV (VT [x]).
  Definition is_scalar (v : aval X) : Prop := exists x, v = AV (VS x).

  (* value of attribute a (of entry s of attribute a) of a transition *)
  Definition attr (t : trans X) (a : string) : option (aval X) := dget a (tr_data t).
  Definition entry (t : trans X) (a s : string) : option (aval X) :=
    match attr t a with Some (AD d) => option_map (@AV X) (dget s d) | _ => None end.
  Definition subkeys (t : trans X) (a : string) : list string :=
    match attr t a with Some (AD d) => dkeys d | _ => [] end.

  (* [aligned f c batch]: row i of column c is f (batch[i]), and there are no other rows *)
  Definition aligned (concatenated : bool) (c : col X) (f : trans X -> option (aval X)) (batch : list (trans X)) : Prop :=
    match c with
    | CT rows => concatenated = true /\ length rows = length batch /\
        forall i t, nth_error batch i = Some t -> exists v, f t = Some v /\ row_of v <> None /\ nth_error rows i = row_of v
    | CL vs => concatenated = false /\ length vs = length batch /\
        forall i t, nth_error batch i = Some t -> f t <> None /\ nth_error vs i = f t
    end.

  (* A batch whose transitions have the same layout as the first one: major attributes
     are dictionaries with (at least) the keys of the first one and single-row tensors,
     sub attributes are uniformly single-row tensors or scalars, custom attributes exist, and
     those to be concatenated are uniformly scalars or single-row tensors. *)
  Record well_formed (first : trans X) (batch : list (trans X)) (addi : list string) : Prop := {
    wf_major : forall a t, In a (tr_maj first) -> In t (first :: batch) -> exists d, attr t a = Some (AD d) /\
      forall s, In s (subkeys first a) -> exists v, entry t a s = Some v /\ is_tensor v;
    wf_sub : forall a, In a (tr_sub first) ->
      (forall t, In t batch -> exists v, attr t a = Some v /\ is_tensor v) \/
      (forall t, In t batch -> exists v, attr t a = Some v /\ is_scalar v);
    wf_custom : forall a, In a (tr_cus first) ->
      (forall t, In t batch -> attr t a <> None) /\
      (In a addi -> (forall t, In t batch -> exists v, attr t a = Some v /\ is_tensor v) \/
                    (forall t, In t batch -> exists v, attr t a = Some v /\ is_scalar v)) }.

  (* requested attributes that are not ignored *)
  Definition known (first : trans X) (a : string) : bool :=
    existsb (String.eqb a) (tr_maj first ++ tr_sub first ++ tr_cus first ++ ["*"%string]).

  (* the output [o] for the attribute [a] that was requested after the attributes [before] *)
  Definition good_out (first : trans X) (batch : list (trans X)) (concatenate : bool) (addi before : list string)
             (a : string) (o : out X) : Prop :=
    if existsb (String.eqb a) (tr_maj first) then
      exists d, o = ODict d /\ dkeys d = subkeys first a /\
        forall s c, In (s, c) d -> aligned concatenate c (fun t => entry t a s) batch
    else if existsb (String.eqb a) (tr_sub first) then
      exists c, o = OCol c /\ aligned concatenate c (fun t => attr t a) batch
    else if existsb (String.eqb a) (tr_cus first) then
      exists c, o = OCol c /\
        aligned (concatenate && existsb (String.eqb a) addi) c (fun t => attr t a) batch
    else exists d, o = ODict d /\ NoDup (dkeys d) /\
        (* all custom attributes neither requested before nor collected by an earlier "*" *)
        (forall k, In k (dkeys d) <-> In k (tr_cus first) /\ ~ In k before /\ ~ In "*"%string before) /\
        forall k c, In (k, c) d ->
          aligned (concatenate && existsb (String.eqb k) addi) c (fun t => attr t k) batch.

  Inductive good_outs (first : trans X) (batch : list (trans X)) (concatenate : bool) (addi : list string)
    : list string -> list string -> list (out X) -> Prop :=
  | go_nil before : good_outs first batch concatenate addi before [] []
  | go_skip before a r os : known first a = false ->
      good_outs first batch concatenate addi (before ++ [a]) r os ->
      good_outs first batch concatenate addi before (a :: r) os
  | go_take before a r o os : known first a = true ->
      good_out first batch concatenate addi before a o ->
      good_outs first batch concatenate addi (before ++ [a]) r os ->
      good_outs first batch concatenate addi before (a :: r) (o :: os).

  (* a valid transition of batch size one *)
  Definition valid_tr (t : trans X) : Prop :=
    (forall a, In a (tr_maj t) -> exists d, attr t a = Some (AD d) /\
       forall s v, In (s, v) d -> exists x, v = VT [x]) /\
    (exists a s v d, In a (tr_maj t) /\ attr t a = Some (AD d) /\ In (s, v) d) /\
    (forall a, In a (tr_sub t) -> exists v, attr t a = Some v /\ row_of v <> None).
End Spec.
