(* C208 loading a state dictionary, C209 a dictionary that does not fit. *)
From Verif Require Import Lib.Base Lib.Str Model.StateDict.

Definition names_of {A} (d : sdict A) : list string := map fst d.
(* the dictionary has exactly the names of the model, with the same shapes *)
Definition fits {A} (model sd : sdict A) : Prop :=
  (forall n, In n (names_of sd) <-> In n (names_of model)) /\
  (forall n p v, In (n, p) model -> In (n, v) sd -> t_shape p = t_shape v).
(* model' is model with the contents of sd, each parameter where it was *)
Definition loaded {A} (model sd model' : sdict A) : Prop :=
  names_of model' = names_of model /\
  forall n p v, In (n, p) model -> In (n, v) sd -> In (n, MkTens (t_shape p) (t_dev p) (t_val v)) model'.

Lemma shape_eqb_spec a b : shape_eqb a b = true <-> a = b.
Proof. unfold shape_eqb. destruct (list_eq_dec Nat.eq_dec a b); split; congruence. Qed.
Lemma touch_ok {A} (sd : sdict A) ns : touch sd ns = Ok tt <-> forall n, In n ns -> In n (names_of sd).
Proof.
  induction ns as [|n r IH]; cbn; [split; [intros _ n []|auto]|]. destruct (dget n sd) as [v|] eqn:E.
  - rewrite IH. apply dget_Some_In in E. apply (in_map fst) in E. split; [intros H m [<-|I]; auto|auto].
  - apply dget_None in E. split; [discriminate|]. intros H. exfalso. apply E. apply H. now left.
Qed.
Lemma touch_err {A} (sd : sdict A) ns : touch sd ns = Ok tt \/ touch sd ns = Err EKey.
Proof. induction ns as [|n r IH]; cbn; auto. destruct (dget n sd); auto. Qed.
Lemma load1_name {A} (sd : sdict A) p : fst (load1 sd p) = fst p.
Proof. unfold load1. destruct (dget (fst p) sd); auto. destruct (shape_eqb _ _); auto. Qed.
Lemma load_names {A} (model sd : sdict A) : names_of (map (load1 sd) model) = names_of model.
Proof. unfold names_of. rewrite map_map. apply map_ext. intros. apply load1_name. Qed.
Lemma load_in {A} (model sd : sdict A) n p v : NoDup (names_of sd) -> In (n, p) model -> In (n, v) sd -> t_shape p = t_shape v ->
  In (n, MkTens (t_shape p) (t_dev p) (t_val v)) (map (load1 sd) model).
Proof.
  intros ND I J S. apply (in_map (load1 sd)) in I. unfold load1 in I at 1. cbn [fst snd] in I.
  rewrite (dget_In _ _ _ ND J) in I. apply shape_eqb_spec in S. rewrite S in I. exact I.
Qed.

(* Exactly the fitting dictionaries are accepted, and then the model has their contents; the tensors stay on the devices
   they were on, wherever the dictionary was saved. *)
Theorem C208_loads : forall A (model sd : sdict A), NoDup (names_of model) -> NoDup (names_of sd) ->
  (snd (prep_load_state_dict model sd) = Ok tt <-> fits model sd) /\
  (snd (prep_load_state_dict model sd) = Ok tt -> loaded model sd (fst (prep_load_state_dict model sd))).
Proof.
  intros A model sd NM NS.
  assert (F : snd (prep_load_state_dict model sd) = Ok tt <-> fits model sd).
  { unfold prep_load_state_dict. destruct (touch_err sd (dkeys model)) as [T|T]; rewrite T.
    - pose proof (proj1 (touch_ok sd (dkeys model)) T) as Sub. cbn [load_state_dict snd]. split.
      + destruct (_ && _)%bool eqn:E; [|discriminate]. intros _. apply andb_true_iff in E as [E1 E2].
        rewrite forallb_forall in E1, E2. split.
        * intros n. split; [|apply Sub]. intros I. apply in_map_iff in I as ([m v] & <- & I). apply E2 in I. cbn [fst] in *.
          unfold dmem in I. destruct (dget m model) eqn:G; [|discriminate]. apply dget_Some_In in G. apply (in_map fst) in G. exact G.
        * intros n p v I J. apply E1 in I. unfold fits1 in I. cbn [fst snd] in I. rewrite (dget_In _ _ _ NS J) in I. now apply shape_eqb_spec.
      + intros [N S].
        replace (forallb (fits1 sd) model) with true; [replace (forallb (fun q => dmem (fst q) model) sd) with true; auto|]; symmetry; apply forallb_forall.
        * intros [n v] I. cbn [fst]. unfold dmem. destruct (dget n model) eqn:G; auto. apply dget_None in G. exfalso. apply G. apply N. apply (in_map fst) in I. exact I.
        * intros [n p] I. unfold fits1. cbn [fst snd]. destruct (dget n sd) as [v|] eqn:G.
          -- apply shape_eqb_spec. apply (S n); auto. now apply dget_Some_In.
          -- apply dget_None in G. exfalso. apply G. apply N. apply (in_map fst) in I. exact I.
    - split; [discriminate|]. intros [N _]. exfalso.
      assert (Q : touch sd (dkeys model) = Ok tt) by (apply touch_ok; intros n I; apply N; exact I). congruence. }
  split; auto. intros E. apply F in E as E'. destruct E' as [N S]. revert E. unfold prep_load_state_dict.
  destruct (touch_err sd (dkeys model)) as [T|T]; rewrite T; [|discriminate]. cbn [load_state_dict fst snd]. intros _.
  split; [apply load_names|]. intros n p v I J. apply load_in; auto. eapply S; eauto.
Qed.
Print Assumptions C208_loads.

(* a missing name is noticed before anything is changed *)
Theorem C209_missing_partial : forall A (model sd : sdict A) n,
  In n (names_of model) -> ~ In n (names_of sd) -> prep_load_state_dict model sd = (model, Err EKey).
Proof.
  intros A model sd n I N. unfold prep_load_state_dict. destruct (touch_err sd (dkeys model)) as [T|T]; rewrite T; auto.
  exfalso. apply N. apply (proj1 (touch_ok sd (dkeys model)) T). exact I.
Qed.
Print Assumptions C209_missing_partial.

(* Otherwise the dictionary is refused after it has been loaded: every parameter that has the right shape is overwritten. *)
Theorem C209_refuted : forall A (model sd : sdict A), NoDup (names_of model) -> NoDup (names_of sd) ->
  (forall n, In n (names_of model) -> In n (names_of sd)) -> ~ fits model sd ->
  snd (prep_load_state_dict model sd) = Err ERuntime /\
  forall n p v, In (n, p) model -> In (n, v) sd -> t_shape p = t_shape v ->
    In (n, MkTens (t_shape p) (t_dev p) (t_val v)) (fst (prep_load_state_dict model sd)).
Proof.
  intros A model sd NM NS Sub NF. pose proof (proj1 (C208_loads A model sd NM NS)) as F.
  unfold prep_load_state_dict in *. assert (T : touch sd (dkeys model) = Ok tt) by now apply touch_ok. rewrite T in *.
  cbn [load_state_dict fst snd] in *. split.
  - destruct (_ && _)%bool; auto. exfalso. apply NF, F. reflexivity.
  - intros n p v I J S. now apply load_in.
Qed.
Print Assumptions C209_refuted.

Definition tn (s : list nat) (d v : nat) := MkTens s d v.
Example C208_nonvacuous :
  prep_load_state_dict [("w", tn [2; 3] 1 10); ("b", tn [3] 1 20)]%string [("b", tn [3] 0 21); ("w", tn [2; 3] 0 11)]%string =
    ([("w", tn [2; 3] 1 11); ("b", tn [3] 1 21)]%string, Ok tt).
Proof. reflexivity. Qed.
Example C209_nonvacuous :
  prep_load_state_dict [("w", tn [2; 3] 1 10); ("b", tn [3] 1 20)]%string [("b", tn [4] 0 21); ("w", tn [2; 3] 0 11)]%string =
    ([("w", tn [2; 3] 1 11); ("b", tn [3] 1 20)]%string, Err ERuntime) /\
  prep_load_state_dict [("w", tn [2; 3] 1 10); ("b", tn [3] 1 20)]%string [("w", tn [2; 3] 0 11)]%string =
    ([("w", tn [2; 3] 1 10); ("b", tn [3] 1 20)]%string, Err EKey).
Proof. split; reflexivity. Qed.
