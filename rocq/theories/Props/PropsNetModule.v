(* C148-C149: device detection of NeuralNetworkModule. *)
From Verif Require Import Model.NetModule.
Open Scope nat_scope.
Set Implicit Arguments.

(* the specification: all parameters are on d and there is one *)
Definition on (d : device) (m : module) : Prop := params m <> [] /\ forall x, In x (params m) -> x = d.
(* the module that finally decides, following input modules / output modules of NeuralNetworkModules *)
Inductive input_leaf : module -> module -> Prop :=
| IL_here m : is_nn m = false -> input_leaf m m
| IL_in own subs i o m : input_leaf i m -> input_leaf (NN own subs (Some i) o) m.
Inductive output_leaf : module -> module -> Prop :=
| OL_here m : is_nn m = false -> output_leaf m m
| OL_out own subs i o m : output_leaf o m -> output_leaf (NN own subs i (Some o)) m
| OL_in own subs i m : input_leaf i m -> output_leaf (NN own subs (Some i) None) m.

Lemma single_spec l d : single l = Ok d <-> l <> [] /\ forall x, In x l -> x = d.
Proof.
  unfold single, dev_set. split.
  - destruct (nodup Nat.eq_dec l) as [|a [|b r]] eqn:E; try discriminate. intros H. injection H as <-. split.
    + intros ->. discriminate.
    + intros x I. apply (nodup_In Nat.eq_dec) in I. rewrite E in I. destruct I as [->|[]]; auto.
  - intros [N H]. destruct (nodup Nat.eq_dec l) as [|a [|b r]] eqn:E.
    + exfalso. destruct l as [|x l]; [auto|]. assert (I : In x (nodup Nat.eq_dec (x :: l))) by (apply nodup_In; now left).
      rewrite E in I. destruct I.
    + f_equal. apply H. apply (nodup_In Nat.eq_dec). rewrite E. now left.
    + exfalso. pose proof (NoDup_nodup Nat.eq_dec l) as ND. rewrite E in ND.
      assert (a = d) by (apply H; apply (nodup_In Nat.eq_dec); rewrite E; now left).
      assert (b = d) by (apply H; apply (nodup_In Nat.eq_dec); rewrite E; right; now left).
      inversion ND as [|? ? X]; subst. apply X. now left.
Qed.
Lemma single_err l : single l = Err ERuntime \/ exists d, single l = Ok d.
Proof. unfold single. destruct (dev_set l) as [|a [|b r]]; eauto. Qed.

(* exactly when the input device is defined *)
Lemma input_device_of_spec : forall m d, input_device_of m = Ok d <-> exists m', input_leaf m m' /\ on d m'.
Proof.
  fix IH 1. intros m d. destruct m as [own subs|subs|own subs i o].
  - cbn [input_device_of]. rewrite single_spec. split.
    + intros H. eexists. split; [constructor; reflexivity|exact H].
    + intros (m' & L & O). inversion L; subst. exact O.
  - cbn [input_device_of]. rewrite single_spec. split.
    + intros H. eexists. split; [constructor; reflexivity|exact H].
    + intros (m' & L & O). inversion L; subst. exact O.
  - destruct i as [i|]; cbn [input_device_of].
    + rewrite (IH i d). split.
      * intros (m' & L & O). exists m'. split; auto. now constructor.
      * intros (m' & L & O). inversion L; subst; [discriminate|]. eauto.
    + split; [discriminate|]. intros (m' & L & _). inversion L; subst. discriminate.
Qed.
Lemma output_device_of_spec : forall m d, output_device_of m = Ok d <-> exists m', output_leaf m m' /\ on d m'.
Proof.
  fix IH 1. intros m d. destruct m as [own subs|subs|own subs i o].
  - cbn [output_device_of]. rewrite single_spec. split.
    + intros H. eexists. split; [constructor; reflexivity|exact H].
    + intros (m' & L & O). inversion L; subst. exact O.
  - cbn [output_device_of]. rewrite single_spec. split.
    + intros H. eexists. split; [constructor; reflexivity|exact H].
    + intros (m' & L & O). inversion L; subst. exact O.
  - destruct o as [o|]; cbn [output_device_of].
    + destruct i; cbn [output_device_of]; rewrite (IH o d); (split; [intros (m' & L & O); exists m'; split; auto; now constructor
        | intros (m' & L & O); inversion L; subst; [discriminate|eauto]]).
    + destruct i as [i|]; cbn [output_device_of].
      * rewrite input_device_of_spec. split; intros (m' & L & O).
        -- exists m'. split; auto. now apply OL_in.
        -- inversion L; subst; [discriminate|eauto].
      * split; [discriminate|]. intros (m' & L & _). inversion L; subst. discriminate.
Qed.
Lemma input_err : forall m, input_device_of m = Err ERuntime \/ exists d, input_device_of m = Ok d.
Proof. fix IH 1. intros m. destruct m as [own subs|subs|own subs [i|] o]; cbn [input_device_of]; auto; apply single_err. Qed.
Lemma output_err : forall m, output_device_of m = Err ERuntime \/ exists d, output_device_of m = Ok d.
Proof.
  fix IH 1. intros m. destruct m as [own subs|subs|own subs i [o|]]; cbn [output_device_of]; try apply single_err.
  - destruct i; cbn [output_device_of]; apply IH.
  - destruct i as [i|]; cbn [output_device_of]; auto. apply input_err.
Qed.

(* C148: the two device properties mean what the documentation says *)
Theorem C148_input : forall s d, input_device s = Ok d <-> exists m m', n_in s = Some m /\ input_leaf m m' /\ on d m'.
Proof.
  intros [i o] d. unfold input_device. cbn. destruct i as [m|].
  - rewrite input_device_of_spec. split.
    + intros (m' & H). eauto.
    + intros (m0 & m' & E & H). injection E as <-. eauto.
  - split; [discriminate|]. intros (m & m' & E & _). discriminate.
Qed.
Print Assumptions C148_input.
Theorem C148_output : forall s d, output_device s = Ok d <->
  (exists m m', n_out s = Some m /\ output_leaf m m' /\ on d m') \/ (n_out s = None /\ input_device s = Ok d).
Proof.
  intros [i o] d. unfold output_device. cbn [n_in n_out]. destruct o as [m|].
  - rewrite output_device_of_spec. split.
    + intros (m' & H). left. eauto.
    + intros [(m0 & m' & E & H)|(E & _)]; [injection E as <-; eauto|discriminate].
  - unfold input_device. cbn [n_in]. split.
    + intros H. right. destruct i; auto.
    + intros [(m & m' & E & _)|(_ & H)]; [discriminate|]. destruct i; auto.
Qed.
Print Assumptions C148_output.
Theorem C148_otherwise : forall s,
  (input_device s = Err ERuntime \/ exists d, input_device s = Ok d) /\
  (output_device s = Err ERuntime \/ exists d, output_device s = Ok d).
Proof.
  intros [[i|] [o|]]; unfold input_device, output_device; cbn [n_in n_out]; split; auto using input_err, output_err.
Qed.
Print Assumptions C148_otherwise.

(* a module moved as a whole to a device has that device, however it was spread before *)
Lemma params_move_gen : forall m d x, In x (params (move d m)) -> x = d.
Proof.
  fix IH 1. intros m d x. destruct m as [own subs|subs|own subs i o]; cbn [move params].
  - rewrite in_app_iff. intros [H|H].
    + apply in_map_iff in H as (? & <- & _). reflexivity.
    + revert H. induction subs as [|c subs IHs]; cbn; [tauto|]. rewrite in_app_iff. intros [H|H]; [now apply (IH c d)|auto].
  - induction subs as [|c subs IHs]; cbn; [tauto|]. rewrite in_app_iff. intros [H|H]; [now apply (IH c d)|auto].
  - rewrite !in_app_iff. intros [H|[H|[H|H]]].
    + apply in_map_iff in H as (? & <- & _). reflexivity.
    + revert H. induction subs as [|c subs IHs]; cbn; [tauto|]. rewrite in_app_iff. intros [H|H]; [now apply (IH c d)|auto].
    + destruct i as [i|]; [now apply (IH i d)|destruct H].
    + destruct o as [o|]; [now apply (IH o d)|destruct H].
Qed.
Lemma params_move_len : forall m d, length (params (move d m)) = length (params m).
Proof.
  fix IH 1. intros m d. 
  destruct m as [own subs|subs|own subs i o]; cbn [move params].
  - rewrite !app_length, map_length. f_equal. induction subs as [|c subs IHs]; cbn; auto. now rewrite !app_length, IHs, IH.
  - induction subs as [|c subs IHs]; cbn; auto. now rewrite !app_length, IHs, IH.
  - rewrite !app_length, map_length. f_equal. f_equal; [|f_equal].
    + induction subs as [|c subs IHs]; cbn; auto. now rewrite !app_length, IHs, IH.
    + destruct i as [i|]; auto.
    + destruct o as [o|]; auto.
Qed.
Lemma on_move d m : params m <> [] -> on d (move d m).
Proof.
  intros N. split; [|apply params_move_gen]. intros E. pose proof (params_move_len m d) as L. rewrite E in L.
  destruct (params m); [auto|discriminate].
Qed.

(* ---- C149: what set_input_module / set_output_module accept ---- *)
(* first and last leaf of nested Sequentials, and the leaf the check looks at *)
Inductive leaf_of (first : bool) : module -> module -> Prop :=
| LF_here m : is_seq m = false -> leaf_of first m m
| LF_first c r x : first = true -> leaf_of first c x -> leaf_of first (Seq (c :: r)) x
| LF_last r c x : first = false -> leaf_of first c x -> leaf_of first (Seq (r ++ [c])) x.
Lemma find_last subs c : find_child false (Seq (subs ++ [c])) = find_child false c.
Proof.
  induction subs as [|x r IH]; [reflexivity|]. rewrite <- IH. cbn [app find_child]. destruct (r ++ [c]) as [|y q] eqn:E; [|reflexivity].
  destruct r; discriminate.
Qed.
Lemma find_child_sound first m x : leaf_of first m x -> find_child first m = Ok x.
Proof.
  induction 1 as [m H|c r x F H IH|r c x F H IH].
  - destruct m; [reflexivity|discriminate|reflexivity].
  - subst first. exact IH.
  - subst first. rewrite find_last. exact IH.
Qed.
Lemma check_ok first m x : is_nn m = false -> leaf_of first m x -> (check_set first m = Ok tt <-> length (dev_set (params x)) <= 1).
Proof.
  intros N L. unfold check_set. rewrite N. pose proof (find_child_sound L) as F.
  assert (E : (if is_seq m then find_child first m else Ok m) = Ok x).
  { destruct (is_seq m) eqn:S; auto. inversion L; subst; auto; discriminate. }
  rewrite E. cbn [bind]. destruct (Nat.ltb_spec 1 (length (dev_set (params x)))); split; intros; try discriminate; auto; lia.
Qed.
Lemma dev_le1 l : length (dev_set l) <= 1 <-> forall x y, In x l -> In y l -> x = y.
Proof.
  unfold dev_set. split.
  - intros H x y I J. apply (nodup_In Nat.eq_dec) in I, J. destruct (nodup Nat.eq_dec l) as [|a [|b r]]; [destruct I| |cbn in H; lia].
    destruct I as [<-|[]], J as [<-|[]]. reflexivity.
  - intros H. destruct (nodup Nat.eq_dec l) as [|a [|b r]] eqn:E; cbn; try lia. exfalso.
    pose proof (NoDup_nodup Nat.eq_dec l) as ND. rewrite E in ND. inversion ND as [|? ? X]; subst. apply X. left. symmetry.
    apply H; apply (nodup_In Nat.eq_dec); rewrite E; cbn; auto.
Qed.

(* the accepted modules: a NeuralNetworkModule, or the first (last) leaf has all its parameters on one device *)
Theorem C149_accepts : forall (first : bool) m x s, is_nn m = false -> leaf_of first m x ->
  let set := if first then set_input m s else set_output m s in
  (snd set = Ok tt <-> forall a b, In a (params x) -> In b (params x) -> a = b) /\
  (if first then n_in (fst set) = Some m /\ n_out (fst set) = n_out s else n_out (fst set) = Some m /\ n_in (fst set) = n_in s).
Proof.
  intros first m x s N L set. split.
  - rewrite <- dev_le1. rewrite <- (check_ok N L). unfold set. destruct first; reflexivity.
  - unfold set. destruct first; cbn; auto.
Qed.
Print Assumptions C149_accepts.
(* an accepted module that is no Sequential and has parameters determines the device *)
Theorem C149_partial : forall m s, is_nn m = false -> is_seq m = false -> params m <> [] ->
  (snd (set_input m s) = Ok tt -> exists d, input_device (fst (set_input m s)) = Ok d /\ on d m) /\
  (snd (set_output m s) = Ok tt -> exists d, output_device (fst (set_output m s)) = Ok d /\ on d m).
Proof.
  intros m s N S P.
  assert (K : forall first, check_set first m = Ok tt -> exists d, on d m).
  { intros first H. apply (check_ok N (LF_here first m S)) in H. rewrite dev_le1 in H.
    destruct (params m) as [|d r] eqn:E; [congruence|]. exists d. unfold on. rewrite E. split; [discriminate|].
    intros x I. apply H; auto. now left. }
  split; intros H; apply K in H as (d & H); exists d; split; auto.
  - apply C148_input. exists m, m. repeat split; try apply H. now constructor.
  - apply C148_output. left. exists m, m. repeat split; try apply H. now constructor.
Qed.
Print Assumptions C149_partial.
(* a Sequential whose first layer is on a and that has a parameter elsewhere is accepted, and has no input device *)
Theorem C149_refuted : forall a b own rest s, own <> [] -> (forall x, In x own -> x = a) -> In b (flat_map params rest) -> b <> a ->
  let m := Seq (Plain own [] :: rest) in
  snd (set_input m s) = Ok tt /\ input_device (fst (set_input m s)) = Err ERuntime.
Proof.
  intros a b own rest s N A B D m. split.
  - assert (L : leaf_of true m (Plain own [])) by (apply LF_first; auto; now constructor).
    apply (@check_ok true m (Plain own []) eq_refl L). apply dev_le1. cbn. rewrite app_nil_r. intros x y I J.
    rewrite (A x I), (A y J). reflexivity.
  - destruct (C148_otherwise (fst (set_input m s))) as [[H|(d & H)] _]; auto. exfalso. apply C148_input in H as (m1 & m' & E & L & O).
    cbn in E. injection E as <-. inversion L; subst. destruct O as [_ O]. cbn [params m flat_map] in O.
    destruct own as [|x own]; [congruence|]. assert (x = d) by (apply O; cbn; auto). assert (x = a) by (apply A; now left).
    assert (b = d) by (apply O; rewrite !in_app_iff; auto). congruence.
Qed.
Print Assumptions C149_refuted.
(* a module without parameters is accepted and has no device; a refused module stays in place *)
Theorem C149_empty_refuted : forall m s, is_nn m = false -> is_seq m = false -> params m = [] ->
  snd (set_input m s) = Ok tt /\ input_device (fst (set_input m s)) = Err ERuntime.
Proof.
  intros m s N S P. split.
  - apply (check_ok N (LF_here true m S)). rewrite P. cbn. lia.
  - destruct (C148_otherwise (fst (set_input m s))) as [[H|(d & H)] _]; auto. exfalso. apply C148_input in H as (m1 & m' & E & L & O).
    cbn in E. injection E as <-. inversion L; subst; [|discriminate]. destruct O. auto.
Qed.
Print Assumptions C149_empty_refuted.

(* a Sequential without the child to look at, at whatever depth, is refused with an IndexError although it is stored *)
Inductive hollow (first : bool) : module -> Prop :=
| HL_nil : hollow first (Seq [])
| HL_first c r : first = true -> hollow first c -> hollow first (Seq (c :: r))
| HL_last c r : first = false -> hollow first c -> hollow first (Seq (r ++ [c])).
Theorem C149_hollow : forall (first : bool) m s, hollow first m ->
  (if first then set_input m s = (MkNet (Some m) (n_out s), Err EIndex) else set_output m s = (MkNet (n_in s) (Some m), Err EIndex)).
Proof.
  intros first m s H. assert (E : find_child first m = Err EIndex).
  { induction H as [|c r -> H IH|c r -> H IH]; [destruct first; reflexivity|exact IH|]. now rewrite find_last. }
  assert (C : check_set first m = Err EIndex).
  { unfold check_set. replace (is_nn m) with false by now inversion H. replace (is_seq m) with true by now inversion H. now rewrite E. }
  destruct first; unfold set_input, set_output; now rewrite C.
Qed.
Print Assumptions C149_hollow.

(* ---- C150: wrappers ---- *)
Theorem C150_dynamic : forall m d, is_nn m = false -> on d m -> (exists x, leaf_of true m x) -> (exists x, leaf_of false m x) ->
  exists s, dynamic_wrap m = Ok s /\ input_device s = Ok d /\ output_device s = Ok d /\
    forall d', input_device (move_net d' s) = Ok d' /\ output_device (move_net d' s) = Ok d'.
Proof.
  assert (SUB : forall first m x, leaf_of first m x -> incl (params x) (params m)).
  { intros first m x. induction 1 as [m H|c r x F H IH|r c x F H IH]; intros p I; auto.
    - cbn. rewrite in_app_iff. left. apply IH, I.
    - cbn. rewrite flat_map_app, in_app_iff. right. cbn. rewrite app_nil_r. apply IH, I. }
  intros m d N O (x & Lx) (y & Ly). exists (MkNet (Some m) (Some m)).
  assert (C : forall first z, leaf_of first m z -> check_set first m = Ok tt).
  { intros first z L. apply (check_ok N L), dev_le1. intros a b A B. apply (SUB _ _ _ L) in A, B. destruct O as [_ O].
    rewrite (O a A), (O b B). reflexivity. }
  split; [|split; [|split]].
  - unfold dynamic_wrap. rewrite N. unfold set_input, set_output. cbn. rewrite (C true x Lx), (C false y Ly). reflexivity.
  - apply C148_input. exists m, m. repeat split; try apply O. now constructor.
  - apply C148_output. left. exists m, m. repeat split; try apply O. now constructor.
  - intros d'. assert (O' : on d' (move d' m)) by (apply on_move; apply O).
    assert (N' : is_nn (move d' m) = false) by (destruct m; auto; discriminate). split.
    + apply C148_input. exists (move d' m), (move d' m). repeat split; try apply O'. now constructor.
    + apply C148_output. left. exists (move d' m), (move d' m). repeat split; try apply O'. now constructor.
Qed.
Print Assumptions C150_dynamic.
Theorem C150_static : forall m i o, static_wrap m i o = (if is_nn m then Err EValue else Ok (m, i, o)) /\
  (is_nn m = true -> dynamic_wrap m = Err EValue).
Proof. intros m i o. split; auto. unfold dynamic_wrap. now intros ->. Qed.
Print Assumptions C150_static.

Definition lin (d : device) := Plain [d; d] [].
Example C148_nonvacuous :
  input_device (fst (set_input (NN [] [] (Some (NN [7] [lin 7] (Some (Seq [lin 2; lin 2])) None)) None) net0)) = Ok 2 /\
  output_device (fst (set_input (Seq [lin 1; lin 1]) net0)) = Ok 1 /\
  output_device (fst (set_input (Seq [lin 1; lin 2]) net0)) = Err ERuntime.
Proof. repeat split; reflexivity. Qed.
Example C149_nonvacuous :
  check_set true (Seq [lin 0; lin 1]) = Ok tt /\ check_set true (Seq [Seq [Plain [0; 1] []]; lin 1]) = Err ERuntime /\
  check_set false (Seq [lin 0; Seq [lin 1]]) = Ok tt /\ check_set false (Seq []) = Err EIndex.
Proof. repeat split; reflexivity. Qed.
Example C150_nonvacuous :
  dynamic_wrap (Seq [lin 3; Seq [lin 3]]) = Ok (MkNet (Some (Seq [lin 3; Seq [lin 3]])) (Some (Seq [lin 3; Seq [lin 3]]))) /\
  dynamic_wrap (Plain [0; 1] []) = Err ERuntime.
Proof. repeat split; reflexivity. Qed.
