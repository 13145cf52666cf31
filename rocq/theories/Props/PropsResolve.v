(* C138-C141: classes named in a config, and frameworks built from one. *)
From Coq Require Import Lia Ascii.
From Verif Require Import Lib.Base Model.LoadSave Model.Resolve.
Open Scope nat_scope.
Set Implicit Arguments.

Section Resolve.
  Context {V : Type}.
  Variables (is_class callable : V -> bool) (sub : kind -> V -> bool).
  Variables (torch : kind -> name -> option V) (package : name -> option V) (attr : V -> name -> option V).
  Variable stack : list (list (name * V)).
  Notation globals := (globals stack).
  Notation safe_import := (safe_import package attr).
  Notation valid_model := (valid_model is_class sub package attr stack).
  Notation valid_models := (valid_models is_class sub package attr stack).
  Notation valid_class := (valid_class is_class sub torch package attr stack).
  Notation valid_criterion := (valid_criterion is_class callable sub torch package attr stack).

  (* the specification: a class of the wanted kind *)
  Definition Valid (k : kind) (v : V) : Prop := is_class v = true /\ sub k v = true.
  (* the specification: a name as seen by the code: the outermost frame that has it *)
  Definition Sees (s : name) (v : V) : Prop :=
    exists inner fr outer, stack = inner ++ fr :: outer /\ In (s, v) fr /\ forall fr', In fr' outer -> ~ In s (dkeys fr').

  (* names that start with two underscores are left out *)
  Definition Hidden (s : name) : Prop := exists r, s = "_"%char :: "_"%char :: r.
  Lemma private_hidden s : private s = true <-> Hidden s.
  Proof.
    unfold Hidden. destruct s as [|a [|b r]]; cbn; try (split; [discriminate|intros [r E]; discriminate]).
    rewrite andb_true_iff, !Ascii.eqb_eq. split; [intros [-> ->]; eauto|]. intros [r' E]. now injection E.
  Qed.
  Lemma dotted_In s : dotted s = true <-> In "."%char s.
  Proof.
    unfold dotted. rewrite existsb_exists. split; [intros (c & I & E); apply Ascii.eqb_eq in E; now subst c|].
    intros I. exists "."%char. split; auto.
  Qed.
  (* "a.b.c": a is a package, b an attribute of a, c of b *)
  Fixpoint joined (h : name) (t : list name) : name := match t with [] => h | x :: r => h ++ "."%char :: joined x r end.
  Inductive Walk : V -> list name -> V -> Prop :=
  | Walk_here m : Walk m [] m
  | Walk_attr m a r m' v : attr m a = Some m' -> Walk m' r v -> Walk m (a :: r) v.
  Lemma split_joined h t cur : (forall x, In x (h :: t) -> ~ In "."%char x) -> split_dot (joined h t) cur = (rev cur ++ h, t).
  Proof.
    revert h cur. induction t as [|x t IH]; intros h cur H.
    - cbn [joined]. assert (N : ~ In "."%char h) by (apply H; left; reflexivity). clear H. revert cur N.
      induction h as [|c h IHh]; intros cur N; cbn [split_dot]; [now rewrite app_nil_r|].
      destruct (Ascii.eqb_spec c dotc) as [->|D]; [exfalso; apply N; left; reflexivity|].
      rewrite IHh by (intros I; apply N; now right). cbn. now rewrite <- app_assoc.
    - cbn [joined]. assert (N : ~ In "."%char h) by (apply H; left; reflexivity).
      assert (H' : forall y, In y (x :: t) -> ~ In "."%char y) by (intros; apply H; now right). specialize (IH x). clear H.
      revert cur N. induction h as [|c h IHh]; intros cur N; cbn [app split_dot].
      + change (Ascii.eqb "." dotc) with true. cbn iota. rewrite IH by exact H'. now rewrite app_nil_r.
      + destruct (Ascii.eqb_spec c dotc) as [->|D]; [exfalso; apply N; left; reflexivity|].
        rewrite IHh by (intros I; apply N; now right). cbn. now rewrite <- app_assoc.
  Qed.
  Theorem C138_import h t : (forall x, In x (h :: t) -> ~ In "."%char x) ->
    match safe_import (joined h t) with
    | Ok v => exists m, package h = Some m /\ Walk m t v
    | Err e => (package h = None /\ e = EOther) \/ (exists m, package h = Some m /\ e = EAttr /\ forall v, ~ Walk m t v)
    end.
  Proof.
    intros H. unfold Resolve.safe_import. rewrite split_joined by exact H. cbn [rev app]. destruct (package h) as [m|]; auto.
    clear H. enough (G : match getattrs attr m t with Ok v => Walk m t v | Err e => e = EAttr /\ forall v, ~ Walk m t v end).
    { destruct (getattrs attr m t); [eauto|]. right. exists m. tauto. }
    revert m. induction t as [|a t IH]; intros m; cbn; [constructor|]. destruct (attr m a) as [m'|] eqn:E.
    - specialize (IH m'). destruct (getattrs attr m' t); [econstructor; eauto|]. destruct IH as [-> N]. split; auto.
      intros v W. inversion W; subst. apply (N v). congruence.
    - split; auto. intros v W. inversion W; subst. congruence.
  Qed.
  Lemma add_frame_get (g fr : list (name * V)) s : NoDup (dkeys fr) -> private s = false ->
    dget s (add_frame g fr) = match dget s fr with Some v => Some v | None => dget s g end.
  Proof.
    unfold add_frame. revert g. induction fr as [|[k v] fr IH]; intros g ND P; [reflexivity|].
    cbn [fold_left fst snd]. unfold dkeys in ND. cbn [map fst] in ND. inversion ND as [|? ? N1 N2]; subst.
    rewrite IH by auto. cbn [dget]. destruct (eqb_spec s k) as [E|E].
    - subst k. rewrite (proj2 (dget_None s fr) N1). rewrite P. apply dget_dset_same.
    - destruct (dget s fr); [reflexivity|]. destruct (private k); [reflexivity|]. now apply dget_dset_other, not_eq_sym.
  Qed.
  Lemma globals_private s : private s = true -> dget s globals = None.
  Proof.
    intros P. unfold globals. assert (G : forall l (g : list (name * V)), dget s g = None -> dget s (fold_left add_frame l g) = None).
    { induction l as [|fr l IH]; intros g E; [exact E|]. cbn [fold_left]. apply IH. clear IH. unfold add_frame.
      revert g E. induction fr as [|[k v] fr IH]; intros g E; [exact E|]. cbn [fold_left fst snd]. apply IH.
      destruct (private k) eqn:Q; [exact E|]. rewrite dget_dset_other; [exact E|]. congruence. }
    apply G. reflexivity.
  Qed.
  Theorem C138_globals s v : (forall fr, In fr stack -> NoDup (dkeys fr)) ->
    (dget s globals = Some v <-> Sees s v /\ ~ Hidden s).
  Proof.
    intros ND. destruct (private s) eqn:P.
    { rewrite globals_private by exact P. apply private_hidden in P. split; [discriminate|tauto]. }
    assert (NP : ~ Hidden s) by (rewrite <- private_hidden; congruence).
    transitivity (Sees s v); [|tauto]. clear NP. unfold Sees, globals. revert ND. induction stack as [|fr l IH] using rev_ind; intros ND.
    - cbn. split; [discriminate|]. intros [i [f [o [E _]]]]. destruct i; discriminate.
    - assert (NF : NoDup (dkeys fr)) by (apply ND, in_or_app; right; left; reflexivity).
      rewrite fold_left_app. cbn [fold_left]. rewrite add_frame_get by auto.
      destruct (dget s fr) as [w|] eqn:E.
      + split.
        * intros Q. injection Q as ->. exists l, fr, []. repeat split; auto. now apply dget_Some_In.
        * intros [i [f [o [Q [I N]]]]]. destruct o as [|f' o] using rev_ind.
          -- apply app_inj_tail in Q. destruct Q as [_ <-]. rewrite (dget_In _ _ _ NF I) in E. congruence.
          -- clear IHo. rewrite app_comm_cons, app_assoc in Q. apply app_inj_tail in Q. destruct Q as [_ <-].
             exfalso. apply (N fr); [apply in_or_app; right; left; reflexivity|].
             apply dget_Some_In in E. exact (in_map fst _ _ E).
      + rewrite IH by (intros; apply ND, in_or_app; auto). split.
        * intros [i [f [o [-> [I N]]]]]. exists i, f, (o ++ [fr]). repeat split; auto.
          -- now rewrite <- app_assoc.
          -- intros f' F. apply in_app_or in F. destruct F as [F|[<-|[]]]; auto. now apply dget_None.
        * intros [i [f [o [Q [I N]]]]]. destruct o as [|f' o] using rev_ind.
          -- apply app_inj_tail in Q. destruct Q as [_ <-]. exfalso.
             apply (proj1 (dget_None s fr) E). exact (in_map fst _ _ I).
          -- clear IHo. rewrite app_comm_cons, app_assoc in Q. apply app_inj_tail in Q. destruct Q as [-> <-].
             exists i, f, o. repeat split; auto. intros f'' F. apply N, in_or_app. auto.
  Qed.

  (* objects: exactly the classes of the wanted kind are accepted, and returned as they are *)
  Theorem C138_objects k v :
    (Valid k v -> valid_class k (Obj v) = Ok (Some v)) /\ (~ Valid k v -> valid_class k (Obj v) = Err EValue) /\
    (Valid Module v -> valid_model (Obj v) = Ok v) /\ (~ Valid Module v -> valid_model (Obj v) = Err EValue).
  Proof.
    unfold Valid. cbn [Resolve.valid_class Resolve.valid_model].
    destruct (is_class v), (sub k v), (sub Module v); cbn; repeat split; intros; tauto || (exfalso; intuition congruence).
  Qed.
  (* strings: with what torch and the packages offer under the name being of the wanted kind, and the global a class, the
     result is of the wanted kind, or the name is unknown *)
  Theorem C138_partial k s r : valid_class k (@Str V s) = r ->
    (forall v, torch k s = Some v -> Valid k v) -> (forall v, safe_import s = Ok v -> Valid k v) ->
    (forall v, dget s globals = Some v -> is_class v = true) ->
    match r with
    | Ok (Some v) => Valid k v
    | Ok None => ~ In "."%char s /\ torch k s = None /\ (forall v, dget s globals = Some v -> ~ Valid k v)
    | Err e => safe_import s = Err e
    end.
  Proof.
    intros <- T I G. pose proof (dotted_In s) as DI. cbn [Resolve.valid_class]. destruct (torch k s) as [v|] eqn:Ts; [now apply T|].
    destruct (dget s globals) as [v|] eqn:E.
    - unfold issubclass. rewrite (G v eq_refl). cbn [bind]. destruct (sub k v) eqn:S.
      + split; auto.
      + destruct (dotted s); cbn [bind].
        * destruct (safe_import s); cbn [bind]; auto.
        * split; [intros H; apply DI in H; discriminate|]. split; auto. intros w Q [_ X]. injection Q as <-. congruence.
    - destruct (dotted s); cbn [bind].
      + destruct (safe_import s); cbn [bind]; auto.
      + split; [intros H; apply DI in H; discriminate|]. split; auto. discriminate.
  Qed.
  Theorem C138_models_partial s r : valid_model (@Str V s) = r -> (forall v, safe_import s = Ok v -> Valid Module v) ->
    (forall v, dget s globals = Some v -> is_class v = true) ->
    match r with
    | Ok v => Valid Module v
    | Err e => safe_import s = Err e \/ e = EValue /\ ~ In "."%char s /\ forall v, dget s globals = Some v -> ~ Valid Module v
    end.
  Proof.
    intros <- I G. pose proof (dotted_In s) as DI. cbn [Resolve.valid_model]. destruct (dget s globals) as [v|] eqn:E.
    - unfold issubclass. rewrite (G v eq_refl). cbn [bind]. destruct (sub Module v) eqn:S.
      + split; auto.
      + destruct (dotted s); [destruct (safe_import s); auto|]. right. split; auto. split; [intros H; apply DI in H; discriminate|].
        intros w Q [_ X]. injection Q as <-. congruence.
    - destruct (dotted s); [destruct (safe_import s); auto|]. right. split; auto. split; [intros H; apply DI in H; discriminate|discriminate].
  Qed.
  (* an unknown name without a dot gives None instead of the ValueError *)
  Theorem C138_unknown_refuted k (s : name) : ~ In "."%char s -> torch k s = None -> dget s globals = None ->
    valid_class k (@Str V s) = Ok None /\ (torch Module s = None -> valid_criterion (@Str V s) = Ok None).
  Proof.
    intros D T G. assert (D' : dotted s = false) by (apply not_true_is_false; rewrite dotted_In; exact D). clear D. rename D' into D.
    cbn [Resolve.valid_class Resolve.valid_criterion]. rewrite T, G, D. split; [reflexivity|].
    intros ->. reflexivity.
  Qed.
  (* a criterion may also be a function: callable objects and globals are taken, other objects refused; a global that
     cannot be called is passed over *)
  Theorem C138_criterion :
    (forall v, callable v = true -> valid_criterion (Obj v) = Ok (Some v)) /\
    (forall v, callable v = false -> is_class v = false -> valid_criterion (Obj v) = Err EValue) /\
    (forall s v, torch Module s = Some v -> valid_criterion (@Str V s) = Ok (Some v)) /\
    (forall s v, torch Module s = None -> dget s globals = Some v -> callable v = true -> valid_criterion (@Str V s) = Ok (Some v)) /\
    (forall s v, torch Module s = None -> dget s globals = Some v -> callable v = false -> ~ In "."%char s ->
       valid_criterion (@Str V s) = Ok None).
  Proof.
    cbn [Resolve.valid_criterion]. split; [intros v ->; now rewrite orb_true_r|]. split; [intros v -> ->; reflexivity|].
    split; [intros s v ->; reflexivity|]. split; [intros s v -> -> ->; reflexivity|].
    intros s v -> -> -> D. assert (dotted s = false) as -> by (apply not_true_is_false; rewrite dotted_In; exact D). reflexivity.
  Qed.
  (* a global of the name that is no class raises TypeError *)
  Theorem C138_global_refuted k s v : torch k s = None -> dget s globals = Some v -> is_class v = false ->
    valid_class k (@Str V s) = Err EType /\ valid_model (@Str V s) = Err EType.
  Proof.
    intros T G C. cbn [Resolve.valid_class Resolve.valid_model]. rewrite T, G. unfold issubclass. rewrite C. split; reflexivity.
  Qed.
  (* what torch or a package has under the name is not checked *)
  Theorem C138_unchecked_refuted k s v :
    (torch k s = Some v -> valid_class k (@Str V s) = Ok (Some v)) /\
    (torch k s = None -> dget s globals = None -> In "."%char s -> safe_import s = Ok v ->
       valid_class k (@Str V s) = Ok (Some v) /\ valid_model (@Str V s) = Ok v).
  Proof.
    cbn [Resolve.valid_class Resolve.valid_model]. split; [intros ->; reflexivity|].
    rewrite <- dotted_In. intros -> -> -> ->. split; reflexivity.
  Qed.

  (* ---- init_from_config ---- *)
  Context {A F : Type}.
  Variables (call : V -> A -> res V) (to_device reduction_none : V -> V).
  Variable construct : list V -> @fconfig V A -> res F.
  Notation fconfig := (@fconfig V A).
  Notation build_models := (build_models call to_device).
  Notation resolve_all := (resolve_all is_class callable sub torch package attr stack call to_device reduction_none).
  Notation init := (init_from_config is_class callable sub torch package attr stack call to_device reduction_none construct).
  Notation resolve_scheduler := (resolve_scheduler is_class sub torch package attr stack).

  (* the config of the caller is left alone, whatever happens *)
  Theorem C139_kept_partial a (c : fconfig) : In a [DQN; DQNPer; RAINBOW; A2C; PPO; TRPO] -> fst (init a c) = c.
  Proof. intros K0. assert (K : copies a = true) by (cbn in K0; intuition subst; reflexivity). unfold init_from_config. destruct (resolve_all a c) as [[ms c']|e]; [rewrite K|]; reflexivity. Qed.
  (* also when something in it is invalid *)
  Theorem C139_invalid_kept a (c : fconfig) e : resolve_all a c = Err e -> init a c = (c, Err e).
  Proof. intros E. unfold init_from_config. now rewrite E. Qed.

  Lemma resolve_all_inv a c ms c' : resolve_all a c = Ok (ms, c') ->
    exists classes opt f inst lr, valid_models (models c) = Ok classes /\ build_models classes (model_args c) = Ok ms /\
      of_slot (valid_class Optimizer) (optimizer c) = Ok opt /\ of_slot valid_criterion (criterion c) = Ok (Some f) /\
      call f (criterion_args c) = Ok inst /\ resolve_scheduler (lr_scheduler c) = Ok lr /\
      c' = MkC (models c) (model_args c) (slot opt) (Some (Obj (if per a then reduction_none inst else inst))) (criterion_args c) lr.
  Proof.
    unfold Resolve.resolve_all.
    destruct (valid_models (models c)) as [classes|] eqn:E1; [|discriminate]. cbn [bind].
    destruct (build_models classes (model_args c)) as [ms1|] eqn:E2; [|discriminate]. cbn [bind].
    destruct (of_slot (valid_class Optimizer) (optimizer c)) as [opt|] eqn:E3; [|discriminate]. cbn [bind].
    destruct (of_slot valid_criterion (criterion c)) as [[f|]|] eqn:E4; try discriminate. cbn [bind].
    destruct (call f (criterion_args c)) as [inst|] eqn:E5; [|discriminate]. cbn [bind].
    destruct (resolve_scheduler (lr_scheduler c)) as [lr|] eqn:E6; [|discriminate]. cbn [bind].
    intros Q. injection Q as <- <-. exists classes, opt, f, inst, lr. auto 10.
  Qed.
  (* DDPG, HDDPG, TD3, DDPGPer and SAC write the resolved values into the config of the caller; a second framework cannot
     be built from it, as the criterion is now an instance that is called with the constructor arguments *)
  Theorem C139_refuted a (c : fconfig) c' f : In a [DDPG; HDDPG; TD3; DDPGPer; SAC] -> init a c = (c', Ok f) ->
    exists inst, criterion c' = Some (Obj inst) /\
      ((exists e, call inst (criterion_args c) = Err e) -> exists e, init a c' = (c', Err e)).
  Proof.
    intros K0 E. assert (K : copies a = false) by (cbn in K0; intuition subst; reflexivity).
    unfold init_from_config in E. destruct (resolve_all a c) as [[ms c1]|e] eqn:R; [|discriminate].
    rewrite K in E. injection E as <- _.
    destruct (resolve_all_inv _ _ R) as [classes [opt [g [inst [lr [E1 [E2 [E3 [E4 [E5 [E6 E7]]]]]]]]]]].
    rewrite E7. cbn [criterion]. eexists. split; [reflexivity|]. set (i := if per a then reduction_none inst else inst).
    intros [e C].
    match goal with |- exists e, init a ?c2 = _ => destruct (resolve_all a c2) as [[ms2 c2']|e2] eqn:R2 end.
    - exfalso. destruct (resolve_all_inv _ _ R2) as [? [? [g2 [inst2 [? [_ [_ [_ [X4 [X5 _]]]]]]]]]].
      cbn [criterion criterion_args of_slot Resolve.valid_criterion] in X4, X5.
      destruct ((is_class i && sub Module i) || callable i); [|discriminate]. injection X4 as <-. congruence.
    - exists e2. now apply C139_invalid_kept.
  Qed.

  (* ---- C140 ---- *)
  (* a criterion is always called with the criterion arguments: a loss function that cannot take them is refused *)
  Theorem C140_refuted a (c : fconfig) f e : criterion c = Some (Obj f) -> callable f = true -> call f (criterion_args c) = Err e ->
    exists e', init a c = (c, Err e').
  Proof.
    intros C Cf E. destruct (resolve_all a c) as [[ms c1]|e1] eqn:R.
    - exfalso. destruct (resolve_all_inv _ _ R) as [? [? [g [inst [? [_ [_ [_ [X4 [X5 _]]]]]]]]]].
      rewrite C in X4. cbn [of_slot Resolve.valid_criterion] in X4. rewrite Cf, orb_true_r in X4. injection X4 as <-. congruence.
    - exists e1. now apply C139_invalid_kept.
  Qed.
  (* without optimizer or criterion: ValueError, once the models are built *)
  Theorem C140_missing a (c : fconfig) classes ms : valid_models (models c) = Ok classes -> build_models classes (model_args c) = Ok ms ->
    (optimizer c = None -> init a c = (c, Err EValue)) /\
    (forall v, optimizer c = Some (Obj v) -> Valid Optimizer v -> criterion c = None -> init a c = (c, Err EValue)).
  Proof.
    intros E1 E2. split.
    - intros O. apply C139_invalid_kept. unfold Resolve.resolve_all. rewrite E1. cbn [bind]. rewrite E2. cbn [bind]. now rewrite O.
    - intros v O [V1 V2] Cr. apply C139_invalid_kept. unfold Resolve.resolve_all. rewrite E1. cbn [bind]. rewrite E2. cbn [bind].
      rewrite O, Cr. cbn [of_slot Resolve.valid_class]. rewrite V1, V2. reflexivity.
  Qed.
  (* an unknown criterion name is only noticed when the result None is called: TypeError *)
  Theorem C140_unknown a (c : fconfig) classes ms v s : valid_models (models c) = Ok classes -> build_models classes (model_args c) = Ok ms ->
    optimizer c = Some (Obj v) -> Valid Optimizer v -> criterion c = Some (Str s) ->
    ~ In "."%char s -> torch Module s = None -> dget s globals = None -> init a c = (c, Err EType).
  Proof.
    intros E1 E2 O [V1 V2] Cr D T G. apply C139_invalid_kept. unfold Resolve.resolve_all. rewrite E1. cbn [bind]. rewrite E2. cbn [bind].
    rewrite O, Cr. cbn [of_slot Resolve.valid_class]. rewrite V1, V2. cbn [andb bind]. rewrite (proj2 (C138_unknown_refuted D T G) T). reflexivity.
  Qed.
  (* a loss class (or a function that makes a loss) is used as configured *)
  Theorem C140_partial a (c : fconfig) f inst ms c' : criterion c = Some (Obj f) -> call f (criterion_args c) = Ok inst ->
    resolve_all a c = Ok (ms, c') ->
    (a = DQNPer \/ a = DDPGPer -> criterion c' = Some (Obj (reduction_none inst))) /\
    (a <> DQNPer -> a <> DDPGPer -> criterion c' = Some (Obj inst)) /\ snd (init a c) = construct ms c'.
  Proof.
    intros C E R. destruct (resolve_all_inv _ _ R) as [? [? [g [inst' [? [_ [_ [_ [X4 [X5 [_ X7]]]]]]]]]]].
    rewrite C in X4. cbn [of_slot Resolve.valid_criterion] in X4.
    destruct ((is_class f && sub Module f) || callable f); [|discriminate]. injection X4 as <-.
    assert (inst' = inst) by congruence. subst inst'.
    split; [intros [->| ->]; now rewrite X7|]. split; [intros N1 N2; rewrite X7; destruct a; try congruence; reflexivity|].
    unfold init_from_config. rewrite R. destruct (copies a); reflexivity.
  Qed.

  (* ---- C141 ---- *)
  Lemma valid_models_nth l vs : valid_models l = Ok vs ->
    length vs = length l /\ forall i x, nth_error l i = Some x -> exists v, nth_error vs i = Some v /\ valid_model x = Ok v.
  Proof.
    revert vs. induction l as [|x l IH]; intros vs E; cbn [Resolve.valid_models] in E.
    - injection E as <-. split; [reflexivity|]. intros [|i] y Q; discriminate.
    - destruct (valid_model x) as [v|] eqn:Ex; [|discriminate]. cbn [bind] in E.
      destruct (valid_models l) as [vs'|]; [|discriminate]. cbn [bind] in E. injection E as <-.
      destruct (IH _ eq_refl) as [L N]. split; [cbn; now rewrite L|]. intros [|i] y Q; cbn [nth_error] in *; [|auto].
      injection Q as <-. eauto.
  Qed.
  Lemma build_models_nth ms args vs : build_models ms args = Ok vs ->
    length vs = Nat.min (length ms) (length args) /\
    forall i v, nth_error vs i = Some v -> exists m x w, nth_error ms i = Some m /\ nth_error args i = Some x /\
                                                         call m x = Ok w /\ v = to_device w.
  Proof.
    revert args vs. induction ms as [|m ms IH]; intros [|x args] vs E; cbn [Resolve.build_models] in E;
      try (injection E as <-; split; [reflexivity|intros [|i] v Q; discriminate]).
    destruct (call m x) as [w|] eqn:C; [|discriminate]. cbn [bind] in E.
    destruct (build_models ms args) as [vs'|] eqn:B; [|discriminate]. cbn [bind] in E. injection E as <-.
    destruct (IH _ _ B) as [L N]. split; [cbn [length Nat.min]; now rewrite L|].
    intros [|i] v Q; cbn [nth_error] in *; [|auto]. injection Q as <-. exists m, x, w. auto.
  Qed.
  (* as many arguments as models: every model is built from its own class and arguments, on the device *)
  Theorem C141_partial a (c : fconfig) ms c' : resolve_all a c = Ok (ms, c') -> length (model_args c) = length (models c) ->
    length ms = length (models c) /\
    forall i x, nth_error (models c) i = Some x ->
      exists cls args w, valid_model x = Ok cls /\ nth_error (model_args c) i = Some args /\ call cls args = Ok w /\
                         nth_error ms i = Some (to_device w).
  Proof.
    intros R L. destruct (resolve_all_inv _ _ R) as [classes [o0 [f0 [i0 [l0 [E1 [E2 _]]]]]]].
    destruct (valid_models_nth _ E1) as [L1 N1]. destruct (build_models_nth _ _ E2) as [L2 N2].
    assert (L3 : length ms = length (models c)) by lia. split; [exact L3|]. intros i x Q.
    destruct (N1 i x Q) as [v [Nv Vv]].
    assert (B : i < length (models c)) by (apply nth_error_Some; congruence).
    destruct (nth_error ms i) as [m|] eqn:M; [|apply nth_error_None in M; lia].
    destruct (N2 i m M) as [m' [x' [w [A1 [A2 [A3 A4]]]]]]. exists v, x', w. repeat split; auto; congruence.
  Qed.
  (* fewer arguments than models: the remaining models are dropped without a word *)
  Theorem C141_refuted a (c : fconfig) ms c' : resolve_all a c = Ok (ms, c') -> length (model_args c) < length (models c) ->
    length ms = length (model_args c).
  Proof.
    intros R L. destruct (resolve_all_inv _ _ R) as [classes [? [? [? [? [E1 [E2 _]]]]]]].
    destruct (valid_models_nth _ E1) as [L1 _]. destruct (build_models_nth _ _ E2) as [L2 _]. lia.
  Qed.
End Resolve.
Print Assumptions C138_globals.
Print Assumptions C138_import.
Print Assumptions C140_missing.
Print Assumptions C140_unknown.
Print Assumptions C138_objects.
Print Assumptions C138_partial.
Print Assumptions C138_models_partial.
Print Assumptions C138_unknown_refuted.
Print Assumptions C138_criterion.
Print Assumptions C138_global_refuted.
Print Assumptions C138_unchecked_refuted.
Print Assumptions C139_kept_partial.
Print Assumptions C139_invalid_kept.
Print Assumptions C139_refuted.
Print Assumptions C140_refuted.
Print Assumptions C140_partial.
Print Assumptions C141_partial.
Print Assumptions C141_refuted.

(* objects: 0 a network class, 1 an optimizer class, 2 a loss class, 3 a loss function, 4 a package, 5 a number; an
   instance of class n is 10 + n *)
Definition ex_class (v : nat) : bool := v <=? 2.
Definition ex_sub (k : kind) (v : nat) : bool :=
  match k, v with Module, 0 | Module, 2 | Optimizer, 1 => true | _, _ => false end.
Definition ex_callable (v : nat) : bool := (v <=? 3) || (10 <=? v).
Definition ex_torch (k : kind) (s : name) : option nat := match k, s with Optimizer, ["A"%char] => Some 1 | _, _ => None end.
Definition ex_package (s : name) : option nat := match s with ["p"%char] => Some 4 | _ => None end.
Definition ex_attr (v : nat) (s : name) : option nat := match v, s with 4, ["q"%char] => Some 5 | _, _ => None end.
Definition ex_stack : list (list (name * nat)) := [[(["m"], 5); (["n"], 5)]; [(["m"], 0); (["_"; "_"; "f"], 3)]]%char.
Definition ex_call (v : nat) (_ : unit) : res nat := if ex_class v then Ok (10 + v) else Err EType.
Example C138_nonvacuous :
  globals ex_stack = [(["m"], 0); (["n"], 5)]%char /\
  valid_model ex_class ex_sub ex_package ex_attr ex_stack (@Str nat ["m"]%char) = Ok 0 /\
  valid_class ex_class ex_sub ex_torch ex_package ex_attr ex_stack Optimizer (@Str nat ["A"]%char) = Ok (Some 1) /\
  valid_class ex_class ex_sub ex_torch ex_package ex_attr ex_stack Optimizer (@Str nat ["p"; "."; "q"]%char) = Ok (Some 5) /\
  valid_class ex_class ex_sub ex_torch ex_package ex_attr ex_stack Optimizer (@Str nat ["z"]%char) = Ok None /\
  valid_class ex_class ex_sub ex_torch ex_package ex_attr ex_stack Optimizer (@Str nat ["n"]%char) = Err EType.
Proof. repeat split; reflexivity. Qed.
Definition ex_init a c := init_from_config ex_class ex_callable ex_sub ex_torch ex_package ex_attr ex_stack ex_call
                            (fun v => v + 100) (fun v => v + 1000) (fun ms (c : @fconfig nat unit) => Ok (ms, criterion c)) a c.
Definition ex_config cr := MkC [@Str nat ["m"]%char; Obj 0] [tt; tt] (Some (@Str nat ["A"]%char)) (Some (Obj cr)) tt None.
Example C139_nonvacuous :
  ex_init DQN (ex_config 2) = (ex_config 2, Ok ([110; 110], Some (Obj 12))) /\
  snd (ex_init DDPGPer (ex_config 2)) = Ok ([110; 110], Some (Obj 1012)) /\
  snd (ex_init DDPG (fst (ex_init DDPG (ex_config 2)))) = Err EType /\
  ex_call 12 tt = Err EType.
Proof. repeat split; reflexivity. Qed.
Example C140_nonvacuous : ex_init DQN (ex_config 3) = (ex_config 3, Err EType).
Proof. reflexivity. Qed.
Example C141_nonvacuous :
  snd (ex_init A2C (MkC [Obj 0; Obj 0] [tt] (Some (Obj 1)) (Some (Obj 2)) tt None)) = Ok ([110], Some (Obj 12)).
Proof. reflexivity. Qed.
