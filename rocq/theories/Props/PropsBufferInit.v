(* C145, C146: construction of the replay buffer classes. *)
From Verif Require Import Model.BufferInit.
Open Scope string_scope.
Open Scope list_scope.

(* ---- generic facts about the calling convention ---- *)
Lemma bind_params_err ps args e : bind_params ps args = Err e -> e = EType.
Proof.
  induction ps as [|[p d] r IH]; cbn; [discriminate|].
  destruct (dget p args) as [v|]; [|destruct d as [v|]]; try (intros E; congruence);
    (destruct (bind_params r args); cbn; [discriminate|intros E; injection E as <-; auto]).
Qed.
Lemma merge_err a b e : merge a b = Err e -> e = EType.
Proof. unfold merge. destruct (existsb _ b); congruence. Qed.
Lemma merge_dup a b k : dmem k a = true -> dmem k b = true -> merge a b = Err EType.
Proof.
  intros A B. unfold merge. replace (existsb (fun kv => dmem (fst kv) a) b) with true; auto. symmetry.
  apply existsb_exists. unfold dmem in B. destruct (dget k b) as [v|] eqn:E; [|discriminate].
  exists (k, v). split; auto. now apply dget_Some_In.
Qed.
Lemma positional_err ps pos e : positional ps pos = Err e -> e = EType.
Proof.
  revert ps; induction pos as [|v r IH]; intros [|[p d] ps]; cbn; try congruence.
  specialize (IH ps). destruct (positional ps r); cbn; [discriminate|intros E; injection E as <-; auto].
Qed.
Lemma dget_app_l {V} k (a b : list (string * V)) : dget k (a ++ b) = match dget k a with Some v => Some v | None => dget k b end.
Proof. induction a as [|[k' v] r IH]; cbn; auto. destruct (String.eqb k k'); auto. Qed.
Lemma dmem_leftover k ps args : dmem k ps = false -> dmem k (leftover ps args) = dmem k args.
Proof.
  intros N. unfold dmem, leftover. induction args as [|[k' v] r IH]; cbn; auto.
  destruct (String.eqb_spec k k') as [->|D]; cbn.
  - rewrite N. cbn. rewrite String.eqb_refl. auto.
  - destruct (dmem k' ps); cbn; auto. destruct (String.eqb_spec k k'); [congruence|auto].
Qed.
Lemma merge_ok a b c : merge a b = Ok c -> c = a ++ b.
Proof. unfold merge. destruct (existsb _ b); congruence. Qed.

(* a super call that names keyword k always hands it on *)
Lemma run_forces member c rest fwd k args :
  i_super (init_of c) = Some fwd -> dmem k fwd = true ->
  (forall args', dmem k args' = true -> run_init member rest args' = Err EType) ->
  run_init member (c :: rest) args = Err EType.
Proof.
  intros S F H. cbn [run_init]. destruct (bind_params (i_params (init_of c)) args) as [env|e] eqn:B; cbn [bind];
    [|apply bind_params_err in B; congruence].
  rewrite S. destruct (merge _ _) as [kw|e] eqn:M; cbn [bind]; [|apply merge_err in M; now subst].
  rewrite H; auto. apply merge_ok in M as ->. unfold dmem in *. rewrite dget_app_l.
  replace (dget k (map (fun ke => (fst ke, eval env (snd ke))) fwd)) with (option_map (eval env) (dget k fwd)).
  - destruct (dget k fwd); [auto|discriminate].
  - clear. induction fwd as [|[k' e] r IH]; cbn; auto. destruct (String.eqb k k'); auto.
Qed.
(* a super call that names keyword k refuses k from the caller unless it is a parameter *)
Lemma run_refuses member c rest fwd k args :
  i_super (init_of c) = Some fwd -> dmem k fwd = true -> dmem k (i_params (init_of c)) = false -> dmem k args = true ->
  run_init member (c :: rest) args = Err EType.
Proof.
  intros S F P A. cbn [run_init]. destruct (bind_params (i_params (init_of c)) args) as [env|e] eqn:B; cbn [bind];
    [|apply bind_params_err in B; congruence].
  rewrite S. rewrite merge_dup with (k := k); auto.
  - unfold dmem in *. replace (dget k (map (fun ke => (fst ke, eval env (snd ke))) fwd)) with (option_map (eval env) (dget k fwd)).
    + destruct (dget k fwd); [auto|discriminate].
    + clear. induction fwd as [|[k' e] r IH]; cbn; auto. destruct (String.eqb k k'); auto.
  - rewrite dmem_leftover; auto.
Qed.

Lemma construct_err member c pos kw :
  (forall args, run_init member (mro c) args = Err EType) -> construct member c pos kw = Err EType.
Proof.
  intros H. unfold construct. destruct (positional _ pos) eqn:P; cbn [bind]; [|apply positional_err in P; congruence].
  destruct (merge _ kw) eqn:M; cbn [bind]; auto. apply merge_err in M. congruence.
Qed.

(* C145: no argument list whatsoever constructs one of the three combined recurrent buffers *)
Definition combined (c : cls) : Prop :=
  c = RNNDistributedBuffer \/ c = RNNPrioritizedBuffer \/ c = RNNDistributedPrioritizedBuffer.
Theorem C145_refuted : forall c member pos kw, combined c -> construct member c pos kw = Err EType.
Proof.
  intros c member pos kw [->|[->| ->]]; apply construct_err; intros args.
  - change (mro RNNDistributedBuffer) with [RNNDistributedBuffer; RNNBuffer; DistributedBuffer; Buffer].
    eapply run_forces with (k := "buffer_device"); [reflexivity..|]. intros a1 _.
    eapply run_forces with (k := "buffer_device"); [reflexivity..|]. intros a2 H.
    eapply run_refuses with (k := "buffer_device"); auto; reflexivity.
  - change (mro RNNPrioritizedBuffer) with [RNNPrioritizedBuffer; RNNBuffer; PrioritizedBuffer; Buffer].
    eapply run_forces with (k := "buffer_device"); [reflexivity..|]. intros a1 _.
    eapply run_forces with (k := "storage"); [reflexivity..|]. intros a2 H.
    eapply run_refuses with (k := "storage"); auto; reflexivity.
  - change (mro RNNDistributedPrioritizedBuffer)
      with [RNNDistributedPrioritizedBuffer; RNNBuffer; DistributedPrioritizedBuffer; PrioritizedBuffer; Buffer].
    eapply run_forces with (k := "buffer_device"); [reflexivity..|]. intros a1 _.
    eapply run_forces with (k := "buffer_device"); [reflexivity..|]. intros a2 H.
    eapply run_refuses with (k := "buffer_device"); auto; reflexivity.
Qed.
Print Assumptions C145_refuted.

(* ---- the other five classes ---- *)
Definition deflt (d : option pyv) : pyv := match d with Some v => v | None => VNone end.
Definition given (k : string) (d : pyv) (kw : dic) : pyv := match dget k kw with Some v => v | None => d end.

Lemma bind_params_eq ps args :
  bind_params ps args =
  if forallb (fun pd => match snd pd with None => dmem (fst pd) args | Some _ => true end) ps
  then Ok (map (fun pd => (fst pd, given (fst pd) (deflt (snd pd)) args)) ps) else Err EType.
Proof.
  induction ps as [|[p d] r IH]; cbn; auto. rewrite IH. unfold given, dmem.
  destruct (dget p args) as [v|], d as [w|]; cbn; auto; destruct (forallb _ r); auto.
Qed.
Lemma merge_leftover a ps args :
  merge a (leftover ps args) =
  if existsb (fun k => negb (dmem k ps) && dmem k args)%bool (dkeys a) then Err EType else Ok (a ++ leftover ps args).
Proof.
  unfold merge. replace (existsb (fun kv => dmem (fst kv) a) (leftover ps args))
    with (existsb (fun k => negb (dmem k ps) && dmem k args)%bool (dkeys a)); auto.
  apply eq_true_iff_eq. rewrite !existsb_exists. split.
  - intros (k & I & H). apply andb_true_iff in H as [H1 H2]. apply negb_true_iff in H1.
    pose proof (dmem_leftover _ _ args H1) as H3. rewrite H2 in H3. unfold dmem in H3.
    destruct (dget k (leftover ps args)) as [v|] eqn:E; [|discriminate]. exists (k, v).
    split; [now apply dget_Some_In|]. cbn. unfold dmem. destruct (dget k a) eqn:G; auto. apply dget_None in G. tauto.
  - intros ([k v] & I & H). cbn in H. exists k. unfold dmem in H. destruct (dget k a) as [w|] eqn:G; [|discriminate].
    split. { unfold dkeys. apply in_map_iff. exists (k, w). split; auto. now apply dget_Some_In. }
    unfold leftover in I. apply filter_In in I as [I F]. cbn in F. rewrite F. cbn.
    unfold dmem. destruct (dget k args) eqn:G2; auto. apply dget_None in G2. exfalso. apply G2.
    unfold dkeys. apply in_map_iff. exists (k, v). auto.
Qed.

(* what the documentation of each class asks for *)
Definition required (c : cls) : list string :=
  match c with RNNBuffer => ["sample_length"] | DistributedBuffer | DistributedPrioritizedBuffer => ["buffer_name"; "group"] | _ => [] end.
(* options that a class says it does not support *)
Definition unsupported (c : cls) : list string :=
  match c with DistributedBuffer => ["buffer_device"] | PrioritizedBuffer => ["storage"]
             | DistributedPrioritizedBuffer => ["buffer_device"; "storage"] | _ => [] end.
Definition distributed (c : cls) : bool :=
  match c with DistributedBuffer | DistributedPrioritizedBuffer => true | _ => false end.
Definition million : pyv := VInt 1000000%Z.
(* the storage an object ends up with *)
Definition want_storage (c : cls) (kw : dic) : pyv :=
  let dev := if distributed c then VStr "cpu" else given "buffer_device" (VStr "cpu") kw in
  match given "storage" VNone kw with
  | VNone => VStore (given "buffer_size" million kw) dev
  | v => v
  end.

Lemma merge_nil b : merge [] b = Ok b.
Proof. unfold merge. assert (H : forall l : dic, existsb (fun kv => dmem (fst kv) (@nil (string * pyv))) l = false).
  { induction l; auto. } now rewrite H. Qed.
Lemma construct_kw member c kw : construct member c [] kw = run_init member (mro c) kw.
Proof.
  unfold construct. replace (positional (i_params (init_of c)) []) with (@Ok dic []) by (destruct (i_params (init_of c)); reflexivity).
  cbn [bind]. now rewrite merge_nil.
Qed.

Definition stor (args : dic) : pyv :=
  match given "storage" VNone args with
  | VNone => VStore (given "buffer_size" million args) (given "buffer_device" cpu args) | v => v end.
Definition base_attrs (st : pyv) : dic :=
  [("storage", st); ("transition_episode_number", VObj 0); ("episode_transition_handles", VObj 0); ("episode_counter", VInt 0%Z)].
Lemma run_buffer member args : run_init member [Buffer] args = Ok (base_attrs (stor args)).
Proof. cbn [run_init]. rewrite bind_params_eq. reflexivity. Qed.
(* decide which keywords are parameters *)
Ltac known := repeat match goal with |- context [negb (dmem ?k ?x)] =>
  let b := eval compute in (dmem k x) in change (dmem k x) with b end.
Lemma run_rnn member args : run_init member [RNNBuffer; Buffer] args =
  if dmem "sample_length" args then
    Ok (base_attrs (stor args) ++ [("sample_length", given "sample_length" VNone args);
                                   ("sample_dimension", given "sample_dimension" (VInt 1%Z) args)])
  else Err EType.
Proof.
  change [RNNBuffer; Buffer] with (RNNBuffer :: [Buffer]). remember [Buffer] as r. cbn [run_init]. subst r.
  rewrite bind_params_eq. cbn [init_of i_params i_super i_sets i_member forallb snd fst p_length p_dim p_size p_device p_storage].
  destruct (dmem "sample_length" args); cbn [andb bind]; auto. rewrite merge_leftover.
  cbn [existsb dkeys map fst same snd]. known. cbn [negb andb orb bind].
  rewrite run_buffer. reflexivity.
Qed.
Definition prio_attrs (args : dic) : dic :=
  [("epsilon", given "epsilon" (VDec 1 100) args); ("alpha", given "alpha" (VDec 6 10) args);
   ("beta", given "beta" (VDec 4 10) args);
   ("beta_increment_per_sampling", given "beta_increment_per_sampling" (VDec 1 1000) args);
   ("curr_beta", given "beta" (VDec 4 10) args); ("wt_tree", VTree (given "buffer_size" million args))].
Lemma run_prio member args : run_init member [PrioritizedBuffer; Buffer] args =
  if dmem "storage" args then Err EType
  else Ok (base_attrs (VStore (given "buffer_size" million args) (given "buffer_device" cpu args)) ++ prio_attrs args).
Proof.
  change [PrioritizedBuffer; Buffer] with (PrioritizedBuffer :: [Buffer]). remember [Buffer] as r. cbn [run_init]. subst r.
  rewrite bind_params_eq. cbn [init_of i_params i_super i_sets i_member forallb snd fst p_length p_dim p_size p_device p_storage p_prio app andb bind].
  rewrite merge_leftover.
  cbn [existsb dkeys map fst same snd].
  known.
  cbn [negb andb orb]. rewrite orb_false_r. destruct (dmem "storage" args); cbn [bind]; [reflexivity|].
  rewrite run_buffer. reflexivity.
Qed.
Lemma run_dist member args : run_init member [DistributedBuffer; Buffer] args =
  if (dmem "buffer_name" args && dmem "group" args)%bool then
    if dmem "buffer_device" args then Err EType
    else if member then
      Ok (base_attrs (match given "storage" VNone args with
                      | VNone => VStore (given "buffer_size" million args) cpu | v => v end) ++
          [("buffer_name", given "buffer_name" VNone args); ("group", given "group" VNone args)])
    else Err EAssert
  else Err EType.
Proof.
  change [DistributedBuffer; Buffer] with (DistributedBuffer :: [Buffer]). remember [Buffer] as r. cbn [run_init]. subst r.
  rewrite bind_params_eq. cbn [init_of i_params i_super i_sets i_member forallb snd fst p_name p_group p_size p_storage].
  destruct (dmem "buffer_name" args); cbn [andb bind]; auto. destruct (dmem "group" args); cbn [andb bind]; auto.
  rewrite merge_leftover. cbn [existsb dkeys map fst same snd].
  known.
  cbn [negb andb orb]. rewrite orb_false_r. destruct (dmem "buffer_device" args); cbn [bind]; [reflexivity|].
  rewrite run_buffer. destruct member; reflexivity.
Qed.
Lemma dmem_app_l {V} k (a b : list (string * V)) : dmem k (a ++ b) = (dmem k a || dmem k b)%bool.
Proof. unfold dmem. rewrite dget_app_l. destruct (dget k a); auto. Qed.
Lemma run_dprio member args :
  run_init member [DistributedPrioritizedBuffer; PrioritizedBuffer; Buffer] args =
  if (dmem "buffer_name" args && dmem "group" args)%bool then
    if (dmem "buffer_device" args || dmem "storage" args)%bool then Err EType
    else if member then
      Ok (base_attrs (VStore (given "buffer_size" million args) cpu) ++ prio_attrs args ++
          [("buffer_name", given "buffer_name" VNone args);
           ("buffer_version_table", VZeros (given "buffer_size" million args));
           ("group", given "group" VNone args)])
    else Err EAssert
  else Err EType.
Proof.
  change [DistributedPrioritizedBuffer; PrioritizedBuffer; Buffer] with (DistributedPrioritizedBuffer :: [PrioritizedBuffer; Buffer]).
  remember [PrioritizedBuffer; Buffer] as r. cbn [run_init]. subst r.
  rewrite bind_params_eq. cbn [init_of i_params i_super i_sets i_member forallb snd fst p_name p_group p_size p_prio app].
  destruct (dmem "buffer_name" args); cbn [andb bind]; auto. destruct (dmem "group" args); cbn [andb bind]; auto.
  rewrite merge_leftover. cbn [existsb dkeys map fst same snd f_prio app].
  known.
  cbn [negb andb orb]. rewrite orb_false_r. destruct (dmem "buffer_device" args); cbn [bind orb]; [reflexivity|].
  rewrite run_prio.
  match goal with |- context [dmem "storage" ?x] => lazymatch x with args => fail | _ => change (dmem "storage" x)
    with (dmem "storage" (leftover ([p_name; p_group; p_size] ++ p_prio) args)) end end.
  rewrite dmem_leftover by reflexivity.
  destruct (dmem "storage" args); cbn [bind]; [reflexivity|]. destruct member; reflexivity.
Qed.

Lemma dmem_In k (kw : dic) : In k (dkeys kw) <-> dmem k kw = true.
Proof.
  unfold dmem. destruct (dget k kw) eqn:G.
  - split; auto. intros _. apply dget_Some_In in G. apply in_map_iff. exists (k, p). auto.
  - apply dget_None in G. split; [tauto|discriminate].
Qed.
Definition accepted (c : cls) (member : bool) (kw : dic) : Prop :=
  (forall k, In k (required c) -> In k (dkeys kw)) /\ (forall k, In k (unsupported c) -> ~ In k (dkeys kw)) /\
  (distributed c = true -> member = true).
Lemma accepted_b c member kw : accepted c member kw <->
  (forallb (fun k => dmem k kw) (required c) && forallb (fun k => negb (dmem k kw)) (unsupported c) &&
   (negb (distributed c) || member))%bool = true.
Proof.
  unfold accepted. rewrite !andb_true_iff, !forallb_forall.
  assert (A : (forall k, In k (required c) -> In k (dkeys kw)) <-> (forall x, In x (required c) -> dmem x kw = true)).
  { split; intros H k I; apply dmem_In; auto. }
  assert (B : (forall k, In k (unsupported c) -> ~ In k (dkeys kw)) <-> (forall x, In x (unsupported c) -> negb (dmem x kw) = true)).
  { split; intros H k I.
    - apply negb_true_iff. destruct (dmem k kw) eqn:D; auto. apply dmem_In in D. exfalso. eapply H; eauto.
    - rewrite dmem_In. specialize (H k I). apply negb_true_iff in H. congruence. }
  rewrite A, B. destruct (distributed c), member; cbn; intuition.
Qed.
Ltac expose c NC := rewrite construct_kw; destruct c; try (exfalso; apply NC; unfold combined; tauto);
  [ change (mro Buffer) with [Buffer]; rewrite run_buffer
  | change (mro RNNBuffer) with [RNNBuffer; Buffer]; rewrite run_rnn
  | change (mro DistributedBuffer) with [DistributedBuffer; Buffer]; rewrite run_dist
  | change (mro PrioritizedBuffer) with [PrioritizedBuffer; Buffer]; rewrite run_prio
  | change (mro DistributedPrioritizedBuffer) with [DistributedPrioritizedBuffer; PrioritizedBuffer; Buffer]; rewrite run_dprio ].

(* C146: exactly when construction succeeds; otherwise it raises *)
Theorem C146_accepts : forall c member kw, ~ combined c ->
  ((exists self, construct member c [] kw = Ok self) <-> accepted c member kw).
Proof.
  intros c member kw NC. rewrite accepted_b. expose c NC; cbn [required unsupported distributed forallb];
    repeat match goal with |- context [dmem ?k kw] => destruct (dmem k kw) end; destruct member; cbn;
    (split; [intros (self & E); congruence | intros E; try discriminate; eexists; reflexivity]).
Qed.
Print Assumptions C146_accepts.

Lemma no_storage (kw : dic) : dmem "storage" kw = false -> given "storage" VNone kw = VNone.
Proof. unfold dmem, given. destruct (dget "storage" kw); [discriminate|reflexivity]. Qed.
(* the storage: a supplied one, else a basic storage of the requested size and device *)
Theorem C146_storage : forall c member kw self, ~ combined c ->
  construct member c [] kw = Ok self -> dget "storage" self = Some (want_storage c kw).
Proof.
  intros c member kw self NC. expose c NC; unfold want_storage; cbn [distributed];
    try solve [intros E; injection E as <-; reflexivity].
  - destruct (dmem "sample_length" kw); [|discriminate]. intros E. injection E as <-. reflexivity.
  - destruct (_ && _)%bool; [|discriminate]. destruct (dmem "buffer_device" kw); [discriminate|].
    destruct member; [|discriminate]. intros E. injection E as <-. reflexivity.
  - destruct (dmem "storage" kw) eqn:D; [discriminate|]. intros E. injection E as <-.
    rewrite no_storage by exact D. reflexivity.
  - destruct (_ && _)%bool; [|discriminate]. destruct (dmem "buffer_device" kw); [discriminate|]. cbn [orb].
    destruct (dmem "storage" kw) eqn:D; [discriminate|].
    destruct member; [|discriminate]. intros E. injection E as <-.
    rewrite no_storage by exact D. reflexivity.
Qed.
Print Assumptions C146_storage.

(* every other option is kept under its own name; documented defaults *)
Definition kept (c : cls) : list (string * pyv) :=
  match c with
  | RNNBuffer => [("sample_length", VNone); ("sample_dimension", VInt 1%Z)]
  | DistributedBuffer => [("buffer_name", VNone); ("group", VNone)]
  | PrioritizedBuffer => [("epsilon", VDec 1 100); ("alpha", VDec 6 10); ("beta", VDec 4 10); ("beta_increment_per_sampling", VDec 1 1000)]
  | DistributedPrioritizedBuffer =>
      [("buffer_name", VNone); ("group", VNone);
       ("epsilon", VDec 1 100); ("alpha", VDec 6 10); ("beta", VDec 4 10); ("beta_increment_per_sampling", VDec 1 1000)]
  | _ => []
  end.
Definition prioritized (c : cls) : bool :=
  match c with PrioritizedBuffer | DistributedPrioritizedBuffer => true | _ => false end.
Theorem C146_attributes : forall c member kw self, ~ combined c ->
  construct member c [] kw = Ok self ->
  (forall k d, In (k, d) (kept c) -> dget k self = Some (given k d kw)) /\
  dget "episode_counter" self = Some (VInt 0%Z) /\
  (prioritized c = true ->
     dget "wt_tree" self = Some (VTree (given "buffer_size" million kw)) /\
     dget "curr_beta" self = dget "beta" self) /\
  (c = DistributedPrioritizedBuffer -> dget "buffer_version_table" self = Some (VZeros (given "buffer_size" million kw))).
Proof.
  intros c member kw self NC. expose c NC; cbn [kept prioritized];
    repeat match goal with |- context [dmem ?k kw] => destruct (dmem k kw); cbn [andb orb] end; destruct member; cbn [andb orb];
    try discriminate; intros E; injection E as <-;
    (split; [intros k d I; cbn [In] in I; repeat (destruct I as [I|I]; [injection I as <- <-; reflexivity|]); destruct I|];
     split; [reflexivity|]; split; [intros P; try discriminate; split; reflexivity | intros P; try discriminate; reflexivity]).
Qed.
Print Assumptions C146_attributes.

(* positional arguments mean the same as the keywords of the parameters in order *)
Theorem C146_positional : forall c member pos kw,
  length pos <= length (i_params (init_of c)) ->
  let named := combine (map fst (i_params (init_of c))) pos in
  (forall k, In k (dkeys named) -> ~ In k (dkeys kw)) ->
  construct member c pos kw = construct member c [] (named ++ kw).
Proof.
  intros c member pos kw L named H. rewrite construct_kw. unfold construct.
  assert (P : forall ps (pos : list pyv), (length pos <= length ps)%nat -> positional ps pos = Ok (combine (map fst ps) pos)).
  { induction ps as [|[p d] r IH]; intros [|v q] LL; cbn in *; try lia; auto. rewrite IH by lia. reflexivity. }
  rewrite P by auto. cbn [bind]. fold named. unfold merge.
  replace (existsb (fun kv => dmem (fst kv) named) kw) with false; auto. symmetry.
  apply Bool.not_true_iff_false. rewrite existsb_exists. intros ((k & v) & I & D). cbn in D. apply dmem_In in D.
  apply (H k D). apply in_map_iff. exists (k, v). auto.
Qed.
Print Assumptions C146_positional.

Example C145_nonvacuous :
  construct true RNNPrioritizedBuffer [VInt 4%Z] [("buffer_size", VInt 10%Z)] = Err EType /\
  construct true PrioritizedBuffer [VInt 10%Z] [] <> Err EType /\
  mro RNNDistributedPrioritizedBuffer =
    [RNNDistributedPrioritizedBuffer; RNNBuffer; DistributedPrioritizedBuffer; PrioritizedBuffer; Buffer].
Proof. split; [|split]; vm_compute; congruence. Qed.

Example C146_nonvacuous :
  construct true DistributedBuffer [VStr "b"; VObj 7] [("buffer_size", VInt 5%Z); ("typo", VNone)] =
    Ok (base_attrs (VStore (VInt 5%Z) (VStr "cpu")) ++ [("buffer_name", VStr "b"); ("group", VObj 7)]) /\
  construct true DistributedBuffer [VStr "b"; VObj 7] [("buffer_device", VStr "cpu")] = Err EType /\
  construct false DistributedBuffer [VStr "b"; VObj 7] [] = Err EAssert /\
  construct true RNNBuffer [] [] = Err EType.
Proof. repeat split; reflexivity. Qed.
