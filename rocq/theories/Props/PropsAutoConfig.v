(* C142-C143: generated configs and launching. *)
From Coq Require Import String.
From Verif Require Import Lib.Base Model.AutoConfig.
Open Scope string_scope.
Set Implicit Arguments.

Section Auto.
  Context {V : Type}.
  Notation config := (@config V).
  Variable algorithms : list (string * @algo V).
  Variable envs : list (string * @env V).

  (* ---- C142: settings ---- *)
  (* the given configuration, None or empty being the same *)
  Definition given (c : option config) (k : string) : option (@cval V) := match c with Some c => dget k c | None => None end.
  Theorem C142_training_partial root per max (c : option config) k :
    ~ In k ["root_dir"; "episode_per_epoch"; "max_episodes"; "early_stopping_patience"] ->
    dget k (generate_training_config root per max c) = given c k.
  Proof.
    intros N. unfold generate_training_config.
    rewrite !dget_dset_other by (intros E; apply N; rewrite <- E; cbn; tauto). destruct c; reflexivity.
  Qed.
  (* the four settings of a given config are replaced, by the arguments or their defaults *)
  Theorem C142_training_refuted root per max (c : option config) :
    let c' := generate_training_config root per max c in
    dget "root_dir" c' = Some (@CStr _ root) /\ dget "episode_per_epoch" c' = Some (@CNat _ per) /\
    dget "max_episodes" c' = Some (@CNat _ max) /\ dget "early_stopping_patience" c' = Some (@CNat _ 3).
  Proof.
    cbn zeta. unfold generate_training_config.
    repeat split; repeat (rewrite dget_dset_other by discriminate); apply dget_dset_same.
  Qed.
  Theorem C142_algorithm_partial a (c : option config) g d c1 c' k : dget a algorithms = Some (Framework g d) ->
    g (match c with Some c => c | None => [] end) = Ok c1 -> generate_algorithm_config algorithms a c = Ok c' ->
    (k <> "gpus" -> (d = true -> k <> "num_processes" /\ k <> "num_nodes") -> dget k c' = dget k c1).
  Proof.
    intros A G E K1 K2. unfold generate_algorithm_config in E. rewrite A in E.
    change (or_empty c) with (match c with Some c => c | None => [] end) in E. rewrite G in E. cbn [bind] in E. injection E as <-.
    destruct d.
    - destruct (K2 eq_refl). rewrite !dget_dset_other by congruence. reflexivity.
    - rewrite dget_dset_other by congruence. reflexivity.
  Qed.
  (* whatever gpus the config asked for *)
  Theorem C142_gpus_refuted a (c : option config) g d c1 : dget a algorithms = Some (Framework g d) ->
    g (match c with Some c => c | None => [] end) = Ok c1 ->
    exists c', generate_algorithm_config algorithms a c = Ok c' /\
      dget "gpus" c' = Some (@CList _ (if d then [0; 0; 0] else [0])) /\
      (d = true -> dget "num_processes" c' = Some (@CNat _ 3) /\ dget "num_nodes" c' = Some (@CNat _ 1)).
  Proof.
    intros A G. unfold generate_algorithm_config. rewrite A.
    change (or_empty c) with (match c with Some c => c | None => [] end). rewrite G. cbn [bind]. eexists. split; [reflexivity|].
    destruct d; split; try discriminate;
      repeat split; repeat (rewrite dget_dset_other by discriminate); apply dget_dset_same.
  Qed.

  (* ---- C143: names ---- *)
  (* the algorithms listed as available give their config *)
  Theorem C143_algorithms_partial a (c : option config) : NoDup (map fst algorithms) ->
    (In a (get_available_algorithms algorithms) <-> exists g d, dget a algorithms = Some (Framework g d)) /\
    (~ In a (get_available_algorithms algorithms) -> dget a algorithms <> Some TorchFramework ->
       generate_algorithm_config algorithms a c = Err EValue).
  Proof.
    intros ND.
    assert (L : In a (get_available_algorithms algorithms) <-> exists g d, dget a algorithms = Some (Framework g d)).
    { unfold get_available_algorithms. rewrite in_map_iff. split.
      - intros [[k x] [E I]]. cbn in E. subst k. apply filter_In in I. destruct I as [I B]. cbn in B.
        destruct x as [g d| |]; try discriminate. exists g, d. now apply dget_In.
      - intros [g [d E]]. exists (a, Framework g d). split; [reflexivity|]. apply filter_In. split; [|reflexivity].
        now apply dget_Some_In. }
    split; [exact L|]. intros NI NT. unfold generate_algorithm_config.
    destruct (dget a algorithms) as [[g d| |]|] eqn:E; try reflexivity; [|congruence].
    exfalso. apply NI, L. eauto.
  Qed.
  (* no environment gives its config: isinstance(..., callable) raises TypeError *)
  Theorem C143_refuted e (c : option config) m l : dget e envs = Some m -> env_launch m = Some l ->
    generate_env_config envs e c = Err EType.
  Proof. intros E L. unfold generate_env_config. now rewrite E, L. Qed.
  Theorem C143_unknown_partial e (c : option config) : dget e envs = None \/ (exists m, dget e envs = Some m /\ env_launch m = None) ->
    generate_env_config envs e c = Err EValue.
  Proof. intros [E|(m & E & L)]; unfold generate_env_config; rewrite E; [|rewrite L]; reflexivity. Qed.
  (* the base class is taken for an algorithm: NotImplementedError *)
  Theorem C143_base_refuted a (c : option config) : dget a algorithms = Some TorchFramework ->
    generate_algorithm_config algorithms a c = Err EOther.
  Proof. intros E. unfold generate_algorithm_config. now rewrite E. Qed.

  (* ---- C144: launch ---- *)
  (* a complete config with a known environment is handed to it; otherwise nothing is launched *)
  Theorem C144_launch (c : config) :
    (forall k, In k ["root_dir"; "episode_per_epoch"; "max_episodes"; "early_stopping_patience"; "env"; "train_env_config";
                     "test_env_config"; "frame"; "frame_config"] -> In k (dkeys c)) ->
    forall e m l, dget "env" c = Some (@CStr _ e) -> dget e envs = Some m -> env_launch m = Some l -> launch envs c = l c.
  Proof.
    intros K e m l E M L. unfold launch.
    assert (R : forall ks, (forall k, In k ks -> In k (dkeys c)) -> require ks c = Ok tt).
    { intros ks H. unfold require. replace (forallb (fun k => dmem k c) ks) with true; [reflexivity|]. symmetry.
      apply forallb_forall. intros k I. apply dmem_true. auto. }
    rewrite (R training_keys) by (intros k I; apply K; cbn in I |- *; tauto). cbn [bind].
    rewrite (R env_keys) by (intros k I; apply K; cbn in I |- *; tauto). cbn [bind].
    rewrite (R algorithm_keys) by (intros k I; apply K; cbn in I |- *; tauto). cbn [bind].
    now rewrite E, M, L.
  Qed.
  Theorem C144_incomplete (c : config) k :
    In k ["root_dir"; "episode_per_epoch"; "max_episodes"; "early_stopping_patience"; "env"; "train_env_config";
          "test_env_config"; "frame"; "frame_config"] -> ~ In k (dkeys c) -> launch envs c = Err EAssert.
  Proof.
    intros I N. unfold launch.
    assert (R : forall ks, (In k ks -> require ks c = Err EAssert) /\ (require ks c = Ok tt \/ require ks c = Err EAssert)).
    { intros ks. unfold require. destruct (forallb (fun k => dmem k c) ks) eqn:F; split; auto. intros J. exfalso. apply N.
      apply dmem_true. rewrite forallb_forall in F. now apply F. }
    destruct (R training_keys) as [R1 [S1|S1]]; rewrite S1; cbn [bind]; [|reflexivity].
    destruct (R env_keys) as [R2 [S2|S2]]; rewrite S2; cbn [bind]; [|reflexivity].
    destruct (R algorithm_keys) as [R3 [S3|S3]]; rewrite S3; cbn [bind]; [|reflexivity].
    exfalso. assert (X : In k training_keys \/ In k env_keys \/ In k algorithm_keys) by (cbn in I |- *; tauto).
    destruct X as [X|[X|X]]; [apply R1 in X|apply R2 in X|apply R3 in X]; congruence.
  Qed.
  (* an unknown environment: AttributeError, not the ValueError of the other functions *)
  Theorem C144_refuted (c : config) : (forall k, In k ["root_dir"; "episode_per_epoch"; "max_episodes"; "early_stopping_patience";
      "env"; "train_env_config"; "test_env_config"; "frame"; "frame_config"] -> In k (dkeys c)) ->
    (forall e, dget "env" c = Some (@CStr _ e) -> dget e envs = None \/ (exists m, dget e envs = Some m /\ env_launch m = None) ->
       launch envs c = Err EAttr) /\
    ((forall e, dget "env" c <> Some (@CStr _ e)) -> launch envs c = Err EType).
  Proof.
    intros K. unfold launch.
    assert (R : forall ks, (forall k, In k ks -> In k (dkeys c)) -> require ks c = Ok tt).
    { intros ks H. unfold require. replace (forallb (fun k => dmem k c) ks) with true; [reflexivity|]. symmetry.
      apply forallb_forall. intros k I. apply dmem_true. auto. }
    rewrite (R training_keys) by (intros k I; apply K; cbn in I |- *; tauto). cbn [bind].
    rewrite (R env_keys) by (intros k I; apply K; cbn in I |- *; tauto). cbn [bind].
    rewrite (R algorithm_keys) by (intros k I; apply K; cbn in I |- *; tauto). cbn [bind].
    split.
    - intros e -> [->|(m & -> & ->)]; reflexivity.
    - intros N. destruct (dget "env" c) as [[e| | |]|]; try reflexivity. now specialize (N e).
  Qed.
End Auto.
Print Assumptions C142_training_partial.
Print Assumptions C142_training_refuted.
Print Assumptions C142_algorithm_partial.
Print Assumptions C142_gpus_refuted.
Print Assumptions C143_algorithms_partial.
Print Assumptions C143_refuted.
Print Assumptions C143_unknown_partial.
Print Assumptions C143_base_refuted.
Print Assumptions C144_launch.
Print Assumptions C144_incomplete.
Print Assumptions C144_refuted.

Definition ex_algorithms : list (string * @algo unit) :=
  [("DQN", Framework (fun c => Ok (dset "frame" (@CStr _ "DQN") c)) false);
   ("A3C", Framework (fun c => Ok (dset "frame" (@CStr _ "A3C") c)) true); ("TorchFramework", TorchFramework); ("warnings", Something)].
Definition ex_envs : list (string * @env unit) := [("openai_gym", MkEnv (Some (fun _ => Ok tt)) (Some (fun c => Ok c)))].
Example C142_nonvacuous :
  generate_training_config "trial" 10 100 (Some [("max_episodes", @CNat unit 7); ("other", @CNat unit 8)]) =
    [("max_episodes", @CNat unit 100); ("other", @CNat unit 8); ("root_dir", @CStr unit "trial"); ("episode_per_epoch", @CNat unit 10);
     ("early_stopping_patience", @CNat unit 3)] /\
  generate_algorithm_config ex_algorithms "DQN" (Some [("gpus", @CList unit [1]); ("k", @CNat unit 1)]) =
    Ok [("gpus", @CList unit [0]); ("k", @CNat unit 1); ("frame", @CStr unit "DQN")].
Proof. split; reflexivity. Qed.
Example C143_nonvacuous :
  get_available_algorithms ex_algorithms = ["DQN"; "A3C"] /\
  generate_algorithm_config ex_algorithms "warnings" None = Err EValue /\
  generate_env_config ex_envs "openai_gym" None = Err EType.
Proof. repeat split; reflexivity. Qed.
Example C144_nonvacuous :
  let c := [("env", @CStr unit "openai_gym"); ("train_env_config", @CNat unit 0); ("test_env_config", @CNat unit 0); ("frame", @CNat unit 0);
            ("frame_config", @CNat unit 0)] in
  launch ex_envs c = Err EAssert /\ launch ex_envs (generate_training_config "t" 1 2 (Some c)) = Ok tt /\
  launch ex_envs (dset "env" (@CStr _ "x") (generate_training_config "t" 1 2 (Some c))) = Err EAttr.
Proof. repeat split; reflexivity. Qed.
