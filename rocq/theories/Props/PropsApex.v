(* C118-C120: the Apex frameworks. *)
From Coq Require Import Lia Qcanon.
From Verif Require Import Lib.Base Lib.Rat Model.Servers Spec.ServerSpec Proofs.ServerProofs Model.ActorCritic Model.Apex.
Open Scope nat_scope.
Set Implicit Arguments.

(* ---- C118: options of the act functions reach the base class ---- *)
(* DQNApex and the other act functions of DDPGApex: the base function with the given arguments *)
Theorem C118_forwarded_partial (P S R A : Type) (base : P -> S -> bool -> A -> R) answer f s use_target args :
  snd (apex_act base answer f s use_target args) = base (a_prm (guard_pull answer use_target f)) s use_target args.
Proof. reflexivity. Qed.
Theorem C118_dqn_partial (P S R : Type) (base : P -> S -> bool -> bool -> R) answer f s use_target decay :
  snd (dqn_act_noise base answer f s use_target decay) = base (a_prm (guard_pull answer use_target f)) s use_target decay.
Proof. reflexivity. Qed.
(* DDPGApex.act_discrete_with_noise ignores choose_max_prob *)
Theorem C118_refuted (P S R C : Type) (default c : C) (base : P -> S -> bool -> C -> R) answer f s use_target :
  base (a_prm (guard_pull answer use_target f)) s use_target c <> base (a_prm (guard_pull answer use_target f)) s use_target default ->
  snd (ddpg_act_noise default base answer f s use_target (Some c)) <> base (a_prm (guard_pull answer use_target f)) s use_target c.
Proof. intros H E. apply H. symmetry. exact E. Qed.
(* with the action selection of ddpg.py: choose_max_prob = 1 asks for the distribution of the network itself; for every
   network output with a row that the default changes, another distribution is sampled from *)
Theorem C118_distribution_refuted (ex lg : Qc -> Qc) (default : Qc) draw (row : list Qc) (f : aframe (list (list Qc))) :
  a_syncing f = false -> a_prm f = [row] -> soften ex lg default row <> row ->
  let base := fun (p : list (list Qc)) (_ : unit) (_ : bool) c => act_discrete_with_noise ex lg c draw p in
  base (a_prm f) tt false 1%Qc = Ok ([draw [row] 0 0], [row]) /\
  snd (ddpg_act_noise default base None f tt false (Some 1%Qc)) <> base (a_prm f) tt false 1%Qc.
Proof.
  intros Hs Hp Hd base.
  assert (E1 : soften ex lg 1%Qc row = row).
  { unfold soften. replace (Qcltb 1 1) with false by reflexivity. now rewrite Bool.andb_false_r. }
  assert (E : base (a_prm f) tt false 1%Qc = Ok ([draw [row] 0 0], [row])).
  { unfold base, act_discrete_with_noise. rewrite Hp. cbn [map]. rewrite E1. reflexivity. }
  split; [exact E|]. rewrite E. unfold ddpg_act_noise, guard_pull. rewrite Hs. cbn [andb snd].
  unfold base, act_discrete_with_noise. rewrite Hp. cbn [map]. intros Q. apply Hd.
  cbn in Q. congruence.
Qed.
Print Assumptions C118_forwarded_partial.
Print Assumptions C118_dqn_partial.
Print Assumptions C118_refuted.
Print Assumptions C118_distribution_refuted.
Example C118_nonvacuous :
  snd (ddpg_act_noise 5 (fun p s (_ : bool) c => p + s + c) (Some 100) (MkAF 0 true false) 10 false (Some 7)) = 115 /\
  snd (apex_act (fun p s (_ : bool) c => p + s + c) (Some 100) (MkAF 0 true false) 10 false 7) = 117.
Proof. split; reflexivity. Qed.

(* ---- C119: when networks are pulled ---- *)
Section Pulls.
  Context {P S R A : Type} (base : P -> S -> bool -> A -> R) (crit : P -> S -> R).
  (* the act functions: exactly if syncing, on the online network, outside DistributedDataParallel *)
  Theorem C119_act_partial answer f s use_target args :
    a_prm (fst (apex_act base answer f s use_target args)) =
    match answer with
    | Some p => if a_syncing f then if use_target then a_prm f else if a_ddp f then a_prm f else p else a_prm f
    | None => a_prm f
    end.
  Proof. unfold apex_act, guard_pull. destruct answer, (a_syncing f), use_target, (a_ddp f); reflexivity. Qed.
  (* an episode that starts with manual_sync and set_sync(False) is played with one network *)
  Fixpoint plays (l : list (option P * S * A)) (f : aframe P) : list P :=
    match l with
    | [] => []
    | (ans, s, a) :: r => let f' := fst (apex_act base ans f s false a) in a_prm f' :: plays r f'
    end.
  Theorem C119_episode_partial l ans0 f :
    plays l (a_set_sync false (a_manual_sync ans0 f))
    = repeat (match ans0 with Some p => if a_ddp f then a_prm f else p | None => a_prm f end) (length l).
  Proof.
    replace (match ans0 with Some p => if a_ddp f then a_prm f else p | None => a_prm f end)
      with (a_prm (a_manual_sync ans0 f)) by (unfold a_manual_sync; destruct ans0, (a_ddp f); reflexivity).
    set (g := a_set_sync false (a_manual_sync ans0 f)).
    assert (Hs : a_syncing g = false) by reflexivity.
    assert (Hp : a_prm g = a_prm (a_manual_sync ans0 f)) by reflexivity. rewrite <- Hp. clearbody g. clear Hp.
    induction l as [|[[ans s] a] l IH]; [reflexivity|]. cbn [plays length repeat].
    replace (fst (apex_act base ans g s false a)) with g by (unfold apex_act, guard_pull; now rewrite Hs). now rewrite IH.
  Qed.
  (* the documentation promises a pull before criticize; there is none *)
  Theorem C119_refuted p f s : a_syncing f = true -> a_ddp f = false -> crit p s <> crit (a_prm f) s ->
    snd (apex_criticize crit (Some p) f s) <> crit p s /\ a_prm (fst (apex_criticize crit (Some p) f s)) = a_prm f.
  Proof. intros _ _ N. split; [|reflexivity]. cbn. congruence. Qed.
End Pulls.
Print Assumptions C119_act_partial.
Print Assumptions C119_episode_partial.
Print Assumptions C119_refuted.
Example C119_nonvacuous :
  plays (fun p (s : unit) (_ : bool) (_ : unit) => p) [(Some 5, tt, tt); (None, tt, tt); (Some 7, tt, tt)] (MkAF 0 true false) = [5; 5; 7] /\
  plays (fun p (s : unit) (_ : bool) (_ : unit) => p) [(Some 5, tt, tt); (None, tt, tt); (Some 7, tt, tt)]
        (a_set_sync false (a_manual_sync (Some 3) (MkAF 0 true false))) = [3; 3; 3].
Proof. split; reflexivity. Qed.

(* ---- C120: several learners push to one model server ---- *)
Section Race.
  Context {A : Type} (learner : nat -> bool).
  (* learners train and push without pulling; the other processes train and pull, but never push *)
  Definition apex_action (a : mact A) : Prop :=
    match a with
    | MTrain _ _ => True
    | MPush i pof => learner i = true /\ pof = false
    | MPull i => learner i = false
    | MPullFail _ => False
    end.
  (* the parameters process i pushes, in order: a function of its own training only *)
  Fixpoint pushed_by (i : nat) (p : A) (acts : list (mact A)) : list A :=
    match acts with
    | [] => []
    | MTrain j q :: r => pushed_by i (if j =? i then q else p) r
    | MPush j _ :: r => (if j =? i then [p] else []) ++ pushed_by i p r
    | _ :: r => pushed_by i p r
    end.
  (* the first process that pushes *)
  Fixpoint first_pusher (acts : list (mact A)) : option nat :=
    match acts with [] => None | MPush j _ :: _ => Some j | _ :: r => first_pusher r end.

  Definition actor_of (a : mact A) : nat := match a with MTrain i _ => i | MPush i _ => i | MPull i => i | MPullFail i => i end.
  Lemma others depth s a j : j <> actor_of a -> ms_cl (fst (ms_step depth s a)) j = ms_cl s j.
  Proof.
    destruct a as [i p|i pof|i|i]; cbn [actor_of ms_step]; intros N.
    - destruct (cl_wait _); [reflexivity|]. cbn [fst ms_cl]. now apply setc_other.
    - destruct (cl_wait _); [reflexivity|]. destruct (os_push _ _ _ _ _ _) as [srv [[]|e]]; cbn [fst ms_cl]; auto; now apply setc_other.
    - destruct (cl_wait _); [|reflexivity]. destruct (os_pull _ _ _) as [[[p v]|]|e]; cbn [fst ms_cl]; auto; now apply setc_other.
    - destruct (cl_wait _); [reflexivity|]. destruct (os_pull _ _ _) as [[[p v]|]|e]; cbn [fst ms_cl]; auto.
      destruct (match cl_ver _ with Some _ => _ | None => _ end); [|reflexivity]. now apply setc_other.
  Qed.
  Lemma push_own depth (s : msys A) i : cl_wait (ms_cl s i) = false -> snd (ms_step depth s (MPush i false)) <> @EvErr A ->
    cl_par (ms_cl (fst (ms_step depth s (MPush i false))) i) = cl_par (ms_cl s i) /\
    cl_wait (ms_cl (fst (ms_step depth s (MPush i false))) i) = false /\
    (snd (ms_step depth s (MPush i false)) = EvReject -> ver_of (ms_cl (fst (ms_step depth s (MPush i false))) i) = ver_of (ms_cl s i)).
  Proof.
    intros W. cbn [ms_step]. rewrite W. destruct (os_push _ _ _ _ _ _) as [srv [[]|e]]; cbn [fst snd ms_cl]; rewrite ?setc_same; cbn; auto.
    intros _. split; [reflexivity|]. split; [reflexivity|]. discriminate.
  Qed.
  Lemma no_wait depth (s : msys A) (a : mact A) : apex_action a -> (forall i, cl_wait (ms_cl s i) = false) -> snd (ms_step depth s a) <> @EvErr A ->
    forall i, cl_wait (ms_cl (fst (ms_step depth s a)) i) = false.
  Proof.
    intros Ha W NE i. destruct (Nat.eq_dec i (actor_of a)) as [->|N]; [|now rewrite others].
    destruct a as [j p|j pof|j|j]; cbn [apex_action actor_of] in *.
    - cbn [ms_step]. rewrite W. cbn [fst ms_cl]. now rewrite setc_same.
    - destruct Ha as [_ ->]. now apply push_own.
    - contradiction.
    - cbn [ms_step]. rewrite W. destruct (os_pull _ _ _) as [[[p v]|]|e]; cbn [fst ms_cl]; auto.
      destruct (match cl_ver _ with Some _ => _ | None => _ end); [|auto]. cbn [ms_cl]. now rewrite setc_same.
  Qed.
  (* training and pulling change no version of a learner, and a learner's parameters only by its own training *)
  Lemma quiet depth (s : msys A) (a : mact A) : apex_action a -> (forall i, cl_wait (ms_cl s i) = false) ->
    match a with MPush _ _ => False | _ => True end ->
    forall i, learner i = true -> ver_of (ms_cl (fst (ms_step depth s a)) i) = ver_of (ms_cl s i) /\
      cl_par (ms_cl (fst (ms_step depth s a)) i) = match a with MTrain j q => if j =? i then q else cl_par (ms_cl s i) | _ => cl_par (ms_cl s i) end.
  Proof.
    intros Ha W Hp i Hi. destruct a as [j p|j pof|j|j]; cbn [apex_action] in *; try contradiction.
    - cbn [ms_step]. rewrite W. cbn [fst ms_cl]. destruct (Nat.eqb_spec j i) as [->|N].
      + rewrite setc_same. split; reflexivity.
      + rewrite setc_other by congruence. auto.
    - assert (i <> j) by congruence. rewrite others by assumption. auto.
  Qed.
  Lemma quiet_event depth (s : msys A) (a : mact A) : (forall i, cl_wait (ms_cl s i) = false) ->
    match a with MPush _ _ => False | _ => True end -> apex_action a -> accepts [snd (ms_step depth s a)] = [].
  Proof.
    intros W Hp Ha. destruct a as [j p|j pof|j|j]; cbn [apex_action] in *; try contradiction; cbn [ms_step]; rewrite W.
    - reflexivity.
    - destruct (os_pull _ _ _) as [[[p v]|]|e]; reflexivity.
  Qed.
  Lemma accepts_cons (e : mev A) es : accepts (e :: es) = accepts [e] ++ accepts es.
  Proof. unfold accepts. cbn. now rewrite app_nil_r. Qed.

  Lemma won depth acts : forall s log w, MInv depth s log -> Forall apex_action acts ->
    (forall i, cl_wait (ms_cl s i) = false) -> learner w = true -> 0 < length log ->
    ver_of (ms_cl s w) = length log -> (forall j, learner j = true -> j <> w -> ver_of (ms_cl s j) = 0) ->
    map snd (accepts (snd (ms_run depth s acts))) = pushed_by w (cl_par (ms_cl s w)) acts.
  Proof.
    induction acts as [|a acts IH]; intros s log w I F W Lw Pos Vw Vo; [reflexivity|].
    inversion F as [|? ? Ha F']; subst.
    destruct (ms_step_inv a I) as (I1 & NE & _ & P1 & _).
    pose proof (@no_wait depth s a Ha W NE) as W1.
    assert (RUN : snd (ms_run depth s (a :: acts)) = snd (ms_step depth s a) :: snd (ms_run depth (fst (ms_step depth s a)) acts)).
    { cbn [ms_run]. destruct (ms_step depth s a) as [s1 e]. cbn [fst snd]. now destruct (ms_run depth s1 acts). }
    rewrite RUN, accepts_cons, map_app.
    destruct a as [i p|i pof|i|i].
    - (* MTrain *)
      rewrite quiet_event by (auto; cbn; auto). cbn [map app].
      destruct (@quiet depth s (MTrain i p) Ha W Logic.I w Lw) as [Q1 Q2].
      rewrite (quiet_event depth s (MTrain i p) W Logic.I Ha), app_nil_r in I1.
      rewrite (IH (fst (ms_step depth s (MTrain i p))) log w I1 F' W1 Lw Pos).
      + cbn [pushed_by]. rewrite Q2. reflexivity.
      + congruence.
      + intros j Hj N. destruct (@quiet depth s (MTrain i p) Ha W Logic.I j Hj) as [Q3 _]. rewrite Q3. auto.
    - (* MPush *)
      cbn in Ha. destruct Ha as [Li ->].
      destruct (P1 i false eq_refl (W i)) as [PA PR].
      destruct (push_own depth s i (W i) NE) as (O1 & O2 & O3).
      destruct (Nat.eq_dec i w) as [->|N].
      + destruct (PA Vw) as (Ev & Pp & Pv & _). rewrite Ev in *. cbn [accepts flat_map app map snd] in *.
        cbn [pushed_by]. rewrite Nat.eqb_refl. cbn [app]. f_equal.
        rewrite <- Pp. apply IH with (log := log ++ [(S (length log), cl_par (ms_cl s w))]); auto.
        * rewrite app_length. cbn. lia.
        * unfold ver_of. rewrite Pv, app_length. cbn. lia.
        * intros j Hj Nj. rewrite others by (cbn; congruence). auto.
      + assert (V0 : ver_of (ms_cl s i) <> length log) by (rewrite (Vo i Li N); lia).
        destruct (PR V0) as (Ev & _ & _). rewrite Ev in *. cbn [accepts flat_map app map] in *. rewrite app_nil_r in I1.
        cbn [pushed_by]. destruct (Nat.eqb_spec i w) as [E|_]; [contradiction|]. cbn [app].
        assert (Sw : ms_cl (fst (ms_step depth s (MPush i false))) w = ms_cl s w) by (apply others; cbn; congruence).
        rewrite <- Sw. apply IH with (log := log); auto.
        * now rewrite Sw.
        * intros j Hj Nj. destruct (Nat.eq_dec j i) as [->|Nji]; [rewrite O3 by reflexivity; auto|].
          rewrite others by (cbn; congruence). auto.
    - contradiction.
    - (* MPull *)
      rewrite quiet_event by (auto; cbn; auto). cbn [map app].
      destruct (@quiet depth s (MPull i) Ha W Logic.I w Lw) as [Q1 Q2].
      rewrite (quiet_event depth s (MPull i) W Logic.I Ha), app_nil_r in I1.
      rewrite (IH (fst (ms_step depth s (MPull i))) log w I1 F' W1 Lw Pos).
      + cbn [pushed_by]. rewrite Q2. reflexivity.
      + congruence.
      + intros j Hj N. destruct (@quiet depth s (MPull i) Ha W Logic.I j Hj) as [Q3 _]. rewrite Q3. auto.
  Qed.
  Lemma before depth acts : forall s, MInv depth s [] -> Forall apex_action acts ->
    (forall i, cl_wait (ms_cl s i) = false) -> (forall j, learner j = true -> ver_of (ms_cl s j) = 0) ->
    map snd (accepts (snd (ms_run depth s acts))) =
    match first_pusher acts with None => [] | Some w => pushed_by w (cl_par (ms_cl s w)) acts end.
  Proof.
    induction acts as [|a acts IH]; intros s I F W V; [reflexivity|].
    inversion F as [|? ? Ha F']; subst.
    destruct (ms_step_inv a I) as (I1 & NE & _ & P1 & _).
    pose proof (@no_wait depth s a Ha W NE) as W1.
    assert (RUN : snd (ms_run depth s (a :: acts)) = snd (ms_step depth s a) :: snd (ms_run depth (fst (ms_step depth s a)) acts)).
    { cbn [ms_run]. destruct (ms_step depth s a) as [s1 e]. cbn [fst snd]. now destruct (ms_run depth s1 acts). }
    rewrite RUN, accepts_cons, map_app.
    destruct a as [i p|i pof|i|i].
    - rewrite (quiet_event depth s (MTrain i p) W Logic.I Ha) in *. rewrite app_nil_r in I1. cbn [map app first_pusher].
      rewrite IH; auto.
      + destruct (first_pusher acts) as [w|] eqn:Ew; [|reflexivity].
        assert (Lw : learner w = true).
        { clear - Ew F'. induction F' as [|b l Hb F' IHl]; [discriminate|]. destruct b; cbn in *; auto.
          destruct Hb as [Hb _]. congruence. }
        destruct (@quiet depth s (MTrain i p) Ha W Logic.I w Lw) as [_ Q2]. cbn [pushed_by]. now rewrite Q2.
      + intros j Hj. destruct (@quiet depth s (MTrain i p) Ha W Logic.I j Hj) as [Q3 _]. rewrite Q3. auto.
    - cbn in Ha. destruct Ha as [Li ->]. destruct (P1 i false eq_refl (W i)) as [PA _].
      destruct (PA (V i Li)) as (Ev & Pp & Pv & _). rewrite Ev in *. cbn [accepts flat_map app map snd length] in *.
      cbn [first_pusher pushed_by]. rewrite Nat.eqb_refl. cbn [app]. f_equal. rewrite <- Pp.
      apply won with (log := [(1, cl_par (ms_cl s i))]); auto.
      + unfold ver_of. rewrite Pv. reflexivity.
      + intros j Hj Nj. rewrite others by (cbn; congruence). auto.
    - contradiction.
    - rewrite (quiet_event depth s (MPull i) W Logic.I Ha) in *. rewrite app_nil_r in I1. cbn [map app first_pusher].
      rewrite IH; auto.
      + destruct (first_pusher acts) as [w|] eqn:Ew; [|reflexivity].
        assert (Lw : learner w = true).
        { clear - Ew F'. induction F' as [|b l Hb F' IHl]; [discriminate|]. destruct b; cbn in *; auto.
          destruct Hb as [Hb _]. congruence. }
        destruct (@quiet depth s (MPull i) Ha W Logic.I w Lw) as [_ Q2]. cbn [pushed_by]. now rewrite Q2.
      + intros j Hj. destruct (@quiet depth s (MPull i) Ha W Logic.I j Hj) as [Q3 _]. rewrite Q3. auto.
  Qed.

  (* the accepted versions are exactly what the first learner to push has pushed, every other learner is refused for
     ever; the server holds that learner's newest push *)
  Theorem C120_single_writer depth (par : nat -> A) acts w : Forall apex_action acts -> first_pusher acts = Some w ->
    let run := ms_run depth (ms_init par) acts in
    let mine := pushed_by w (par w) acts in
    accepts (snd run) = combine (seq 1 (length mine)) mine /\
    exists p, last mine (par w) = p /\ os_pull (ms_srv (fst run)) 0 None = Ok (Some (p, length mine)).
  Proof.
    intros F E run mine.
    assert (M : map snd (accepts (snd run)) = mine).
    { unfold run, mine. rewrite (@before depth acts (ms_init par) (ms_init_inv depth par) F); auto. now rewrite E. }
    destruct (ms_run_inv acts (ms_init_inv depth par)) as (I & _ & _). cbn [app] in I. fold run in I.
    pose proof (mi_v I) as V.
    assert (L : length (accepts (snd run)) = length mine) by (rewrite <- M; symmetry; apply map_length).
    assert (C : accepts (snd run) = combine (seq 1 (length mine)) mine).
    { rewrite <- L, <- V, <- M. generalize (accepts (snd run)). clear.
      induction l as [|[v p] l IH]; cbn; [reflexivity|]. now rewrite <- IH. }
    split; [exact C|].
    assert (NE : mine <> []).
    { unfold mine. clear - E. revert E. generalize (par w). induction acts as [|a acts IH]; [discriminate|].
      intros p E. destruct a as [j q|j pof|j|j]; cbn in *; auto.
      injection E as ->. rewrite Nat.eqb_refl. discriminate. }
    exists (last mine (par w)). split; [reflexivity|].
    rewrite (@os_pull_one A depth (ms_srv (fst run)) (accepts (snd run)) (mi_o I) V).
    destruct (snoc_cases (accepts (snd run))) as [Z0|(l & [v p] & Z)].
    { rewrite Z0 in M. cbn in M. congruence. }
    rewrite Z. rewrite newest_snoc. f_equal. f_equal.
    rewrite Z, map_app in M. cbn in M. rewrite <- M. rewrite last_last.
    pose proof (versions_newest _ V) as N. rewrite Z, newest_snoc in N. destruct N as [N _].
    rewrite app_length in N. cbn in N. rewrite app_length, map_length. cbn. congruence.
  Qed.
  (* learners that stay in step (the k-th push of each has the parameters of round k): once every learner has pushed
     k times, the server is at round k or later *)
  Theorem C120_no_round_lost depth (par : nat -> A) (round : nat -> A) acts k : Forall apex_action acts ->
    (forall i, learner i = true -> forall n p, nth_error (pushed_by i (par i) acts) n = Some p -> p = round (S n)) ->
    (forall i, learner i = true -> k <= length (pushed_by i (par i) acts)) ->
    (exists i, learner i = true) -> 0 < k ->
    exists n, k <= n /\ os_pull (ms_srv (fst (ms_run depth (ms_init par) acts))) 0 None = Ok (Some (round n, n)).
  Proof.
    intros F R K (i0 & Hi0) Pos.
    destruct (first_pusher acts) as [w|] eqn:E.
    - assert (Lw : learner w = true).
      { clear - E F. induction F as [|b l Hb F' IHl]; [discriminate|]. destruct b; cbn in *; auto. destruct Hb as [Hb _]. congruence. }
      destruct (C120_single_writer depth par F E) as (_ & p & Hp & Q). cbn zeta in *.
      exists (length (pushed_by w (par w) acts)). split; [now apply K|]. rewrite Q. f_equal. f_equal. f_equal.
      rewrite <- Hp. pose proof (K w Lw) as Kw.
      destruct (snoc_cases (pushed_by w (par w) acts)) as [Z|(l & x & Z)]; [rewrite Z in Kw; cbn in Kw; lia|].
      rewrite Z, last_last, app_length. cbn. rewrite Nat.add_1_r. apply (R w Lw (length l)).
      rewrite Z, nth_error_app2, Nat.sub_diag by lia. reflexivity.
    - exfalso. specialize (K i0 Hi0). assert (Z : pushed_by i0 (par i0) acts = []).
      { clear - E. generalize (par i0). induction acts as [|a acts IH]; [reflexivity|]. intros p. destruct a; cbn in *; auto. discriminate. }
      rewrite Z in K. cbn in K. lia.
  Qed.
  (* the steps of update are among these, for every process that is a learner *)
  Theorem C120_update_steps i (p : A) : learner i = true ->
    Forall apex_action (learner_update i p) /\ pushed_by i p (learner_update i p) = [p] /\
    forall q, pushed_by i q (learner_update i p) = [p].
  Proof. intros L. split; [repeat constructor; auto|]. cbn. rewrite Nat.eqb_refl. auto. Qed.
End Race.
Print Assumptions C120_update_steps.
Print Assumptions C120_single_writer.
Print Assumptions C120_no_round_lost.
(* learners 0 and 1, sampler 2; learner 1 pushes first *)
Example C120_nonvacuous :
  let acts := learner_update 1 10 ++ learner_update 0 10 ++ [MPull 2] ++ learner_update 0 20 ++ learner_update 1 20 ++ [MPull 2] in
  let run := ms_run 1 (ms_init (fun _ => 0)) acts in
  accepts (snd run) = [(1, 10); (2, 20)] /\ cl_par (ms_cl (fst run) 2) = 20 /\
  first_pusher acts = Some 1 /\ Forall (apex_action (fun i => i <? 2)) acts.
Proof.
  split; [reflexivity|]. split; [reflexivity|]. split; [reflexivity|].
  repeat (constructor; [cbn; auto|]). constructor.
Qed.
