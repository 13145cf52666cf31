(* C73, C74: exceptions of threads and processes, machin/parallel/thread.py and process.py. *)
From Verif Require Import Lib.Base Model.Watch.
Local Arguments Nat.leb : simpl never.
Local Arguments Nat.eqb : simpl never.

(* C73 *)
Theorem C73_thread : forall X (target : option X) cleaner,
  let t := t_finish target cleaner t_new in
  let failures := (match target with Some e => [e] | None => [] end) ++
                  (match cleaner with Some (Some e) => [e] | _ => [] end) in
  (failures = [] -> t_watch t = None /\ t_exception t = None) /\
  (failures <> [] -> t_watch t = Some failures /\ t_exception t = Some failures).
Proof.
  intros X target cleaner. destruct target as [e|], cleaner as [[e'|]|]; cbn; split; intros H;
    try discriminate; try (exfalso; now apply H); auto.
Qed.
Print Assumptions C73_thread.
Theorem C73_before_end : forall X, @t_watch X t_new = None /\ @t_exception X t_new = None.
Proof. split; reflexivity. Qed.
Print Assumptions C73_before_end.
Example C73_nonvacuous :
  t_watch (t_finish (Some 1) (Some (Some 2)) t_new) = Some [1; 2] /\
  t_watch (t_finish None (Some (Some 2)) t_new) = Some [2] /\
  @t_watch nat (t_finish None (Some None) t_new) = None.
Proof. repeat split. Qed.

(* C74 *)
Section Inv.
  Variables cap size : nat.
  Variable fails : bool.
  Definition read_so_far (s : pst) : nat := match par s with Reading _ got => got | _ => 0 end.
  Definition left_of (c : child) : nat := match c with Running => size | Sending l => l | Exited => 0 end.
  (* bytes are conserved; the message is cached once all of it was read *)
  Definition inv (s : pst) : Prop :=
    (if fails then
       (cached s = false -> left_of (ch s) + pipe s + read_so_far s = size) /\
       (cached s = true -> ch s = Exited /\ pipe s = 0 /\ par s = Idle) /\
       (match ch s with Running => pipe s = 0 /\ read_so_far s = 0 | Sending l => 0 < l | Exited => True end)
     else cached s = false /\ pipe s = 0 /\ par s = Idle /\ (ch s = Running \/ ch s = Exited)) /\
    pipe s <= cap /\ (par s <> Idle -> 0 < size /\ ch s <> Running).
  Hypothesis S1 : 0 < size.
  Lemma inv_step s a : inv s -> inv (pstep cap size fails s a).
  Proof.
    destruct s as [c p q ca an]. unfold inv, read_so_far. intros (H1 & H2 & H3).
    destruct a; cbn in *.
    - destruct c; cbn in *; auto. destruct fails; cbn; intuition; try congruence.
    - destruct c as [|l|]; cbn in *; auto.
      destruct (Nat.leb_spec 1 n), (Nat.leb_spec n l), (Nat.leb_spec (p + n) cap); cbn; auto.
      destruct fails; [|intuition congruence]. destruct (Nat.eqb_spec n l) as [->|N]; cbn; intuition (try congruence; try lia).
    - destruct q; cbn in *; auto. destruct (Nat.leb_spec 1 p); cbn.
      + destruct fails; intuition (try congruence; try lia); destruct c; intuition (try congruence; try lia).
      + destruct fails; intuition (try congruence; try lia).
    - destruct q; cbn in *; auto. destruct c; cbn in *; auto.
      destruct ca; cbn; destruct fails; intuition (try congruence; try lia).
    - destruct q; cbn in *; auto. destruct ca; cbn; [destruct fails; intuition (try congruence; try lia)|].
      destruct (Nat.leb_spec 1 p); cbn.
      + destruct fails; intuition (try congruence; try lia); destruct c; intuition (try congruence; try lia).
      + destruct fails; intuition (try congruence; try lia).
    - destruct q as [| |r g]; cbn in *; auto.
      destruct (Nat.leb_spec 1 n), (Nat.leb_spec n p); cbn; auto.
      destruct (Nat.eqb_spec (g + n) size); cbn; destruct fails; try (intuition congruence).
      + destruct ca; [intuition congruence|].
        destruct c as [|l|]; cbn in *; intuition (try congruence; try lia).
      + destruct ca; [intuition congruence|].
        destruct c as [|l|]; cbn in *; intuition (try congruence; try lia).
  Qed.
  Lemma inv_new : inv p_new.
  Proof. unfold inv. cbn. destruct fails; intuition (try congruence; try lia). Qed.
  Lemma inv_run ls : forall s, inv s -> inv (prun cap size fails s ls).
  Proof. induction ls as [|a r IH]; intros s V; cbn; auto. apply IH. now apply inv_step. Qed.
End Inv.

(* A process that ends normally is never reported, and watch() never blocks. *)
Theorem C74_no_failure : forall cap size ls, 0 < size ->
  let s := prun cap size false p_new ls in
  par s = Idle /\ ~ In Raised (answers s) /\ ~ In Some_exception (answers s).
Proof.
  intros cap size ls S1. cbn zeta.
  assert (G : forall s, inv cap size false s -> ~ In Raised (answers s) -> ~ In Some_exception (answers s) ->
    let s' := prun cap size false s ls in par s' = Idle /\ ~ In Raised (answers s') /\ ~ In Some_exception (answers s')).
  { induction ls as [|a r IH]; intros s V N1 N2; cbn in *.
    - destruct V as [(_ & _ & V & _) _]. auto.
    - assert (V' := @inv_step cap size false S1 s a V). apply IH; auto; clear IH V';
        destruct s as [c p q ca an]; destruct V as [(V1 & V2 & V3 & V4) _]; cbn in *; subst;
        destruct a; cbn; auto; try (destruct c; cbn; auto; fail);
        try (destruct c; cbn; auto; destruct (_ && _)%bool; cbn; auto; fail);
        intros I; apply in_app_or in I as [I|[I|[]]]; auto; discriminate. }
  apply G; cbn; auto. now apply inv_new.
Qed.
Print Assumptions C74_no_failure.

(* With a message that fits into the pipe: the first watch() after the end raises, if the property was not
   read before, whatever was called earlier. Missing: every later call, and long messages. *)
Theorem C74_first_partial : forall cap size ls, 0 < size ->
  let s := prun cap size true p_new ls in
  ch s = Exited -> par s = Idle -> cached s = false ->
  answers (prun cap size true s [Watch; Joined; Read size]) = answers s ++ [Raised].
Proof.
  intros cap size ls S1 s. assert (V : inv cap size true s) by (apply inv_run; auto; now apply inv_new).
  clearbody s. destruct s as [c p q ca an]. cbn [ch par cached]. intros -> -> ->. destruct V as [(V1 & _) _]. cbn in *.
  specialize (V1 eq_refl). replace p with size by lia.
  destruct (Nat.leb_spec 1 size); [|lia]. cbn. destruct (Nat.leb_spec 1 size); [|lia].
  rewrite Nat.leb_refl, Nat.eqb_refl. reflexivity.
Qed.
Print Assumptions C74_first_partial.

(* The property "exception": the first use after the end reads the message and returns it, later ones return it again. *)
Theorem C74_property : forall cap size ls, 0 < size ->
  let s := prun cap size true p_new ls in
  ch s = Exited -> par s = Idle ->
  (cached s = false -> answers (prun cap size true s [Exception; Read size]) = answers s ++ [Some_exception] /\
                       cached (prun cap size true s [Exception; Read size]) = true) /\
  (cached s = true -> answers (prun cap size true s [Exception]) = answers s ++ [Some_exception]).
Proof.
  intros cap size ls S1 s. assert (V : inv cap size true s) by (apply inv_run; auto; now apply inv_new).
  clearbody s. destruct s as [c p q ca an]. cbn [ch par cached]. intros -> ->. destruct V as [(V1 & _) _]. cbn in *.
  split; intros ->; [|reflexivity].
  specialize (V1 eq_refl). replace p with size by lia.
  destruct (Nat.leb_spec 1 size); [|lia]. cbn. destruct (Nat.leb_spec 1 size); [|lia].
  rewrite Nat.leb_refl, Nat.eqb_refl. split; reflexivity.
Qed.
Print Assumptions C74_property.

(* Once watch() has raised or the property was read, no later watch() raises. *)
Theorem C74_again_refuted : forall cap size ls ls', 0 < size ->
  let s := prun cap size true p_new ls in
  cached s = true -> exists more, ~ In Raised more /\
    answers (prun cap size true s ls') = answers s ++ more.
Proof.
  intros cap size ls ls' S1 s C. assert (V : inv cap size true s) by (apply inv_run; auto; now apply inv_new).
  clearbody s. revert s C V. induction ls' as [|a r IH]; intros s C V; cbn.
  - exists []. rewrite app_nil_r. cbn; tauto.
  - assert (V' := @inv_step cap size true S1 s a V). destruct s as [c p q ca an]. cbn in C. subst ca.
    destruct V as [(_ & V & _) _]. destruct (V eq_refl) as (V1 & V2 & V3). cbn in V1, V2, V3. subst.
    assert (Q : exists m, ~ In Raised m /\ answers (pstep cap size true (Build_pst Exited 0 Idle true an) a) = an ++ m /\
                          cached (pstep cap size true (Build_pst Exited 0 Idle true an) a) = true).
    { destruct a; cbn; try (exists []; rewrite app_nil_r; cbn; tauto).
      - exists [Silent]. repeat split. intros [D|[]]. discriminate.
      - exists [Some_exception]. repeat split. intros [D|[]]. discriminate. }
    destruct Q as (m & N & E & Cc). destruct (IH _ Cc V') as (more & N' & E'). exists (m ++ more). split.
    + intros I. apply in_app_or in I as [I|I]; auto.
    + cbn [answers] in *. unfold prun in *. rewrite E', E, app_assoc. reflexivity.
Qed.
Print Assumptions C74_again_refuted.

(* A message longer than the pipe buffer: a watch() call made when a part of it is there never ends,
   because the child waits for the reader and the reader for the child. *)
Lemma stuck cap size s ls : cap < size -> inv cap size true s -> par s = Joining ->
  par (prun cap size true s ls) = Joining /\ answers (prun cap size true s ls) = answers s.
Proof.
  intros L V J. revert s J V. induction ls as [|a r IH]; intros s J V; [cbn; auto|].
  assert (par (pstep cap size true s a) = Joining /\ answers (pstep cap size true s a) = answers s) as [Q1 Q2].
  { destruct s as [c p q ca an]. cbn in J. subst q. destruct V as [(V1 & V2 & V3) (V4 & V5)]. cbn in *.
    assert (ca = false) by (destruct ca; auto; destruct V2 as (_ & _ & V2); auto; discriminate). subst ca.
    specialize (V1 eq_refl). destruct a; cbn; auto.
    - destruct c; auto.
    - destruct c; cbn; auto. destruct (_ && _)%bool; auto.
    - destruct c; auto. cbn in V1. lia. }
  change (prun cap size true s (a :: r)) with (prun cap size true (pstep cap size true s a) r).
  destruct (IH (pstep cap size true s a) Q1) as [A B]; [apply inv_step; auto; lia|]. now rewrite B.
Qed.
Theorem C74_deadlock_refuted : forall cap size, 0 < cap -> cap < size ->
  (exists ls, let s := prun cap size true p_new ls in par s = Idle /\ 0 < pipe s) /\
  forall ls ls', let s := prun cap size true p_new ls in
    par s = Idle -> 0 < pipe s -> cached s = false ->
    par (prun cap size true s (Watch :: ls')) <> Idle /\ answers (prun cap size true s (Watch :: ls')) = answers s.
Proof.
  intros cap size C L. split.
  - exists [ChildEnd; ChildWrite 1]. cbn. destruct (Nat.leb_spec 1 size); [|lia]. destruct (Nat.leb_spec 1 cap); [|lia]. cbn. auto.
  - intros ls ls' s I P CA. assert (V : inv cap size true s) by (apply inv_run; auto; [lia|apply inv_new; lia]).
    clearbody s. change (prun cap size true s (Watch :: ls')) with (prun cap size true (pstep cap size true s Watch) ls').
    assert (par (pstep cap size true s Watch) = Joining /\ answers (pstep cap size true s Watch) = answers s) as [Q1 Q2].
    { cbn [pstep]. rewrite I. destruct (Nat.leb_spec 1 (pipe s)); [cbn; auto|lia]. }
    destruct (stuck cap size (pstep cap size true s Watch) ls' L) as [A B]; auto; [apply inv_step; auto; lia|].
    rewrite A, B. split; [discriminate|auto].
Qed.
Print Assumptions C74_deadlock_refuted.
Example C74_nonvacuous :
  answers (prun 10 4 true p_new [Watch; ChildEnd; ChildWrite 4; Watch; Joined; Read 4; Watch; Exception]) =
    [Silent; Raised; Silent; Some_exception] /\
  let s := prun 10 25 true p_new [ChildEnd; ChildWrite 10; Watch; Joined; ChildWrite 1] in
  (par s, ch s, pipe s) = (Joining, Sending 15, 10) /\
  answers (prun 10 25 true p_new [ChildEnd; ChildWrite 10; Exception; Read 10; ChildWrite 10; Read 10; ChildWrite 5; Read 5]) =
    [Some_exception].
Proof. repeat split. Qed.
