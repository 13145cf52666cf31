(* C195: all processes of an ARS group hold the same actor and go on together. *)
From Verif Require Import Lib.Base Model.Servers Spec.ServerSpec Proofs.ServerProofs Model.ArsSync.
Set Implicit Arguments.

Section ArsSync.
  Variables (A R F : Type) (n depth : nat) (norm : bool).
  Variables (compute : A -> list R -> A) (merge : F -> list F -> F) (adopt : F -> F -> F).
  Variables (res : nat -> nat -> R) (obs : nat -> nat -> F -> F).
  Variables (par : nat -> A) (fil : nat -> F).
  Notation step := (step n depth norm compute merge adopt res obs).
  Notation run := (run n depth norm compute merge adopt res obs par fil).
  Notation prog := (prog norm).

  (* What the training does: the actor after u updates, made from the manager's first one with the results of all
     processes; the filters with which the processes enter update u, and the manager's filter after it. *)
  Fixpoint actor_after (u : nat) : A :=
    match u with 0 => par 0 | S v => compute (actor_after v) (map (res v) (seq 0 n)) end.
  Fixpoint entering (u i : nat) : F :=
    match u with
    | 0 => obs 0 i (fil i)
    | S v => obs (S v) i (if norm then let m := merge (entering v 0) (map (entering v) (seq 0 n)) in
                                       if i =? 0 then m else adopt (entering v i) m
                          else entering v i)
    end.

  (* ---- expected state of a process at a position ---- *)
  Record loc := MkL { lb : nat; la : A; lv : nat; lf : F; lr : option R; lpr : bool; lpf : bool; lpm : bool }.
  Definition merged (u : nat) : F := merge (entering u 0) (map (entering u) (seq 0 n)).
  Definition exec (rd : nat) (x : loc) (c : instr) : loc :=
    let 'MkL b a v f r pr pf pm := x in
    match c with
    | IPairR => MkL b a v f r true pf pm
    | IPairF => MkL b a v f r pr true pm
    | IPairM => MkL b a v f r pr pf true
    | IUnpairR => MkL b a v f r false pf pm
    | IUnpairF => MkL b a v f r pr false pm
    | IUnpairM => MkL b a v f r pr pf false
    | IEnter => MkL (S b) a v f r pr pf pm
    | ILeave => x
    | IGather => MkL b (compute a (map (res (pred rd)) (seq 0 n))) v f r pr pf pm
    | IGatherF => MkL b a v (merge f (map (entering (pred rd)) (seq 0 n))) r pr pf pm
    | IAdopt => MkL b a v (adopt f (merged (pred rd))) r pr pf pm
    | IPush => MkL b a (S v) f r pr pf pm
    | IPull => MkL b (actor_after rd) (S rd) f r pr pf pm
    end.
  Definition per : nat := if norm then 8 else 5.
  Definition start (i rd : nat) : loc :=
    match rd with
    | 0 => MkL 0 (par i) 0 (fil i) None false false false
    | S u => MkL (2 + per * u) (actor_after u) (S u) (entering u i) (Some (res u i)) false false false
    end.
  Definition expected (i rd pc : nat) : loc := fold_left (exec rd) (firstn pc (prog i rd)) (start i rd).

  Lemma firstn_S {T} (l : list T) k x : nth_error l k = Some x -> firstn (S k) l = firstn k l ++ [x].
  Proof. revert k. induction l as [|y l IH]; intros [|k] E; cbn in *; try discriminate; [now injection E as ->|]. now rewrite IH. Qed.
  Lemma expected_S i rd pc c : nth_error (prog i rd) pc = Some c -> expected i rd (S pc) = exec rd (expected i rd pc) c.
  Proof. intros E. unfold expected. now rewrite (firstn_S _ _ E), fold_left_app. Qed.

  Definition ready (i rd : nat) (e : loc) (c : instr) : Prop :=
    match c with
    | IPairR => lpr e = false | IPairF => lpf e = false | IPairM => lpm e = false
    | IUnpairR => lpr e = true | IUnpairF => lpf e = true | IUnpairM => lpm e = true
    | IPush => i = 0 /\ lv e = rd /\ la e = actor_after rd
    | IPull => i <> 0 /\ lv e = rd
    | IGather => i = 0
    | IGatherF => i = 0
    | IAdopt => i <> 0
    | _ => True
    end.
  Lemma prog_ready i rd pc c : nth_error (prog i rd) pc = Some c -> ready i rd (expected i rd pc) c.
  Proof.
    unfold expected, ArsSync.prog, start, per. intros E. destruct norm, i as [|i], rd as [|rd]; cbn in E.
    all: do 32 (destruct pc as [|pc]; [cbn in E; try discriminate; injection E as <-; cbn; repeat split; congruence|]); destruct pc; discriminate.
  Qed.
  Lemma prog_leave i rd pc : nth_error (prog i rd) pc = Some IEnter -> nth_error (prog i rd) (S pc) = Some ILeave.
  Proof.
    unfold ArsSync.prog. intros E. destruct norm, i as [|i], rd as [|rd]; cbn in E |- *.
    all: do 32 (destruct pc as [|pc]; [cbn in E; try discriminate; reflexivity|]); destruct pc; discriminate.
  Qed.

  (* the end of a round is the beginning of the next *)
  Lemma prog_end i rd : let e := expected i rd (length (prog i rd)) in
    start i (S rd) = MkL (lb e) (la e) (lv e) (obs rd i (lf e)) (Some (res rd i)) (lpr e) (lpf e) (lpm e).
  Proof.
    unfold expected, ArsSync.prog, start, per, merged. destruct norm eqn:N, i as [|i], rd as [|rd]; cbn; rewrite ?N; f_equal; lia.
  Qed.

  Definition leaving (i rd pc : nat) : bool := match nth_error (prog i rd) pc with Some ILeave => true | _ => false end.
  (* j is in the same segment as i, which is not returning from a barrier *)
  Definition window (i j rd pc rd' pc' : nat) : Prop :=
    leaving i rd pc = false /\ lb (expected i rd pc) <= lb (expected j rd' pc') /\
    lb (expected j rd' pc') <= (if leaving j rd' pc' then 1 else 0) + lb (expected i rd pc) /\ pc' <= length (prog j rd').
  Lemma window_gather j rd pc rd' pc' c : nth_error (prog 0 rd) pc = Some c -> c = IGather \/ c = IGatherF -> window 0 j rd pc rd' pc' ->
    (j = 0 -> pc' = pc) -> let e := expected j rd' pc' in
    rd <> 0 /\ lpr e = true /\ lr e = Some (res (pred rd) j) /\ (c = IGatherF -> lpf e = true /\ lf e = entering (pred rd) j).
  Proof.
    intros E C (Lv & L1 & L2 & L3) J. unfold leaving, expected, ArsSync.prog, start, per in *.
    destruct norm, rd as [|u]; cbn in E.
    all: do 32 (try (destruct pc as [|pc]; [cbn in E; injection E as <-; try (exfalso; destruct C; discriminate)|])); try (destruct pc; discriminate).
    all: destruct j as [|j], rd' as [|u']; cbn in L1, L2, L3.
    all: do 32 (try (destruct pc' as [|pc']; [cbn in *; try (exfalso; lia)|])); try (exfalso; lia).
    all: assert (u' = u) as -> by lia; repeat split; auto; try (intros; subst; discriminate); now specialize (J eq_refl).
  Qed.
  Lemma window_adopt i rd pc rd' pc' : i <> 0 -> nth_error (prog i rd) pc = Some IAdopt -> window i 0 rd pc rd' pc' ->
    let e := expected 0 rd' pc' in lpm e = true /\ lf e = merged (pred rd).
  Proof.
    intros Hi E (Lv & L1 & L2 & L3). destruct i as [|i]; [congruence|]. unfold leaving, expected, ArsSync.prog, start, per in *.
    destruct norm, rd as [|u]; cbn in E.
    all: do 32 (try (destruct pc as [|pc]; [cbn in E; try discriminate|])); try (destruct pc; discriminate).
    all: destruct rd' as [|u']; cbn in L1, L2, L3.
    all: do 32 (try (destruct pc' as [|pc']; [cbn in *; try (exfalso; lia)|])); try (exfalso; lia).
    all: assert (u' = u) as -> by lia; repeat split; auto.
  Qed.
  Lemma window_pull i rd pc rd' pc' : i <> 0 -> nth_error (prog i rd) pc = Some IPull -> window i 0 rd pc rd' pc' ->
    lv (expected 0 rd' pc') = S rd.
  Proof.
    intros Hi E (Lv & L1 & L2 & L3). destruct i as [|i]; [congruence|]. unfold leaving, expected, ArsSync.prog, start, per in *.
    destruct norm, rd as [|u]; cbn in E.
    all: do 32 (try (destruct pc as [|pc]; [cbn in E; try discriminate|])); try (destruct pc; discriminate).
    all: destruct rd' as [|u']; cbn in L1, L2, L3.
    all: do 32 (try (destruct pc' as [|pc']; [cbn in *; try (exfalso; lia)|])); try (exfalso; lia).
    all: try reflexivity; assert (u' = u) as -> by lia; reflexivity.
  Qed.

  (* ---- invariant ---- *)
  Record good (i : nat) (p : proc R F) (c : client A) : Prop := {
    g_err : p_err p = None;
    g_pc : p_pc p <= length (prog i (p_rd p));
    g_wait : cl_wait c = false;
    g_loc : MkL (p_b p) (cl_par c) (ver_of c) (p_f p) (p_r p) (p_pr p) (p_pf p) (p_pm p) = expected i (p_rd p) (p_pc p);
    g_ver : cl_ver c = None \/ exists v, cl_ver c = Some (S v);
    g_got : exists k, k <= n /\ p_got p = map (res (pred (p_rd p))) (seq 0 k);
    g_gotf : exists k, k <= n /\ p_gotf p = map (entering (pred (p_rd p))) (seq 0 k) }.
  Definition served (m : msys A) : Prop :=
    exists log, MInv depth m log /\ length log = ver_of (ms_cl m 0) /\
      forall w x, newest_of log = Some (w, x) -> x = actor_after (length log - 1).
  Definition lev (i : nat) (p : proc R F) : bool := leaving i (p_rd p) (p_pc p).
  Definition bar (i : nat) (p q : proc R F) : Prop := p_b p <= (if lev i p then 1 else 0) + p_b q.
  Definition Inv (s : ast A R F) : Prop :=
    (forall i, i < n -> good i (a_proc s i) (ms_cl (a_ms s) i)) /\
    (forall i j, i < n -> j < n -> bar i (a_proc s i) (a_proc s j)) /\
    (n <> 0 -> served (a_ms s)).

  Lemma inv_init : Inv (init R par fil).
  Proof.
    split; [|split].
    - intros i _. cbn. split; cbn; auto; try lia; try (exists 0; split; [lia|reflexivity]).
    - intros i j _ _. unfold bar. cbn. lia.
    - intros _. exists []. split; [apply ms_init_inv|]. split; [reflexivity|discriminate].
  Qed.

  Lemma inv_upd s i p m : Inv s -> i < n -> good i p (ms_cl m i) -> (forall j, j <> i -> ms_cl m j = ms_cl (a_ms s) j) -> served m ->
    (forall j, j < n -> j <> i -> bar i p (a_proc s j)) -> p_b (a_proc s i) <= p_b p -> Inv (setp (setm s m) i p).
  Proof.
    intros (G & B & _) Hi Gi Fr Sv Bi Le. unfold setp, setm. cbn [a_proc a_ms]. split; [|split]; cbn [a_proc a_ms].
    - intros j Hj. destruct (Nat.eqb_spec j i) as [->|D]; auto. rewrite Fr by auto. auto.
    - intros j k Hj Hk. destruct (Nat.eqb_spec j i) as [->|D], (Nat.eqb_spec k i) as [->|D']; auto.
      + unfold bar. destruct (lev i p); cbn; lia.
      + specialize (B j i Hj Hi). unfold bar in *. lia.
    - auto.
  Qed.
  Lemma inv_set s i p : Inv s -> i < n -> good i p (ms_cl (a_ms s) i) ->
    (forall j, j < n -> j <> i -> bar i p (a_proc s j)) -> p_b (a_proc s i) <= p_b p -> Inv (setp s i p).
  Proof.
    intros I Hi Gi Bi Le. replace (setp s i p) with (setp (setm s (a_ms s)) i p) by (destruct s; reflexivity).
    apply inv_upd; auto. apply I. lia.
  Qed.
  (* not returning from a barrier: wherever it goes, the barrier condition stays *)
  Lemma bar_keep s i p : Inv s -> i < n -> lev i (a_proc s i) = false -> p_b p = p_b (a_proc s i) ->
    forall j, j < n -> j <> i -> bar i p (a_proc s j).
  Proof. intros (_ & B & _) Hi L E j Hj _. specialize (B i j Hi Hj). unfold bar in *. rewrite L in B. rewrite E. lia. Qed.
  Lemma window_of s i j : Inv s -> i < n -> j < n -> lev i (a_proc s i) = false ->
    window i j (p_rd (a_proc s i)) (p_pc (a_proc s i)) (p_rd (a_proc s j)) (p_pc (a_proc s j)).
  Proof.
    intros (G & B & _) Hi Hj L. pose proof (G i Hi) as Gi. pose proof (G j Hj) as Gj.
    pose proof (B i j Hi Hj) as B1. pose proof (B j i Hj Hi) as B2. unfold bar in *. rewrite L in B1.
    unfold window. rewrite <- (g_loc Gi), <- (g_loc Gj). cbn [lb]. unfold lev in *. repeat split; auto. apply Gj.
  Qed.

  Lemma map_snoc {T} (f : nat -> T) k : map f (seq 0 k) ++ [f k] = map f (seq 0 (S k)).
  Proof. now rewrite seq_S, map_app. Qed.

  (* a step which changes neither the model nor the number of barriers *)
  Ltac keep := apply inv_set; [assumption|assumption| |apply bar_keep; auto|cbn; auto].
  Ltac parts Gi := split; cbn [next fail set_b set_f set_pr set_pf set_pm set_got p_err p_pc p_rd p_b p_f p_r p_pr p_pf p_pm p_got p_gotf];
    try apply Gi; auto.

  Lemma inv_step s i : Inv s -> i < n -> Inv (step s i).
  Proof.
    intros I Hi. pose proof (proj1 I i Hi) as Gi. unfold ArsSync.step.
    set (p := a_proc s i) in *. rewrite (g_err Gi).
    destruct (nth_error (prog i (p_rd p)) (p_pc p)) as [c|] eqn:E.
    2:{ apply nth_error_None in E. pose proof (g_pc Gi) as Hp. assert (Ep : p_pc p = length (prog i (p_rd p))) by lia.
        assert (Lv : lev i p = false) by (unfold lev, leaving; rewrite (proj2 (nth_error_None _ _)) by lia; reflexivity).
        apply inv_set; auto; [|apply bar_keep; auto].
        pose proof (prog_end i (p_rd p)) as PE. cbv zeta in PE. rewrite <- Ep, <- (g_loc Gi) in PE. cbn [lb la lv lf lr lpr lpf lpm] in PE.
        split; cbn [finish p_err p_pc p_rd p_b p_f p_r p_pr p_pf p_pm p_got p_gotf]; try apply Gi; try lia; try (exists 0; split; [lia|reflexivity]).
        unfold expected. cbn [firstn fold_left]. rewrite PE. reflexivity. }
    pose proof (prog_ready _ _ _ E) as Rd. pose proof (expected_S _ _ _ E) as ES. rewrite <- (g_loc Gi) in Rd, ES.
    assert (Pc : S (p_pc p) <= length (prog i (p_rd p))) by (apply nth_error_Some; congruence).
    assert (Lv : c <> ILeave -> lev i p = false) by (intros Nc; unfold lev, leaving; rewrite E; destruct c; congruence).
    destruct c; cbn [ready lb la lv lf lr lpr lpf lpm exec] in Rd, ES; try (specialize (Lv ltac:(discriminate))).
    1-6: rewrite Rd; unfold pair, unpair; keep; parts Gi.
    - (* IEnter *) apply inv_set; auto; [parts Gi| |fold p; cbn; lia].
      intros j Hj Dj. pose proof (proj1 (proj2 I) i j Hi Hj) as B. fold p in B. unfold bar in *. rewrite Lv in B.
      unfold lev, leaving. cbn [next set_b p_rd p_pc p_b]. rewrite (prog_leave _ _ _ E). lia.
    - (* ILeave *) destruct (forallb _ _) eqn:Fa; [|exact I]. rewrite forallb_forall in Fa.
      apply inv_set; auto; [parts Gi|].
      intros j Hj _. unfold bar. cbn [next p_b]. specialize (Fa j). rewrite in_seq in Fa. specialize (Fa (conj (Nat.le_0_l _) Hj)).
      apply Nat.leb_le in Fa. lia.
    - (* IGather *) subst i. destruct (g_got Gi) as (k & Hk & Ek).
      destruct (Nat.ltb_spec (length (p_got p)) n) as [L|L]; rewrite Ek, map_length, seq_length in L.
      + pose proof (window_of I Hi L Lv) as W. fold p in W.
        destruct (window_gather E (or_introl eq_refl) W) as (Nz & H1 & H2 & _); [intros ->; reflexivity|].
        rewrite <- (g_loc (proj1 I k L)) in H1, H2. cbn [lpr lr] in H1, H2.
        replace (length (p_got p)) with k by now rewrite Ek, map_length, seq_length. rewrite H1, H2. keep. parts Gi.
        exists (S k). split; [lia|]. rewrite Ek. apply map_snoc.
      + assert (k = n) as -> by lia.
        destruct (proj2 (proj2 I) ltac:(lia)) as (log & M & Ll & Nw).
        pose proof (ms_step_inv (MTrain 0 (compute (cl_par (ms_cl (a_ms s) 0)) (p_got p))) M) as MS. cbv zeta in MS. destruct MS as (M' & _).
        cbn [ms_step] in *. rewrite (g_wait Gi) in *. cbn [fst snd accepts flat_map app] in *. rewrite app_nil_r in M'.
        apply inv_upd; auto; cbn [ms_cl ms_srv].
        * parts Gi; rewrite setc_same; cbn [cl_par cl_wait ver_of cl_ver]; try apply Gi; auto. rewrite ES, Ek. reflexivity.
        * intros j Dj. now rewrite setc_other.
        * exists log. split; [exact M'|]. split; [|exact Nw]. cbn [ms_cl]. rewrite setc_same. exact Ll.
        * apply bar_keep; auto.
    - (* IGatherF *) subst i. destruct (g_gotf Gi) as (k & Hk & Ek).
      destruct (Nat.ltb_spec (length (p_gotf p)) n) as [L|L]; rewrite Ek, map_length, seq_length in L.
      + pose proof (window_of I Hi L Lv) as W. fold p in W.
        destruct (window_gather E (or_intror eq_refl) W) as (Nz & _ & _ & H3); [intros ->; reflexivity|].
        destruct (H3 eq_refl) as [H1 H2]. rewrite <- (g_loc (proj1 I k L)) in H1, H2. cbn [lpf lf] in H1, H2.
        replace (length (p_gotf p)) with k by now rewrite Ek, map_length, seq_length. rewrite H1, H2. keep. parts Gi.
        exists (S k). split; [lia|]. rewrite Ek. apply map_snoc.
      + assert (k = n) as -> by lia. keep. parts Gi. rewrite ES, Ek. reflexivity.
    - (* IAdopt *) assert (Hn : 0 < n) by lia. pose proof (window_of I Hi Hn Lv) as W. fold p in W.
      destruct (window_adopt Rd E W) as [H1 H2]. rewrite <- (g_loc (proj1 I 0 Hn)) in H1, H2. cbn [lpm lf] in H1, H2.
      rewrite H1, H2. keep. parts Gi.
    - (* IPush *) destruct Rd as (-> & Rv & Ra). destruct (proj2 (proj2 I) ltac:(lia)) as (log & M & Ll & Nw).
      pose proof (ms_step_inv (MPush 0 true) M) as MS. cbv zeta in MS. destruct MS as (M' & _ & _ & P & _).
      destruct (P 0 true eq_refl (g_wait Gi)) as [P1 _]. destruct (P1 (eq_sym Ll)) as (Ev & Pp & Pv & Pw).
      destruct (ms_step depth (a_ms s) (MPush 0 true)) as [m ev] eqn:Em. cbn [fst snd] in *. subst ev.
      cbn [accepts flat_map app] in M'.
      apply inv_upd; auto.
      + parts Gi; [|eauto]. unfold ver_of. rewrite ES, Pp, Pv, Ll. reflexivity.
      + intros j Dj. cbn [ms_step] in Em. rewrite (g_wait Gi) in Em. destruct (os_push _ _ _ _ _ _) as [srv [[|]|e]];
          injection Em as <- _; cbn [ms_cl]; rewrite ?setc_other; auto.
      + exists (log ++ [(S (length log), cl_par (ms_cl (a_ms s) 0))]). split; [exact M'|].
        rewrite app_length. cbn [length]. split; [unfold ver_of; rewrite Pv; lia|].
        intros w x Q. rewrite newest_snoc in Q. injection Q as _ <-. rewrite Ra. f_equal. lia.
      + apply bar_keep; auto.
    - (* IPull *) destruct Rd as (Ri & Rv). assert (Hn : 0 < n) by lia. pose proof (window_of I Hi Hn Lv) as W. fold p in W.
      pose proof (window_pull Ri E W) as H1. rewrite <- (g_loc (proj1 I 0 Hn)) in H1. cbn [lv] in H1.
      destruct (proj2 (proj2 I) ltac:(lia)) as (log & M & Ll & Nw).
      assert (NL : log <> []) by (intros ->; cbn in Ll; lia).
      rewrite (os_pull_one (mi_o M) (mi_v M)). pose proof (versions_newest _ (mi_v M)) as VN.
      destruct (newest_of log) as [[w x]|] eqn:EN; [|congruence].
      pose proof (ms_step_inv (MPull i) M) as MS. cbv zeta in MS. destruct MS as (M' & _ & _ & _ & P).
      destruct (P i) as (Pv & Pw & Pp); [right; repeat split; auto; apply Gi|].
      assert (Nv : cl_ver (ms_cl (a_ms s) i) <> Some (length log)) by (intros Q; unfold ver_of in Rv; rewrite Q in Rv; lia).
      assert (As : accepts [snd (ms_step depth (a_ms s) (MPull i))] = []).
      { cbn [ms_step]. rewrite (g_wait Gi). destruct (os_pull _ _ _) as [[[? ?]|]|]; reflexivity. }
      rewrite As, app_nil_r in M'.
      assert (Fr : forall j, j <> i -> ms_cl (fst (ms_step depth (a_ms s) (MPull i))) j = ms_cl (a_ms s) j).
      { intros j Dj. cbn [ms_step]. rewrite (g_wait Gi). destruct (os_pull _ _ _) as [[[? ?]|]|]; cbn [fst]; auto.
        destruct (cl_ver (ms_cl (a_ms s) i)) as [?|]; [destruct (_ <? _)|]; cbn [ms_cl]; rewrite ?setc_other; auto. }
      clear P. remember (fst (ms_step depth (a_ms s) (MPull i))) as m' eqn:Em. clear Em.
      specialize (Pp (or_intror Nv)). rewrite EN in Pp. injection Pp as Ew Px.
      apply inv_upd; auto.
      + parts Gi; [|right; exists (p_rd p); rewrite Pv; f_equal; lia]. unfold ver_of. rewrite ES, Pv, <- Px.
        rewrite (Nw _ _ eq_refl). f_equal; [f_equal; lia|lia].
      + exists log. split; [exact M'|]. split; [rewrite Fr by auto; exact Ll|]. intros w' x' Q. apply (Nw w'). congruence.
      + apply bar_keep; auto.
  Qed.

  Lemma inv_run ls : Inv (run ls).
  Proof.
    unfold ArsSync.run. generalize inv_init. generalize (init R par fil). induction ls as [|l ls IH]; intros s I; cbn [fold_left]; auto.
    apply IH. destruct (Nat.ltb_spec l n); auto. now apply inv_step.
  Qed.

  (* Whatever the schedule: no process meets an exception; a process which has finished u updates holds the actor
     which the training prescribes, hence the same one as any other such process, and its filter is the prescribed one. *)
  Theorem C195_agree : forall ls i, i < n ->
    let s := run ls in
    p_err (a_proc s i) = None /\
    (forall u, p_rd (a_proc s i) = S u -> p_pc (a_proc s i) = 0 ->
       cl_par (ms_cl (a_ms s) i) = actor_after u /\ p_f (a_proc s i) = entering u i).
  Proof.
    intros ls i Hi s. pose proof (proj1 (inv_run ls) i Hi) as G. fold s in G. split; [apply G|].
    intros u Er Ep. pose proof (g_loc G) as L. rewrite Er, Ep in L. unfold expected in L. cbn [firstn fold_left start] in L.
    injection L. auto.
  Qed.

  (* While any process is between its updates u - 1 and u, and so makes its rollouts, every process holds the actor
     after u updates: it is at the end of the update before or at the beginning of the next. *)
  Theorem C195_together : forall ls i j u, i < n -> j < n ->
    let s := run ls in
    p_rd (a_proc s i) = S u -> p_pc (a_proc s i) = 0 ->
    (p_rd (a_proc s j) = u \/ p_rd (a_proc s j) = S u) /\ cl_par (ms_cl (a_ms s) j) = actor_after u.
  Proof.
    intros ls i j u Hi Hj s Er Ep. pose proof (inv_run ls) as I. fold s in I.
    assert (Lv : lev i (a_proc s i) = false) by (unfold lev, leaving; rewrite Er, Ep; reflexivity).
    pose proof (window_of I Hi Hj Lv) as (_ & L1 & L2 & L3).
    rewrite (f_equal la (g_loc (proj1 I j Hj)) : cl_par (ms_cl (a_ms s) j) = _).
    rewrite Er, Ep in L1, L2. revert L1 L2 L3. generalize (p_pc (a_proc s j)) (p_rd (a_proc s j)). clear. intros pc rd L1 L2 L3.
    unfold leaving, expected, ArsSync.prog, start, per in *.
    destruct norm, j as [|j], rd as [|u']; cbn in L1, L2, L3.
    all: do 32 (try (destruct pc as [|pc]; [cbn in *; try (exfalso; lia)|])); try (exfalso; lia).
    all: try (assert (u = 0) as -> by lia; auto; fail).
    all: try (assert (u = S u') as -> by lia; auto; fail).
    all: try (assert (u = u') as -> by lia; auto; fail).
  Qed.

  (* ---- progress ---- *)
  Definition wt (p : proc R F) : nat := p_rd p * (40 + 2 * n) + p_pc p + length (p_got p) + length (p_gotf p).
  Lemma prog_len i rd : length (prog i rd) <= 30.
  Proof. unfold ArsSync.prog. destruct norm, i, rd; cbn; lia. Qed.
  Lemma wt_bound i p c : good i p c -> wt p < S (p_rd p) * (40 + 2 * n).
  Proof.
    intros G. unfold wt. pose proof (g_pc G). pose proof (prog_len i (p_rd p)). destruct (g_got G) as (k & Hk & ->), (g_gotf G) as (k' & Hk' & ->).
    rewrite !map_length, !seq_length. cbn [Nat.mul]. lia.
  Qed.

  Lemma goes_on s : 0 < n -> Inv s ->
    exists i, i < n /\ wt (a_proc s i) < wt (a_proc (step s i) i) /\ forall j, j <> i -> a_proc (step s i) j = a_proc s j.
  Proof.
    intros Hn I.
    assert (Mi : exists i, i < n /\ forall j, j < n -> p_b (a_proc s i) <= p_b (a_proc s j)).
    { clear -Hn. induction n as [|m IH]; [lia|]. destruct (Nat.eq_dec m 0) as [->|D].
      - exists 0. split; [lia|]. intros j Hj. replace j with 0 by lia. lia.
      - destruct IH as (i & Hi & Mi); [lia|]. destruct (le_lt_dec (p_b (a_proc s i)) (p_b (a_proc s m))) as [Le|Lt].
        + exists i. split; [lia|]. intros j Hj. destruct (Nat.eq_dec j m) as [->|]; [auto|apply Mi; lia].
        + exists m. split; [lia|]. intros j Hj. destruct (Nat.eq_dec j m) as [->|]; [auto|]. specialize (Mi j). lia. }
    destruct Mi as (i & Hi & Mi). exists i. split; auto.
    pose proof (inv_step I Hi) as I'. pose proof (g_err (proj1 I' i Hi)) as Ne. pose proof (g_err (proj1 I i Hi)) as Ne0.
    pose proof (wt_bound (proj1 I i Hi)) as Wb.
    revert Ne. unfold ArsSync.step. rewrite Ne0.
    assert (Same : forall m p, a_proc (setp (setm s m) i p) i = p /\ forall j, j <> i -> a_proc (setp (setm s m) i p) j = a_proc s j).
    { intros m p. cbn. rewrite Nat.eqb_refl. split; auto. intros j D. destruct (Nat.eqb_spec j i); congruence. }
    assert (Same' : forall p, a_proc (setp s i p) i = p /\ forall j, j <> i -> a_proc (setp s i p) j = a_proc s j).
    { intros p. cbn. rewrite Nat.eqb_refl. split; auto. intros j D. destruct (Nat.eqb_spec j i); congruence. }
    assert (Er : forall e (p : proc R F), p_err (fail e p) = None -> False) by (intros; discriminate).
    destruct (nth_error (prog i (p_rd (a_proc s i))) (p_pc (a_proc s i))) as [c|] eqn:E.
    2:{ intros _. split; [|apply Same']. rewrite (proj1 (Same' _)). unfold wt at 2. cbn [finish p_rd p_pc p_got p_gotf length]. lia. }
    assert (Nx : forall p, p_rd p = p_rd (a_proc s i) -> p_pc p = p_pc (a_proc s i) -> p_got p = p_got (a_proc s i) -> p_gotf p = p_gotf (a_proc s i) ->
       wt (a_proc s i) < wt (next p)) by (intros p E1 E2 E3 E4; unfold wt; cbn [next p_rd p_pc p_got p_gotf]; rewrite E1, E2, E3, E4; lia).
    destruct c; unfold pair, unpair.
    1-6: match goal with |- context [if ?b then _ else _] => destruct b end; rewrite (proj1 (Same' _)); intros Ne;
      try (exfalso; exact (Er _ _ Ne)); (split; [apply Nx; reflexivity|apply Same']).
    - rewrite (proj1 (Same' _)). intros _. split; [apply Nx; reflexivity|apply Same'].
    - replace (forallb _ _) with true; [rewrite (proj1 (Same' _)); intros _; split; [apply Nx; reflexivity|apply Same']|].
      symmetry. apply forallb_forall. intros j Hj. apply in_seq in Hj. apply Nat.leb_le, Mi. lia.
    - destruct (_ <? _); [|rewrite (proj1 (Same _ _)); intros _; split; [apply Nx; reflexivity|apply Same]].
      destruct (p_pr _); [destruct (p_r _) as [r|]|]; rewrite (proj1 (Same' _)); intros Ne; try (exfalso; exact (Er _ _ Ne)).
      split; [|apply Same']. unfold wt. cbn [set_got p_rd p_pc p_got p_gotf]. rewrite app_length. cbn [length]. lia.
    - destruct (_ <? _); [|rewrite (proj1 (Same' _)); intros _; split; [apply Nx; reflexivity|apply Same']].
      destruct (p_pf _); rewrite (proj1 (Same' _)); intros Ne; try (exfalso; exact (Er _ _ Ne)).
      split; [|apply Same']. unfold wt. cbn [set_got p_rd p_pc p_got p_gotf]. rewrite app_length. cbn [length]. lia.
    - destruct (p_pm _); rewrite (proj1 (Same' _)); intros Ne; [split; [apply Nx; reflexivity|apply Same']|exfalso; exact (Er _ _ Ne)].
    - destruct (ms_step _ _ _) as [m [| | |]]; rewrite (proj1 (Same _ _)); intros Ne; try (exfalso; exact (Er _ _ Ne)).
      split; [apply Nx; reflexivity|apply Same].
    - destruct (os_pull _ _ _) as [[?|]|]; [rewrite (proj1 (Same _ _))|rewrite (proj1 (Same' _))..]; intros Ne; try (exfalso; exact (Er _ _ Ne)).
      split; [apply Nx; reflexivity|apply Same].
  Qed.

  (* barriers entered, by round *)
  Lemma b_bounds i rd pc : pc <= length (prog i rd) ->
    (rd <= 1 \/ 2 + per * (rd - 1) <= lb (expected i rd pc)) /\ lb (expected i rd pc) <= 2 + per * rd.
  Proof.
    intros L. unfold expected, ArsSync.prog, start, per in *. destruct norm, i as [|i], rd as [|u]; cbn in L.
    all: do 32 (try (destruct pc as [|pc]; [cbn; rewrite ?Nat.sub_0_r; lia|])); exfalso; lia.
  Qed.
  Lemma rounds_close s i j : Inv s -> i < n -> j < n -> p_rd (a_proc s j) <= p_rd (a_proc s i) + 2.
  Proof.
    intros I Hi Hj. pose proof (proj1 I i Hi) as Gi. pose proof (proj1 I j Hj) as Gj. pose proof (proj1 (proj2 I) j i Hj Hi) as B.
    destruct (b_bounds _ _ (g_pc Gi)) as [_ B1]. destruct (b_bounds _ _ (g_pc Gj)) as [B2 _].
    rewrite <- (g_loc Gi) in B1. rewrite <- (g_loc Gj) in B2. cbn [lb] in B1, B2. unfold bar in B.
    destruct (lev j (a_proc s j)), B2 as [B2|B2]; unfold per in *; destruct norm; lia.
  Qed.

  Fixpoint total (f : nat -> nat) (k : nat) : nat := match k with 0 => 0 | S k => f k + total f k end.
  Lemma total_lt f g i k : i < k -> f i < g i -> (forall j, j <> i -> g j = f j) -> total f k < total g k.
  Proof.
    induction k as [|k IH]; intros H L O; [lia|]. cbn [total]. destruct (Nat.eq_dec i k) as [->|D].
    - assert (total f k = total g k); [|lia]. clear -O. assert (forall m, m <= k -> total f m = total g m); [|auto].
      induction m as [|m IH]; intros Hm; [auto|]. cbn [total]. rewrite IH, O by lia. auto.
    - specialize (IH ltac:(lia) L O). rewrite (O k) by auto. lia.
  Qed.
  Lemma total_le f c k : (forall j, j < k -> f j <= c) -> total f k <= k * c.
  Proof. induction k as [|k IH]; intros H; cbn [total Nat.mul]; [lia|]. pose proof (H k ltac:(lia)). specialize (IH ltac:(intros; apply H; lia)). lia. Qed.

  Notation go := (fun s i => if i <? n then step s i else s).
  Lemma reaches u : 0 < n -> forall w s, Inv s -> n * (S (u + 2) * (40 + 2 * n)) - total (fun i => wt (a_proc s i)) n <= w ->
    exists ls, forall i, i < n -> u < p_rd (a_proc (fold_left go ls s) i).
  Proof.
    intros Hn w. induction w as [|w IH]; intros s I Hw.
    all: assert (Dec : (exists i, i < n /\ p_rd (a_proc s i) <= u) \/ (forall i, i < n -> u < p_rd (a_proc s i))).
    1,3: clear; induction n as [|m [(i & Hi & L)|A0]]; [right; lia|left; exists i; split; [lia|auto]|];
      (destruct (le_lt_dec (p_rd (a_proc s m)) u); [left; exists m; split; [lia|auto]|right; intros i Hi; destruct (Nat.eq_dec i m) as [->|]; [auto|apply A0; lia]]).
    all: destruct Dec as [(i & Hi & Lo)|Al]; [|exists []; exact Al].
    all: assert (Bd : forall j, j < n -> wt (a_proc s j) < S (u + 2) * (40 + 2 * n)).
    1,3: intros j Hj; pose proof (wt_bound (proj1 I j Hj)) as Wb; pose proof (rounds_close I Hi Hj) as Rc;
      (apply (Nat.lt_le_trans _ _ _ Wb), Nat.mul_le_mono_r; lia).
    all: destruct (goes_on Hn I) as (k & Hk & Lt & Ot).
    - exfalso. pose proof (@total_le (fun i => wt (a_proc s i)) (S (u + 2) * (40 + 2 * n) - 1) n) as T.
      specialize (T ltac:(intros j Hj; specialize (Bd j Hj); lia)). assert (P : 0 < S (u + 2) * (40 + 2 * n)) by (cbn; lia).
      revert Hw T P. generalize (S (u + 2) * (40 + 2 * n)). intros c Hw T P. rewrite Nat.mul_sub_distr_l in T.
      assert (n * 1 <= n * c) by (apply Nat.mul_le_mono_l; lia). lia.
    - destruct (IH (step s k) (inv_step I Hk)) as (ls & Hl).
      + pose proof (@total_lt (fun i => wt (a_proc s i)) (fun i => wt (a_proc (step s k) i)) k n Hk Lt) as T.
        specialize (T (fun j D => f_equal wt (Ot j D))). cbv beta in T. lia.
      + exists (k :: ls). cbn [fold_left]. rewrite (proj2 (Nat.ltb_lt k n) Hk). exact Hl.
  Qed.
  (* No schedule leads into a deadlock: from wherever it has led, all processes can finish any number of updates. *)
  Theorem C195_progress : forall ls u, exists ls', forall i, i < n -> u < p_rd (a_proc (run (ls ++ ls')) i).
  Proof.
    intros ls u. destruct (Nat.eq_dec n 0) as [Z|Z]; [exists []; intros i Hi; lia|].
    destruct (@reaches u ltac:(lia) _ (run ls) (inv_run ls) (le_n _)) as (ls' & H).
    exists ls'. intros i Hi. unfold ArsSync.run. rewrite fold_left_app. exact (H i Hi).
  Qed.
End ArsSync.
Print Assumptions C195_agree.
Print Assumptions C195_together.
Print Assumptions C195_progress.

(* three processes, two updates: actors are numbers, the update adds the results; filters are lists of observations *)
Example C195_nonvacuous :
  let ls := concat (repeat [2; 0; 1; 1] 80) in
  let s := run 3 1 true (fun a l => a + list_sum l) (fun f l => f ++ concat l) (fun _ m => m) (fun u i => 10 * u + i)
             (fun u i f => if u =? 0 then [i] else f) (fun i => 100 * (i + 1)) (fun _ => []) ls in
  (* the manager has just computed the third update, the others wait for it *)
  map (fun i => (p_rd (a_proc s i), cl_par (ms_cl (a_ms s) i))) [0; 1; 2] = [(3, 199); (3, 136); (3, 136)]
  /\ p_f (a_proc s 1) = [0; 0; 1; 2; 0; 0; 1; 2; 0; 0; 1; 2; 0; 0; 1; 2]
  /\ map (actor_after 3 (fun a l => a + list_sum l) (fun u i => 10 * u + i) (fun i => 100 * (i + 1))) [0; 1; 2; 3] = [100; 103; 136; 199].
Proof. vm_compute. repeat split. Qed.
