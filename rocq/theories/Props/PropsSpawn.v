(* C147: DDPSpawnPlugin reports failures of its processes. *)
From Verif Require Import Model.Spawn.
Open Scope nat_scope.
Set Implicit Arguments.

(* the specification: process k of the schedule raised an exception *)
Definition failed (s : spawn) (k : nat) : Prop := nth_error (cs s) k = Some Sent \/ nth_error (cs s) k = Some Fail.
Definition finished (s : spawn) : Prop := pc s = Returned \/ pc s = Raised.
Definition all_dead (s : spawn) : Prop := forall k c, nth_error (cs s) k = Some c -> alive c = false.

Lemma run_snoc s ls l : run s (ls ++ [l]) = step (run s ls) l.
Proof. unfold run. now rewrite fold_left_app. Qed.
Lemma run_app s a b : run s (a ++ b) = run (run s a) b.
Proof. unfold run. now rewrite fold_left_app. Qed.

Lemma nth_upd k j (c : child) l : nth_error (upd k c l) j = if (k =? j) && (j <? length l) then Some c else nth_error l j.
Proof.
  destruct (Nat.eqb_spec k j) as [->|N]; cbn [andb].
  - destruct (Nat.ltb_spec j (length l)); [now apply upd_same|]. now rewrite upd_out by lia.
  - now rewrite upd_other.
Qed.
Lemma step_length s l : length (cs (step s l)) = length (cs s).
Proof.
  destruct l as [|k|k]; cbn.
  - unfold parent. destruct (pc s) as [i f|i a|i|i| |]; cbn; auto; destruct (nth_error (cs s) i) as [c|]; cbn; auto;
      try (destruct (message c), (alive c); cbn; auto); try (destruct (alive c); cbn; auto); now rewrite ?upd_length.
  - destruct (nth_error (cs s) k) as [[]|]; cbn; auto. apply upd_length.
  - destruct (nth_error (cs s) k) as [[]|]; cbn; auto; apply upd_length.
Qed.
Lemma run_length s ls : length (cs (run s ls)) = length (cs s).
Proof. induction ls as [|l ls IH] using rev_ind; auto. now rewrite run_snoc, step_length. Qed.

(* what a step does to one process *)
Lemma step_child s l k c : nth_error (cs s) k = Some c -> exists c', nth_error (cs (step s l)) k = Some c' /\
  (alive c = false -> c' = c) /\ (message c = true -> c' <> Fine) /\ (c <> Run -> c' <> Run).
Proof.
  intros H.
  assert (L : k < length (cs s)) by (apply nth_error_Some; congruence).
  assert (SAME : nth_error (cs s) k = Some c -> exists c', nth_error (cs s) k = Some c' /\
    (alive c = false -> c' = c) /\ (message c = true -> c' <> Fine) /\ (c <> Run -> c' <> Run)).
  { intros _. exists c. split; auto. split; auto. split; auto. destruct c; cbn; congruence. }
  destruct l as [|j|j]; cbn [step].
  - unfold parent. destruct (pc s) as [i f|i a|i|i| |]; cbn [cs]; auto;
      destruct (nth_error (cs s) i) as [ci|] eqn:E; cbn [cs]; auto.
    + destruct (message ci), (alive ci); cbn [cs]; auto.
    + destruct (alive ci); auto.
    + rewrite nth_upd. destruct (Nat.eqb_spec i k) as [->|N]; cbn [andb]; auto.
      replace (k <? length (cs s)) with true by (symmetry; now apply Nat.ltb_lt).
      assert (ci = c) by congruence. subst ci. exists (if alive c then Killed else c). split; auto.
      destruct c; cbn; repeat split; congruence.
  - destruct (nth_error (cs s) j) as [cj|] eqn:E; auto. destruct cj; auto. cbn [cs]. rewrite nth_upd.
    destruct (Nat.eqb_spec j k) as [->|N]; cbn [andb]; auto.
    replace (k <? length (cs s)) with true by (symmetry; now apply Nat.ltb_lt). exists Sent. split; auto.
    assert (c = Run) by congruence. subst c. cbn. repeat split; congruence.
  - destruct (nth_error (cs s) j) as [cj|] eqn:E; auto. destruct cj; auto; cbn [cs]; rewrite nth_upd;
      (destruct (Nat.eqb_spec j k) as [->|N]; cbn [andb]; auto;
       replace (k <? length (cs s)) with true by (symmetry; now apply Nat.ltb_lt); eexists; split; [reflexivity|];
       match goal with E : nth_error _ k = Some ?x |- _ => assert (c = x) by congruence end; subst c; cbn; repeat split; congruence).
Qed.

(* the invariant of the parent *)
Definition inv (s : spawn) : Prop :=
  match pc s with
  | Watch i f => f = true -> exists k, nth_error (cs s) k = Some Fail
  | Check _ a => a = false -> exists k c, nth_error (cs s) k = Some c /\ alive c = false
  | Join i => forall k c, k < i -> nth_error (cs s) k = Some c -> alive c = false
  | Kill i => (exists k, nth_error (cs s) k = Some Fail) /\ forall k c, k < i -> nth_error (cs s) k = Some c -> alive c = false
  | Returned => all_dead s
  | Raised => (exists k, nth_error (cs s) k = Some Fail) /\ all_dead s
  end.
Lemma dead_stays s l k c : nth_error (cs s) k = Some c -> alive c = false -> nth_error (cs (step s l)) k = Some c.
Proof. intros H A. destruct (step_child s l k H) as (c' & E & D & _). rewrite D in E; auto. Qed.
Lemma back s l k c' : nth_error (cs (step s l)) k = Some c' -> exists c, nth_error (cs s) k = Some c.
Proof.
  intros H. destruct (nth_error (cs s) k) as [c|] eqn:E; [eauto|]. apply nth_error_None in E.
  assert (k < length (cs (step s l))) by (apply nth_error_Some; congruence). rewrite step_length in *. lia.
Qed.
Lemma dead_after s l k c' : (forall c, nth_error (cs s) k = Some c -> alive c = false) ->
  nth_error (cs (step s l)) k = Some c' -> alive c' = false.
Proof.
  intros H E. destruct (back _ _ _ E) as (c & F). pose proof (dead_stays s l k F (H c F)) as G. rewrite E in G. injection G as ->. auto.
Qed.
Lemma inv_child s l : l <> Parent -> inv s -> pc (step s l) = pc s /\ inv (step s l).
Proof.
  intros N I. assert (P : pc (step s l) = pc s).
  { destruct l as [|k|k]; [congruence| |]; cbn; destruct (nth_error (cs s) k) as [[]|]; auto. }
  split; auto. unfold inv in *. rewrite P. destruct (pc s) as [i f|i a|i|i| |].
  - intros F. destruct (I F) as (k & K). exists k. now apply dead_stays.
  - intros F. destruct (I F) as (k & c & K & A). exists k, c. split; auto. now apply dead_stays.
  - intros k c L E. eapply dead_after; eauto.
  - destruct I as ((k & K) & D). split; [exists k; now apply dead_stays|]. intros j c L E. eapply dead_after; eauto.
  - intros k c E. eapply dead_after; eauto.
  - destruct I as ((k & K) & D). split; [exists k; now apply dead_stays|]. intros j c E. eapply dead_after; eauto.
Qed.
Lemma inv_parent s : inv s -> inv (parent s).
Proof.
  intros I. unfold inv, parent in *. destruct (pc s) as [i f|i a|i|i| |] eqn:P; try (rewrite P; exact I);
    destruct (nth_error (cs s) i) as [c|] eqn:E; cbn [pc cs].
  - destruct (message c) eqn:M.
    + destruct (alive c) eqn:A; [rewrite P; exact I|]. cbn. intros _. exists i. destruct c; try discriminate; exact E.
    + cbn. exact I.
  - destruct f; cbn.
    + split; [auto|]. intros; lia.
    + discriminate.
  - intros F. apply andb_false_iff in F as [F|F]; [auto|]. exists i, c. auto.
  - destruct a; cbn; [discriminate|]. intros; lia.
  - destruct (alive c) eqn:A; [rewrite P; exact I|]. cbn. intros k c' L K. destruct (Nat.eq_dec k i) as [->|]; [rewrite E in K; injection K as <-; exact A|].
    apply (I k c'); auto. lia.
  - intros k c K. cbn [cs] in K. apply (I k c); auto. assert (k < length (cs s)) by (apply nth_error_Some; congruence).
    apply nth_error_None in E. lia.
  - destruct I as ((k & K) & D). split.
    + exists k. rewrite nth_upd. destruct (Nat.eqb_spec i k) as [->|N]; cbn [andb]; auto.
      destruct (k <? length (cs s)); auto. assert (c = Fail) by congruence. now subst c.
    + intros j c' L J. rewrite nth_upd in J. destruct (Nat.eqb_spec i j) as [->|N]; cbn [andb] in J.
      * replace (j <? length (cs s)) with true in J by (symmetry; apply Nat.ltb_lt, nth_error_Some; congruence).
        injection J as <-. destruct c; reflexivity.
      * apply (D j c'); auto. lia.
  - destruct I as ((k & K) & D). split; [eauto|]. intros j c J. cbn [cs] in J. apply (D j c); auto.
    assert (j < length (cs s)) by (apply nth_error_Some; congruence). apply nth_error_None in E. lia.
Qed.
Lemma inv_run n ls : inv (run (spawn0 n) ls).
Proof.
  induction ls as [|l ls IH] using rev_ind; [cbn; discriminate|]. rewrite run_snoc.
  destruct l as [|k|k]; [now apply inv_parent|apply inv_child; auto; discriminate..].
Qed.

(* whenever it ends, all processes have ended; it raises only if one of them raised *)
Theorem C147_sound : forall n ls,
  let s := run (spawn0 n) ls in
  (finished s -> all_dead s) /\ (pc s = Raised -> exists k, k < n /\ failed s k).
Proof.
  intros n ls s. pose proof (inv_run n ls) as I. fold s in I. unfold inv in I. split.
  - intros [F|F]; rewrite F in I; [exact I|tauto].
  - intros F. rewrite F in I. destruct I as ((k & K) & _). exists k. split; [|right; auto].
    assert (L : k < length (cs s)) by (apply nth_error_Some; congruence). unfold s in L. rewrite run_length in L.
    cbn in L. now rewrite repeat_length in L.
Qed.
Print Assumptions C147_sound.

(* an exception that is in the pipe of its process when a round of the loop begins is reported *)
Definition caught (k : nat) (s : spawn) : Prop :=
  match pc s with
  | Watch i f => (i <= k /\ failed s k) \/ f = true
  | Kill _ | Raised => True
  | _ => False
  end.
Lemma failed_step s l k : failed s k -> nth_error (cs (step s l)) k = Some Killed \/ failed (step s l) k.
Proof.
  intros F. assert (X : exists c, nth_error (cs s) k = Some c /\ message c = true) by (destruct F as [F|F]; eauto).
  destruct X as (c & E & M). destruct (step_child s l k E) as (c' & E' & _ & NF & NR). unfold failed. rewrite E'.
  destruct c'; auto; exfalso; [apply NR; auto; destruct c; discriminate|now apply NF].
Qed.
Lemma caught_step k s l : caught k s -> caught k (step s l).
Proof.
  intros C. destruct (match l with Parent => true | _ => false end) eqn:EL.
  - destruct l; try discriminate. cbn [step]. unfold caught, parent in *. destruct (pc s) as [i f|i a|i|i| |] eqn:P; try (destruct C; fail);
      try (rewrite P; exact I).
    + destruct (nth_error (cs s) i) as [c|] eqn:E.
      * destruct (message c) eqn:M.
        -- destruct (alive c); [rewrite P; exact C|]. cbn. auto.
        -- cbn. destruct C as [[L F]|F]; [|auto]. left. split; [|exact F]. destruct (Nat.eq_dec i k) as [->|]; [|lia].
           destruct F as [F|F]; rewrite F in E; injection E as <-; discriminate.
      * cbn. destruct C as [[L F]|F]; [|now subst f]. exfalso. apply nth_error_None in E.
        assert (k < length (cs s)) by (apply nth_error_Some; destruct F; congruence). lia.
    + destruct (nth_error (cs s) i); cbn; exact I.
  - assert (P : pc (step s l) = pc s) by (destruct l as [|j|j]; [discriminate| |]; cbn; destruct (nth_error (cs s) j) as [[]|]; auto).
    unfold caught in *. rewrite P. destruct (pc s) as [i f|i a|i|i| |]; auto. destruct C as [[L F]|F]; auto. left. split; auto.
    destruct (@failed_step s l k F) as [K|K]; auto. exfalso.
    (* only the parent kills *)
    assert (NK : nth_error (cs s) k <> Some Killed) by (destruct F; congruence).
    destruct l as [|j|j]; [discriminate| |]; cbn in K; destruct (nth_error (cs s) j) as [[]|] eqn:J; try congruence;
      cbn in K; rewrite nth_upd in K; destruct (_ && _); congruence.
Qed.
Theorem C147_partial : forall n pre post k,
  let s := run (spawn0 n) pre in pc s = Watch 0 false -> failed s k ->
  let s' := run s post in
  pc s' <> Returned /\ (finished s' -> pc s' = Raised).
Proof.
  intros n pre post k s P F s'.
  assert (C : caught k s') by (unfold s'; clear s'; induction post as [|l post IH] using rev_ind;
    [unfold caught; cbn; rewrite P; left; split; [lia|exact F] | rewrite run_snoc; now apply caught_step]).
  unfold caught in C. split; [intros E; now rewrite E in C|]. intros [E|E]; auto. rewrite E in C. destruct C.
Qed.
Print Assumptions C147_partial.

(* the parent ends once all processes have: it never waits for something that does not happen *)
Lemma watch_steps s : all_dead s -> forall d i f, length (cs s) = i + d -> pc s = Watch i f ->
  exists g, run s (repeat Parent d) = MkSp (cs s) (Watch (i + d) g).
Proof.
  intros D d. revert s D. induction d as [|d IH]; intros s D i f L P.
  - exists f. cbn. rewrite Nat.add_0_r, <- P. destruct s; reflexivity.
  - cbn [repeat run fold_left]. change (fold_left step (repeat Parent d) (step s Parent)) with (run (parent s) (repeat Parent d)).
    destruct (nth_error (cs s) i) as [c|] eqn:E; [|apply nth_error_None in E; lia].
    assert (A : alive c = false) by (eapply D; eauto).
    assert (X : exists g, parent s = MkSp (cs s) (Watch (i + 1) g)).
    { unfold parent. rewrite P, E, A. destruct (message c); eauto. }
    destruct X as (g & ->). destruct (@IH (MkSp (cs s) (Watch (i + 1) g)) D (i + 1) g) as (h & ->); [cbn; lia|reflexivity|].
    exists h. cbn [cs]. f_equal. f_equal. lia.
Qed.
Lemma skipn_cons {A} (l : list A) i c : nth_error l i = Some c -> skipn i l = c :: skipn (i + 1) l.
Proof.
  revert i; induction l as [|x l IH]; intros [|i] E; try discriminate; cbn in *; [congruence|]. rewrite (IH _ E). reflexivity.
Qed.
Lemma quiet_steps s : (forall k c, nth_error (cs s) k = Some c -> message c = false) -> forall d i f,
  length (cs s) = i + d -> pc s = Watch i f -> run s (repeat Parent d) = MkSp (cs s) (Watch (i + d) f).
Proof.
  intros D d. revert s D. induction d as [|d IH]; intros s D i f L P.
  - cbn. rewrite Nat.add_0_r, <- P. destruct s; reflexivity.
  - cbn [repeat run fold_left]. change (fold_left step (repeat Parent d) (step s Parent)) with (run (parent s) (repeat Parent d)).
    destruct (nth_error (cs s) i) as [c|] eqn:E; [|apply nth_error_None in E; lia].
    assert (X : parent s = MkSp (cs s) (Watch (i + 1) f)) by (unfold parent; now rewrite P, E, (D _ _ E)).
    rewrite X. rewrite (IH (MkSp (cs s) (Watch (i + 1) f)) D (i + 1) f); [|cbn; lia|reflexivity]. cbn [cs]. f_equal. f_equal. lia.
Qed.
Lemma check_steps d : forall s i a, length (cs s) = i + d -> pc s = Check i a ->
  run s (repeat Parent d) = MkSp (cs s) (Check (i + d) (a && forallb alive (skipn i (cs s)))).
Proof.
  induction d as [|d IH]; intros s i a L P.
  - cbn. rewrite skipn_all2 by lia. cbn. rewrite Nat.add_0_r, andb_true_r, <- P. destruct s; reflexivity.
  - cbn [repeat run fold_left]. change (fold_left step (repeat Parent d) (step s Parent)) with (run (parent s) (repeat Parent d)).
    destruct (nth_error (cs s) i) as [c|] eqn:E; [|apply nth_error_None in E; lia].
    assert (X : parent s = MkSp (cs s) (Check (i + 1) (a && alive c))) by (unfold parent; now rewrite P, E).
    rewrite X. rewrite (IH (MkSp (cs s) (Check (i + 1) (a && alive c))) (i + 1) (a && alive c)); [|cbn; lia|reflexivity].
    cbn [cs]. rewrite (skipn_cons _ _ E). cbn [forallb]. f_equal. f_equal; [lia|]. now rewrite andb_assoc.
Qed.
Lemma join_steps s : all_dead s -> forall d i, length (cs s) = i + d -> pc s = Join i ->
  run s (repeat Parent d) = MkSp (cs s) (Join (i + d)).
Proof.
  intros D d. revert s D. induction d as [|d IH]; intros s D i L P.
  - cbn. rewrite Nat.add_0_r, <- P. destruct s; reflexivity.
  - cbn [repeat run fold_left]. change (fold_left step (repeat Parent d) (step s Parent)) with (run (parent s) (repeat Parent d)).
    destruct (nth_error (cs s) i) as [c|] eqn:E; [|apply nth_error_None in E; lia].
    assert (A : alive c = false) by (eapply D; eauto).
    assert (X : parent s = MkSp (cs s) (Join (i + 1))) by (unfold parent; now rewrite P, E, A).
    rewrite X. rewrite (IH (MkSp (cs s) (Join (i + 1))) D (i + 1)); [|cbn; lia|reflexivity]. cbn [cs]. f_equal. f_equal. lia.
Qed.
Lemma kill_steps d : forall s i, length (cs s) = i + d -> pc s = Kill i ->
  exists cs', run s (repeat Parent d) = MkSp cs' (Kill (i + d)) /\ length cs' = length (cs s).
Proof.
  induction d as [|d IH]; intros s i L P.
  - exists (cs s). cbn. rewrite Nat.add_0_r, <- P. destruct s; auto.
  - cbn [repeat run fold_left]. change (fold_left step (repeat Parent d) (step s Parent)) with (run (parent s) (repeat Parent d)).
    destruct (nth_error (cs s) i) as [c|] eqn:E; [|apply nth_error_None in E; lia].
    unfold parent. rewrite P, E. destruct (IH (MkSp (upd i (if alive c then Killed else c) (cs s)) (Kill (i + 1))) (i + 1))
      as (c' & -> & L'); [cbn; rewrite upd_length; lia|reflexivity|].
    exists c'. cbn in L'. rewrite upd_length in L'. split; auto. f_equal. f_equal. lia.
Qed.
Lemma one s : run s [Parent] = parent s. Proof. reflexivity. Qed.
Lemma rep_S a : repeat Parent (S a) = repeat Parent a ++ [Parent].
Proof. induction a as [|a IH]; auto. cbn [repeat] in *. cbn [app]. now rewrite <- IH. Qed.
Lemma end_join s i : all_dead s -> pc s = Join i -> i <= length (cs s) ->
  run s (repeat Parent (S (length (cs s) - i))) = MkSp (cs s) Returned.
Proof.
  intros D P L. rewrite rep_S, run_app. rewrite (@join_steps s D (length (cs s) - i) i) by (auto; lia). rewrite one.
  unfold parent. cbn [pc cs]. replace (nth_error (cs s) (i + (length (cs s) - i))) with (@None child); auto.
  symmetry. apply nth_error_None. lia.
Qed.
Lemma end_kill s i : pc s = Kill i -> i <= length (cs s) -> pc (run s (repeat Parent (S (length (cs s) - i)))) = Raised.
Proof.
  intros P L. rewrite rep_S, run_app. destruct (@kill_steps (length (cs s) - i) s i) as (c' & E & L'); [lia|auto|]. rewrite E, one.
  unfold parent. cbn [pc cs]. replace (nth_error c' (i + (length (cs s) - i))) with (@None child); auto.
  symmetry. apply nth_error_None. lia.
Qed.
Lemma end_check s i a : all_dead s -> 0 < length (cs s) -> pc s = Check i a -> (i = 0 \/ a = false) -> i <= length (cs s) ->
  run s (repeat Parent (S (length (cs s) - i))) = MkSp (cs s) (Join 0).
Proof.
  intros D N P H L. rewrite rep_S, run_app. rewrite (@check_steps (length (cs s) - i) s i a) by (auto; lia). rewrite one.
  assert (F : a && forallb alive (skipn i (cs s)) = false).
  { destruct H as [->| ->]; auto. cbn [skipn]. apply andb_false_iff. right. destruct (cs s) as [|c r] eqn:E; [cbn in N; lia|].
    cbn. rewrite (D 0 c); auto. now rewrite E. }
  rewrite F. unfold parent. cbn [pc cs]. replace (nth_error (cs s) (i + (length (cs s) - i))) with (@None child); auto.
  symmetry. apply nth_error_None. lia.
Qed.
Definition bounded (s : spawn) : Prop :=
  match pc s with Watch i _ | Check i _ | Join i | Kill i => i <= length (cs s) | _ => True end.
Lemma bounded_run n ls : bounded (run (spawn0 n) ls).
Proof.
  induction ls as [|l ls IH] using rev_ind; [cbn; lia|]. rewrite run_snoc. set (s := run (spawn0 n) ls) in *. clearbody s.
  unfold bounded in *. rewrite step_length. destruct l as [|k|k].
  - cbn [step]. unfold parent. destruct (pc s) as [i f|i a|i|i| |] eqn:P; try (rewrite P; exact I);
      destruct (nth_error (cs s) i) as [c|] eqn:E; cbn [pc];
      try (assert (i < length (cs s)) by (apply nth_error_Some; congruence)).
    + destruct (message c); [destruct (alive c); [rewrite P; lia|]|]; cbn; lia.
    + destruct f; cbn; lia.
    + lia.
    + destruct a; cbn; lia.
    + destruct (alive c); [rewrite P; lia|]; cbn; lia.
    + exact I.
    + lia.
    + exact I.
  - cbn. destruct (nth_error (cs s) k) as [[]|]; exact IH.
  - cbn. destruct (nth_error (cs s) k) as [[]|]; exact IH.
Qed.
Lemma run_parent_dead s m : all_dead s -> all_dead (run s (repeat Parent m)).
Proof.
  revert s; induction m as [|m IH]; intros s D; auto. cbn [repeat run fold_left].
  change (fold_left step (repeat Parent m) (step s Parent)) with (run (step s Parent) (repeat Parent m)). apply IH.
  intros k c E. eapply dead_after; eauto.
Qed.
Theorem C147_ends : forall n ls, 0 < n -> all_dead (run (spawn0 n) ls) ->
  exists m, finished (run (spawn0 n) (ls ++ repeat Parent m)).
Proof.
  intros n ls N D. setoid_rewrite run_app. pose proof (bounded_run n ls) as B.
  assert (L : length (cs (run (spawn0 n) ls)) = n) by (rewrite run_length; cbn; apply repeat_length).
  set (s := run (spawn0 n) ls) in *. clearbody s. clear ls.
  assert (J : forall s i, length (cs s) = n -> all_dead s -> pc s = Join i -> i <= length (cs s) -> exists m, finished (run s (repeat Parent m))).
  { intros t i L' D' P B'. exists (S (length (cs t) - i)). rewrite (end_join D' P B'). now left. }
  assert (K : forall s i, length (cs s) = n -> pc s = Kill i -> i <= length (cs s) -> exists m, finished (run s (repeat Parent m))).
  { intros t i L' P B'. exists (S (length (cs t) - i)). right. now apply end_kill. }
  assert (CH0 : forall s i a, length (cs s) = n -> all_dead s -> pc s = Check i a -> (i = 0 \/ a = false) -> i <= length (cs s) ->
    exists m, finished (run s (repeat Parent m))).
  { intros t i a L' D' P H B'. destruct (J (MkSp (cs t) (Join 0)) 0) as (m & F); [auto|exact D'|reflexivity|lia|].
    exists (S (length (cs t) - i) + m). rewrite repeat_app, run_app. rewrite (end_check D' ltac:(lia) P H B'). exact F. }
  assert (W : forall s i f, length (cs s) = n -> all_dead s -> pc s = Watch i f -> i <= length (cs s) -> exists m, finished (run s (repeat Parent m))).
  { intros t i f L' D' P B'. destruct (@watch_steps t D' (length (cs t) - i) i f) as (g & E); [lia|auto|].
    assert (E' : run t (repeat Parent (S (length (cs t) - i))) = MkSp (cs t) (if g then Kill 0 else Check 0 true)).
    { rewrite rep_S, run_app, E, one. unfold parent. cbn [pc cs].
      replace (nth_error (cs t) (i + (length (cs t) - i))) with (@None child); auto. symmetry. apply nth_error_None. lia. }
    destruct g.
    - destruct (K (MkSp (cs t) (Kill 0)) 0) as (m & F); [auto|reflexivity|cbn; lia|].
      exists (S (length (cs t) - i) + m). rewrite repeat_app, run_app, E'. exact F.
    - destruct (CH0 (MkSp (cs t) (Check 0 true)) 0 true) as (m & F); [auto|exact D'|reflexivity|auto|cbn; lia|].
      exists (S (length (cs t) - i) + m). rewrite repeat_app, run_app, E'. exact F. }
  unfold bounded in B. destruct (pc s) as [i f|i a|i|i| |] eqn:P.
  - eapply W; eauto.
  - destruct (a && forallb alive (skipn i (cs s))) eqn:F.
    + (* every process checked so far was alive then: another round *)
      assert (E' : run s (repeat Parent (S (length (cs s) - i))) = MkSp (cs s) (Watch 0 false)).
      { rewrite rep_S, run_app. rewrite (@check_steps (length (cs s) - i) s i a) by (auto; lia). rewrite F, one.
        unfold parent. cbn [pc cs]. replace (nth_error (cs s) (i + (length (cs s) - i))) with (@None child); auto.
        symmetry. apply nth_error_None. lia. }
      destruct (W (MkSp (cs s) (Watch 0 false)) 0 false) as (m & Fi); [auto|exact D|reflexivity|cbn; lia|].
      exists (S (length (cs s) - i) + m). rewrite repeat_app, run_app, E'. exact Fi.
    + assert (E' : run s (repeat Parent (S (length (cs s) - i))) = MkSp (cs s) (Join 0)).
      { rewrite rep_S, run_app. rewrite (@check_steps (length (cs s) - i) s i a) by (auto; lia). rewrite F, one.
        unfold parent. cbn [pc cs]. replace (nth_error (cs s) (i + (length (cs s) - i))) with (@None child); auto.
        symmetry. apply nth_error_None. lia. }
      destruct (J (MkSp (cs s) (Join 0)) 0) as (m & Fi); [auto|exact D|reflexivity|cbn; lia|].
      exists (S (length (cs s) - i) + m). rewrite repeat_app, run_app, E'. exact Fi.
  - eapply J; eauto.
  - eapply K; eauto.
  - exists 0. left. exact P.
  - exists 0. right. exact P.
Qed.
Print Assumptions C147_ends.

(* once a process has ended and the loop is left, failures of the others are never reported *)
Theorem C147_late_refuted : forall s i post, pc s = Join i -> pc (run s post) <> Raised.
Proof.
  intros s i post P.
  assert (H : (exists j, pc (run s post) = Join j) \/ pc (run s post) = Returned).
  { induction post as [|l post IH] using rev_ind; [left; exists i; exact P|]. rewrite run_snoc. set (t := run s post) in *. clearbody t.
    destruct l as [|k|k].
    - cbn [step]. unfold parent. destruct IH as [(j & E)|E]; rewrite E.
      + destruct (nth_error (cs t) j) as [c|]; [|cbn; auto]. destruct (alive c); [rewrite E|cbn]; eauto.
      + rewrite E. auto.
    - cbn. destruct (nth_error (cs t) k) as [[]|]; exact IH.
    - cbn. destruct (nth_error (cs t) k) as [[]|]; exact IH. }
  destruct H as [(j & E)|E]; rewrite E; discriminate.
Qed.
Print Assumptions C147_late_refuted.

(* this happens: process j ends, the parent leaves the loop, process k raises, everything returns normally *)
Lemma exits s k : k < length (cs s) -> (nth_error (cs s) k = Some Run \/ nth_error (cs s) k = Some Sent) ->
  pc (step s (Exit k)) = pc s /\ (forall c, nth_error (cs (step s (Exit k))) k = Some c -> alive c = false) /\
  (forall j, j <> k -> nth_error (cs (step s (Exit k))) j = nth_error (cs s) j).
Proof.
  intros L H. cbn. destruct H as [H|H]; rewrite H; cbn [cs pc]; (split; [reflexivity|]; split;
    [intros c E; rewrite upd_same in E by auto; injection E as <-; reflexivity|intros j N; rewrite upd_other; auto]).
Qed.
Lemma exit_all s m : m <= length (cs s) ->
  pc (run s (map Exit (seq 0 m))) = pc s /\
  (forall k c, k < m -> nth_error (cs (run s (map Exit (seq 0 m)))) k = Some c -> alive c = false) /\
  (forall k, m <= k -> nth_error (cs (run s (map Exit (seq 0 m)))) k = nth_error (cs s) k) /\
  (forall k, failed s k -> failed (run s (map Exit (seq 0 m))) k).
Proof.
  induction m as [|m IH]; intros L.
  - cbn. repeat split; auto; intros; lia.
  - destruct IH as (P & D & O & F); [lia|]. rewrite seq_S, map_app, run_app. cbn [map]. set (t := run s (map Exit (seq 0 m))) in *.
    change (run t [Exit (0 + m)]) with (step t (Exit m)).
    assert (LT : length (cs t) = length (cs s)) by apply run_length.
    destruct (nth_error (cs t) m) as [c|] eqn:E; [|apply nth_error_None in E; lia].
    destruct (alive c) eqn:A.
    + destruct (exits t (k := m)) as (P' & D' & O'); [lia|rewrite E; destruct c; try discriminate; auto|].
      split; [congruence|]. split.
      * intros k c' K E'. destruct (Nat.eq_dec k m) as [->|]; [eauto|]. rewrite O' in E' by auto. apply (D k c'); auto. lia.
      * split; [intros k K; rewrite O' by lia; apply O; lia|]. intros k Fk. destruct (Nat.eq_dec k m) as [->|NE].
        -- pose proof (F m Fk) as [G|G]; unfold failed; cbn; rewrite G; cbn; [rewrite upd_same by lia|rewrite G]; auto.
        -- unfold failed. rewrite O' by auto. apply F, Fk.
    + assert (Q : step t (Exit m) = t) by (cbn; rewrite E; destruct c; try discriminate; reflexivity). rewrite Q.
      split; auto. split.
      * intros k c' K E'. destruct (Nat.eq_dec k m) as [->|]; [congruence|]. apply (D k c'); auto. lia.
      * split; [intros k K; apply O; lia|exact F].
Qed.
Theorem C147_refuted : forall n j k, j < n -> k < n -> j <> k ->
  exists pre post, let s := run (spawn0 n) pre in
    nth_error (cs s) k = Some Run /\               (* process k still works *)
    let s' := run s post in failed s' k /\ pc s' = Returned.
Proof.
  intros n j k J K N.
  set (s1 := step (spawn0 n) (Exit j)).
  assert (R : forall i, i < n -> nth_error (cs (spawn0 n)) i = Some Run) by (intros i I; cbn; now apply nth_error_repeat).
  assert (L0 : length (cs (spawn0 n)) = n) by (cbn; apply repeat_length).
  assert (C1 : cs s1 = upd j Fine (repeat Run n)) by (unfold s1, step; rewrite R by auto; reflexivity).
  assert (L1 : length (cs s1) = n) by (rewrite C1, upd_length; apply repeat_length).
  assert (P1 : pc s1 = Watch 0 false) by (unfold s1, step; rewrite R by auto; reflexivity).
  assert (N1 : forall i, nth_error (cs s1) i = if (j =? i) && (i <? n) then Some Fine else nth_error (repeat Run n) i)
    by (intros i; rewrite C1, nth_upd, repeat_length; reflexivity).
  assert (Q1 : forall i c, nth_error (cs s1) i = Some c -> message c = false).
  { intros i c E. rewrite N1 in E. destruct (_ && _); [injection E as <-; reflexivity|].
    apply nth_error_In, repeat_spec in E. now subst c. }
  assert (W : run s1 (repeat Parent (S n)) = MkSp (cs s1) (Check 0 true)).
  { rewrite rep_S, run_app. rewrite (@quiet_steps s1 Q1 n 0 false) by auto. rewrite one. unfold parent. cbn [pc cs Nat.add].
    replace (nth_error (cs s1) n) with (@None child); auto. symmetry. apply nth_error_None. lia. }
  assert (C : run (MkSp (cs s1) (Check 0 true)) (repeat Parent (S n)) = MkSp (cs s1) (Join 0)).
  { rewrite rep_S, run_app. rewrite (@check_steps n (MkSp (cs s1) (Check 0 true)) 0 true) by auto. rewrite one. cbn [cs skipn Nat.add].
    replace (forallb alive (cs s1)) with false.
    - unfold parent. cbn [pc cs andb]. replace (nth_error (cs s1) n) with (@None child); auto. symmetry. apply nth_error_None. lia.
    - symmetry. apply not_true_iff_false. rewrite forallb_forall. intros H. specialize (H Fine). discriminate H.
      apply nth_error_In with (n := j). rewrite N1, Nat.eqb_refl. cbn [andb]. apply Nat.ltb_lt in J. now rewrite J. }
  set (s2 := MkSp (cs s1) (Join 0)) in *.
  assert (K2 : nth_error (cs s2) k = Some Run).
  { cbn. rewrite N1. destruct (Nat.eqb_spec j k); [congruence|]. cbn. now apply nth_error_repeat. }
  exists ([Exit j] ++ repeat Parent (S n) ++ repeat Parent (S n)), (Send k :: map Exit (seq 0 n) ++ repeat Parent (S n)).
  cbn zeta. rewrite !run_app. change (run (spawn0 n) [Exit j]) with s1. rewrite W, C. split; [exact K2|].
  change (run s2 (Send k :: map Exit (seq 0 n) ++ repeat Parent (S n))) with
    (run (step s2 (Send k)) (map Exit (seq 0 n) ++ repeat Parent (S n))). rewrite run_app.
  assert (S3 : step s2 (Send k) = MkSp (upd k Sent (cs s1)) (Join 0)) by (cbn [step]; rewrite K2; reflexivity).
  rewrite S3. set (s3 := MkSp (upd k Sent (cs s1)) (Join 0)).
  assert (L3 : length (cs s3) = n) by (unfold s3; cbn [cs]; rewrite upd_length; exact L1).
  assert (F3 : failed s3 k) by (left; unfold s3; cbn [cs]; apply upd_same; rewrite L1; exact K).
  destruct (exit_all s3 (m := n)) as (P4 & D4 & _ & F4); [rewrite L3; lia|]. specialize (F4 k F3).
  set (s4 := run s3 (map Exit (seq 0 n))) in *.
  assert (L4 : length (cs s4) = n) by (unfold s4; rewrite run_length; auto).
  assert (A4 : all_dead s4) by (intros i c E; apply (D4 i c); auto; rewrite <- L4; apply nth_error_Some; congruence).
  assert (E5 : run s4 (repeat Parent (S n)) = MkSp (cs s4) Returned).
  { replace (S n) with (S (length (cs s4) - 0)) by lia. apply end_join; auto. lia. }
  rewrite E5. split; [exact F4|reflexivity].
Qed.
Print Assumptions C147_refuted.

Example C147_nonvacuous :
  pc (run (spawn0 2) [Parent; Parent; Parent; Send 1; Exit 1; Parent; Parent; Parent; Exit 0; Parent; Parent; Parent]) = Returned /\
  pc (run (spawn0 2) [Send 1; Parent; Exit 1; Parent; Parent; Parent; Parent; Parent]) = Raised /\
  cs (run (spawn0 2) [Send 1; Parent; Exit 1; Parent; Parent; Parent; Parent; Parent]) = [Killed; Fail].
Proof. repeat split; reflexivity. Qed.
