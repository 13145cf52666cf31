(* C216 the processes of a distributed training meet in their collective calls, C217 those of a distributed test. *)
From Verif Require Import Lib.Base Model.Launch Model.StepSync.

(* every process comes to its end *)
Definition completes (ps : list (list coll)) : Prop := exists n q, meets n ps = Some q /\ forall l, In l q -> l = [].

Lemma coll_eqb_eq a b : coll_eqb a b = true <-> a = b.
Proof. destruct a, b; cbn; split; congruence. Qed.
Lemma pop_some c ps : forall q, pop c ps = Some q <-> ps = map (cons c) q.
Proof.
  induction ps as [|[|x r] ps IH]; intros q; cbn.
  - split; [intros E; injection E as <-; reflexivity|]. destruct q; [auto|discriminate].
  - split; [discriminate|]. destruct q; discriminate.
  - destruct (coll_eqb c x) eqn:E.
    + apply coll_eqb_eq in E as <-. destruct (pop c ps) as [q'|] eqn:P.
      * split; [intros Q; injection Q as <-; cbn; f_equal; now apply IH|]. destruct q as [|y q]; [discriminate|]. cbn. intros Q. injection Q as <- Q.
        apply IH in Q. congruence.
      * split; [discriminate|]. destruct q as [|y q]; [discriminate|]. cbn. intros Q. injection Q as <- Q. apply IH in Q. discriminate.
    + split; [discriminate|]. destruct q as [|y q]; [discriminate|]. cbn. intros Q. injection Q as -> _ _.
      rewrite (proj2 (coll_eqb_eq c c) eq_refl) in E. discriminate.
Qed.
Lemma meets_equal n : forall ps q, meets n ps = Some q -> (forall l, In l q -> l = []) -> forall a b, In a ps -> In b ps -> a = b.
Proof.
  induction n as [|n IH]; cbn; intros ps q E Z a b A B.
  - injection E as ->. rewrite (Z a A), (Z b B). reflexivity.
  - destruct (meet ps) as [q1|] eqn:M; [|discriminate]. unfold meet in M. destruct ps as [|[|c r] ps]; try discriminate.
    apply pop_some in M. rewrite M in A, B. apply in_map_iff in A as (a' & <- & A), B as (b' & <- & B). f_equal. eapply IH; eauto.
Qed.
Lemma equal_meets l : forall ps, ps <> [] -> (forall a, In a ps -> a = l) -> completes ps.
Proof.
  induction l as [|c l IH]; intros ps N H.
  - exists 0, ps. split; auto.
  - assert (P : ps = map (cons c) (map (@tl coll) ps)).
    { rewrite map_map. rewrite <- (map_id ps) at 1. apply map_ext_in. intros a A. rewrite (H a A). reflexivity. }
    destruct (IH (map (@tl coll) ps)) as (n & q & E & Z).
    { destruct ps; [contradiction|discriminate]. }
    { intros a A. apply in_map_iff in A as (b & <- & B). rewrite (H b B). reflexivity. }
    exists (S n), q. split; auto. cbn. assert (M : meet ps = Some (map (@tl coll) ps)).
    { unfold meet. destruct ps as [|p ps]; [contradiction|]. destruct p as [|x p].
      - specialize (H [] (or_introl eq_refl)). discriminate.
      - specialize (H (x :: p) (or_introl eq_refl)). injection H as -> ->. now apply pop_some. }
    rewrite M. exact E.
Qed.

Section C216.
  Context {K V C : Type}.
  Variable esm : K -> bool.
  (* values reported under a monitored key by the first sample of a batch *)
  Definition plain (v : @value V C) : bool := match v with Tuple (_ :: EC _ :: _) => false | _ => true end.
  Definition monitored (batch : list (list (list (K * @value V C)))) : nat :=
    match batch with [] => 0 | logs :: _ => length (filter (fun kv => esm (fst kv) && plain (snd kv)) (concat logs)) end.
  (* _log does not raise (C132): tuples have two elements *)
  Definition loggable (batch : list (list (list (K * @value V C)))) : Prop :=
    forall logs l k t, hd_error batch = Some logs -> In l logs -> In (k, Tuple t) l -> 2 <= length t.

  Lemma log_items_count l : (forall k t, In (k, Tuple t) l -> 2 <= length t) ->
    snd (@log_items K V C esm l) = Ok tt /\ length (filter (@synced K V C) (fst (log_items esm l))) = length (filter (fun kv => esm (fst kv) && plain (snd kv)) l).
  Proof.
    induction l as [|[k v] l IH]; intros H; cbn; auto.
    destruct IH as [I1 I2]; [intros k' t' I; eapply H; right; eauto|].
    assert (R : exists r, log_one esm k v = Ok r /\ synced r = esm k && plain v).
    { destruct v as [v|[|x [|[y|c] t]]]; cbn.
      - eexists. split; [reflexivity|]. cbn. now rewrite andb_true_r.
      - specialize (H k [] (or_introl eq_refl)). cbn in H. lia.
      - specialize (H k [x] (or_introl eq_refl)). cbn in H. lia.
      - eexists. split; [reflexivity|]. cbn. now rewrite andb_true_r.
      - eexists. split; [reflexivity|]. cbn. now rewrite andb_false_r. }
    destruct R as (r & -> & S). destruct (log_items esm l) as [xs e]. cbn [fst snd] in *. split; auto. cbn [filter]. rewrite S.
    destruct (esm k && plain v); cbn; auto.
  Qed.
  Lemma step_colls_ok b : loggable b -> step_colls esm b = (repeat Reduce (monitored b) ++ [Bar], true).
  Proof.
    intros H. destruct b as [|logs b]; cbn; auto. unfold log_all.
    destruct (log_items_count (concat logs)) as [I1 I2].
    { intros k t I. apply in_concat in I as (l & L & I). eapply (H logs l k t); eauto. }
    destruct (log_items esm (concat logs)) as [rs e]. cbn in *. subst e. now rewrite I2.
  Qed.
  Lemma proc_colls_ok steps : (forall b, In b steps -> loggable b) ->
    proc_colls esm steps = concat (map (fun b => repeat Reduce (monitored b) ++ [Bar]) steps).
  Proof.
    induction steps as [|b steps IH]; intros H; cbn; auto. rewrite step_colls_ok by (apply H; left; auto).
    rewrite IH by (intros; apply H; right; auto). reflexivity.
  Qed.
End C216.
Definition enc (ns : list nat) : list coll := concat (map (fun n => repeat Reduce n ++ [Bar]) ns).
Lemma enc_inj a : forall b, enc a = enc b -> a = b.
Proof.
  induction a as [|n a IH]; intros [|m b] E; auto.
  - cbn in E. destruct m; discriminate.
  - cbn in E. destruct n; discriminate.
  - unfold enc in E. cbn in E. rewrite <- !app_assoc in E. cbn in E.
    assert (Q : n = m /\ enc a = enc b).
    { clear IH. revert m E. induction n as [|n IHn]; intros [|m] E; cbn in E; try discriminate.
      - injection E as E. auto.
      - injection E as E. apply IHn in E as [-> E]. auto. }
    destruct Q as [-> Q]. f_equal. auto.
Qed.

(* The training of all processes comes to its end exactly when all have the same number of steps and, in each step, the same
   number of monitored values in their first samples. *)
Theorem C216_exactly_partial : forall K V C (esm : K -> bool) (procs : list (list (list (list (list (K * @value V C)))))),
  procs <> [] -> (forall p b, In p procs -> In b p -> loggable b) ->
  (completes (map (proc_colls esm) procs) <->
   forall p q, In p procs -> In q procs -> map (monitored esm) p = map (monitored esm) q).
Proof.
  intros K V C esm procs N H.
  assert (E : forall p, In p procs -> proc_colls esm p = enc (map (monitored esm) p)).
  { intros p P. rewrite proc_colls_ok by eauto. unfold enc. now rewrite map_map. }
  split.
  - intros (n & r & M & Z) p q P Q. apply enc_inj. rewrite <- !E by auto. eapply (meets_equal n _ _ M Z); apply in_map; auto.
  - intros S. destruct procs as [|p0 procs]; [contradiction|]. apply (equal_meets (proc_colls esm p0)); [discriminate|].
    intros a A. apply in_map_iff in A as (p & <- & P). rewrite !E by (auto; left; auto). f_equal. apply S; auto. left. auto.
Qed.
Print Assumptions C216_exactly_partial.
(* one process whose first sample does not report the monitored value, or reports it twice, blocks everything *)
Theorem C216_refuted : forall K V C (esm : K -> bool) (procs : list (list (list (list (list (K * @value V C)))))) p q j b b',
  (forall p b, In p procs -> In b p -> loggable b) -> In p procs -> In q procs ->
  nth_error p j = Some b -> nth_error q j = Some b' -> monitored esm b <> monitored esm b' ->
  ~ completes (map (proc_colls esm) procs).
Proof.
  intros K V C esm procs p q j b b' H P Q B B' N Z. apply N.
  assert (NE : procs <> []) by (intros ->; destruct P).
  pose proof (proj1 (C216_exactly_partial K V C esm procs NE H) Z p q P Q) as E.
  apply (f_equal (fun l => nth_error l j)) in E. rewrite !nth_error_map, B, B' in E. cbn in E. congruence.
Qed.
Print Assumptions C216_refuted.
(* and so does a process in which _log raises, as soon as another process has as many steps *)
Definition bars (l : list coll) : nat := length (filter (coll_eqb Bar) l).
Lemma bars_app a b : bars (a ++ b) = bars a + bars b.
Proof. unfold bars. now rewrite filter_app, app_length. Qed.
Lemma bars_reduce n : bars (repeat Reduce n) = 0.
Proof. induction n; cbn; auto. Qed.
Definition raises {K V C} (b : list (list (list (K * @value V C)))) : Prop :=
  exists logs l k t, hd_error b = Some logs /\ In l logs /\ In (k, Tuple t) l /\ length t < 2.
Lemma log_items_raises {K V C} (esm : K -> bool) l k t : In (k, @Tuple V C t) l -> length t < 2 -> exists e, snd (log_items esm l) = Err e.
Proof.
  induction l as [|[k' v] l IH]; cbn; [intros []|]. intros [E|I] L.
  - injection E as -> ->. destruct t as [|x [|y t]]; cbn in *; eauto. lia.
  - destruct (log_one esm k' v) as [r|e]; cbn; eauto. destruct (IH I L) as [e E]. destruct (log_items esm l) as [xs e']. cbn in *. eauto.
Qed.
Lemma step_raises {K V C} (esm : K -> bool) (b : list (list (list (K * @value V C)))) : raises b -> exists n, step_colls esm b = (repeat Reduce n, false).
Proof.
  intros (logs & l & k & t & E & L & I & T). destruct b as [|logs' b]; [discriminate|]. injection E as ->. cbn. unfold log_all.
  destruct (log_items_raises esm (concat logs) k t) as [e Q]; auto; [apply in_concat; eauto|].
  destruct (log_items esm (concat logs)) as [rs e']. cbn in Q. subst e'. eauto.
Qed.
Lemma bars_step {K V C} (esm : K -> bool) (b : list (list (list (K * @value V C)))) l a : step_colls esm b = (l, a) -> bars l = if a then 1 else 0.
Proof.
  destruct b as [|logs b]; cbn; [intros E; injection E as <- <-; reflexivity|]. destruct (log_all esm logs) as [rs [u|e]]; intros E; injection E as <- <-.
  - now rewrite bars_app, bars_reduce.
  - apply bars_reduce.
Qed.
Lemma bars_le {K V C} (esm : K -> bool) (p : list (list (list (list (K * @value V C))))) : bars (proc_colls esm p) <= length p.
Proof.
  induction p as [|b p IH]; cbn [proc_colls length]; auto. destruct (step_colls esm b) as [l a] eqn:E. apply bars_step in E. destruct a; rewrite ?bars_app, E; lia.
Qed.
Theorem C216_raised_refuted : forall K V C (esm : K -> bool) (procs : list (list (list (list (list (K * @value V C)))))) p q,
  In p procs -> In q procs -> (exists b, In b p /\ raises b) -> (forall b, In b q -> loggable b) -> length p <= length q ->
  ~ completes (map (proc_colls esm) procs).
Proof.
  intros K V C esm procs p q P Q (b & B & R) G L (n & r & M & Z).
  assert (E : proc_colls esm p = proc_colls esm q) by (eapply (meets_equal n _ _ M Z); apply in_map; auto).
  apply (f_equal bars) in E.
  assert (BQ : bars (proc_colls esm q) = length q).
  { clear -G. induction q as [|c q IH]; cbn [proc_colls length]; auto. rewrite (step_colls_ok esm c) by (apply G; left; auto).
    rewrite !bars_app, bars_reduce, IH by (intros; apply G; right; auto). reflexivity. }
  assert (BP : bars (proc_colls esm p) < length p).
  { clear -B R. induction p as [|c p IH]; [destruct B|]. cbn [proc_colls length]. destruct B as [->|B].
    - destruct (step_raises esm b R) as [m ->]. rewrite bars_reduce. lia.
    - destruct (step_colls esm c) as [l a] eqn:E. apply bars_step in E. specialize (IH B). destruct a; rewrite ?bars_app, E; lia. }
  lia.
Qed.
Print Assumptions C216_raised_refuted.
Example C216_raised_nonvacuous : @raises nat nat nat [[[(1, Plain 3)]; [(2, Tuple [EV 7])]]] /\
  meets 2 (map (proc_colls (fun k => k =? 1)) [[[[[(1, Plain 3)]; [(2, @Tuple nat nat [EV 7])]]]]; [[[[(1, Plain 3)]]]]]) = None.
Proof. split; [|reflexivity]. exists [[(1, Plain 3)]; [(2, Tuple [EV 7])]], [(2, Tuple [EV 7])], 2, [EV 7]. cbn. auto 10. Qed.
Example C216_nonvacuous :
  let esm k := k =? 1 in
  let reward v := [(1, @Plain nat nat v)] in let info := [(2, Plain 5)] in
  let p := [[[info; reward 3]; [reward 9]]; [[reward 4]]] in let q := [[[reward 8]]; [[reward 2; info]]] in
  let r := [[[info]]; [[reward 2]]] in
  map (monitored esm) p = [1; 1] /\ completes (map (proc_colls esm) [p; q]) /\
  meets 1 (map (proc_colls esm) [p; r]) = None.
Proof. cbn zeta. split; [reflexivity|]. split; [|reflexivity]. exists 4, [[]; []]. split; [reflexivity|]. intros l [<-|[<-|[]]]; reflexivity. Qed.

(* ---- C217 ---- *)
(* values reported under a monitored key by one sample *)
Definition reported {K V C} (esm : K -> bool) (logs : list (list (K * @value V C))) : nat :=
  length (filter (fun kv => esm (fst kv) && plain (snd kv)) (concat logs)).
Definition in_test {K V C} (esm : K -> bool) (steps : list (list (list (list (K * @value V C))))) : nat :=
  list_sum (map (fun batch => list_sum (map (reported esm) batch)) steps).
Lemma test_colls_ok {K V C} (esm : K -> bool) (l : list (list (list (K * @value V C)))) : (forall logs, In logs l -> loggable [logs]) ->
  test_colls esm l = repeat Reduce (list_sum (map (reported esm) l)).
Proof.
  induction l as [|logs l IH]; intros H; cbn; auto. unfold log_all.
  destruct (log_items_count esm (concat logs)) as [I1 I2].
  { intros k t I. apply in_concat in I as (x & X & I). exact (H logs (or_introl eq_refl) logs x k t eq_refl X I). }
  destruct (log_items esm (concat logs)) as [rs e]. cbn in *. subst e. rewrite I2, IH by (intros; apply H; right; auto).
  symmetry. apply repeat_app.
Qed.
Lemma sum_concat {X} (f : X -> nat) l : list_sum (map f (concat l)) = list_sum (map (fun b => list_sum (map f b)) l).
Proof. induction l as [|b l IH]; cbn; auto. rewrite map_app, list_sum_app, IH. reflexivity. Qed.
(* a test ends in all processes exactly when all of them report the same number of monitored values in total *)
Theorem C217_exactly_partial : forall K V C (esm : K -> bool) (procs : list (list (list (list (list (K * @value V C)))))),
  procs <> [] -> (forall p b logs, In p procs -> In b p -> In logs b -> loggable [logs]) ->
  (completes (map (test_run esm) procs) <-> forall p q, In p procs -> In q procs -> in_test esm p = in_test esm q).
Proof.
  intros K V C esm procs N H.
  assert (E : forall p, In p procs -> test_run esm p = repeat Reduce (in_test esm p)).
  { intros p P. unfold test_run, in_test. rewrite test_colls_ok, sum_concat; auto. intros logs L. apply in_concat in L as (b & B & L). eauto. }
  split.
  - intros (n & r & M & Z) p q P Q. rewrite <- (repeat_length Reduce (in_test esm p)), <- (repeat_length Reduce (in_test esm q)), <- !E by auto.
    f_equal. eapply (meets_equal n _ _ M Z); apply in_map; auto.
  - intros S. destruct procs as [|p0 procs]; [contradiction|]. apply (equal_meets (test_run esm p0)); [discriminate|].
    intros a A. apply in_map_iff in A as (p & <- & P). rewrite !E by (auto; left; auto). f_equal. apply S; auto. left. auto.
Qed.
Print Assumptions C217_exactly_partial.
(* so processes which all report one value per sample, but have different numbers of samples, block each other *)
Theorem C217_refuted : forall K V C (esm : K -> bool) (procs : list (list (list (list (list (K * @value V C)))))) p q,
  (forall p b logs, In p procs -> In b p -> In logs b -> loggable [logs] /\ reported esm logs = 1) ->
  In p procs -> In q procs -> length (concat p) <> length (concat q) -> ~ completes (map (test_run esm) procs).
Proof.
  intros K V C esm procs p q H P Q N Z. apply N.
  assert (NE : procs <> []) by (intros ->; destruct P).
  assert (L : forall p, In p procs -> in_test esm p = length (concat p)).
  { intros p' P'. unfold in_test. rewrite <- sum_concat. assert (A : forall x, In x (concat p') -> reported esm x = 1).
    { intros x X. apply in_concat in X as (b & B & X). eapply H; eauto. }
    clear -A. induction (concat p') as [|x l IH]; auto.
    change (reported esm x + list_sum (map (reported esm) l) = S (length l)). rewrite (A x (or_introl eq_refl)), IH; auto. intros y Y. apply A. right. auto. }
  rewrite <- !L by auto. apply (proj1 (C217_exactly_partial K V C esm procs NE (fun p b l A B D => proj1 (H p b l A B D))) Z); auto.
Qed.
Print Assumptions C217_refuted.
Example C217_nonvacuous :
  let esm k := k =? 1 in let reward v := [(1, @Plain nat nat v)] in
  let p := [[[reward 3]]; [[reward 4]]] in let q := [[[reward 8]; [reward 2]]] in let r := [[[reward 1]]] in
  completes (map (test_run esm) [p; q]) /\ in_test esm p = 2 /\ meets 2 (map (test_run esm) [p; r]) = None.
Proof. cbn zeta. split; [|split; reflexivity]. exists 2, [[]; []]. split; [reflexivity|]. intros l [<-|[<-|[]]]; reflexivity. Qed.
