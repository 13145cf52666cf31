(* Consequences of the pool invariant used by the property file. *)
From Verif Require Import Lib.Base Model.Pool Spec.PoolSpec Proofs.PoolProofs Proofs.PoolSysProofs.
Set Implicit Arguments.

Lemma Forall2_impl' {A B} (P Q : A -> B -> Prop) l q : (forall a b, P a b -> Q a b) -> Forall2 P l q -> Forall2 Q l q.
Proof. intros H F. induction F; auto. Qed.
Lemma Forall2_len {A B} (P : A -> B -> Prop) l l' : Forall2 P l l' -> length l = length l'.
Proof. induction 1; cbn; auto. Qed.

Lemma NoDup_app_l {A} (l q : list A) : NoDup (l ++ q) -> NoDup l.
Proof.
  induction l as [|x l IH]; cbn; intro N; [constructor|]. inversion N; subst. constructor; auto.
  intro H. apply H1. apply in_app_iff. auto.
Qed.

Section Facts.
  Variables A V E : Type.
  Notation st := (st A V E).
  Notation event := (event A V E).
  Notation job := (job A V E).
  Notation outc := (outcome E (payload V)).

  Lemma njobs_map f xs c k : 0 < c -> (k < njobs (@JMap A V E f xs c) <-> k * c < length xs).
  Proof.
    intro Hc. unfold njobs. cbn [works]. rewrite map_length, <- nth_error_Some, split_nth by auto.
    destruct (Nat.ltb_spec (k * c) (length xs)); split; intros; try congruence; lia.
  Qed.
  Lemma njobs_iter b f xs c k : 0 < c -> (k < njobs (@JIter A V E b f xs c) <-> k * c < length xs).
  Proof.
    intro Hc. unfold njobs. cbn [works]. destruct (Nat.eqb_spec c 1) as [->|N].
    - rewrite map_length. lia.
    - rewrite map_length, <- nth_error_Some, split_nth by auto.
      destruct (Nat.ltb_spec (k * c) (length xs)); split; intros; try congruence; lia.
  Qed.

  Lemma out_map_chunk f xs c pf k o : 0 < c -> out_of (@JMap A V E f xs c) pf k o -> chunk_result f pf xs c k o.
  Proof.
    intros Hc (w & Hw & ->). apply nth_map_works in Hw as [-> Hk]; auto. split; auto.
    destruct (pf k); auto. cbn. destruct (map_caller f (chunk_of xs c k)) eqn:M; cbn.
    - now apply map_caller_good.
    - now apply map_caller_bad.
  Qed.

  Lemma chunk1 (xs : list A) k x : nth_error xs k = Some x -> chunk_of xs 1 k = [x].
  Proof.
    intro H. unfold chunk_of. rewrite Nat.mul_1_r. revert xs H; induction k as [|k IH]; intros [|y xs] H; cbn in *; try discriminate; auto.
    congruence.
  Qed.

  Lemma out_iter_chunk b f xs c pf k o : 0 < c -> out_of (@JIter A V E b f xs c) pf k o ->
    chunk_result f pf xs c k o /\ (c = 1 -> forall p, o = Good p -> exists v, p = PV v).
  Proof.
    intros Hc HO. pose proof (out_of_lt HO) as L. apply njobs_iter in L; auto.
    destruct HO as (w & Hw & ->). cbn [works] in Hw. destruct (Nat.eqb_spec c 1) as [->|N].
    - rewrite nth_error_map in Hw. destruct (nth_error xs k) as [x|] eqn:X; [|discriminate]. injection Hw as <-.
      unfold chunk_result. rewrite (chunk1 _ _ X). destruct (pf k); [split; [split; [lia|auto]|discriminate]|]. cbn [exec].
      destruct (f x) eqn:F; cbn; split; [split; [lia|]|..].
      + repeat constructor; auto.
      + intros _ p Q. injection Q as <-. eauto.
      + split; [lia|]. exists [], x, []. auto.
      + discriminate.
    - rewrite nth_error_map, split_nth in Hw by auto. destruct (k * c <? length xs); [|discriminate]. injection Hw as <-.
      split; [|congruence]. split; auto. destruct (pf k); auto. cbn. destruct (map_caller f (chunk_of xs c k)) eqn:M; cbn.
      + now apply map_caller_good.
      + now apply map_caller_bad.
  Qed.

  Lemma in_keys_In j k (s : st) : In (j, k) (in_keys s) <-> exists t, t_job t = j /\ t_chunk t = k /\ In (Some t) (s_in s).
  Proof.
    unfold in_keys. rewrite in_flat_map. split.
    - intros ([t|] & I & H); cbn in H; [|tauto]. destruct H as [H|[]]. injection H as <- <-. eauto.
    - intros (t & <- & <- & I). exists (Some t). cbn; auto.
  Qed.
  Lemma busy_keys_In j k (p : list (wstate A V E)) : In (j, k) (busy_keys p) <-> exists t, t_job t = j /\ t_chunk t = k /\ In (WBusy t) p.
  Proof.
    unfold busy_keys. rewrite in_flat_map. split.
    - intros ([|t|] & I & H); cbn in H; try tauto. destruct H as [H|[]]. injection H as <- <-. eauto.
    - intros (t & <- & <- & I). exists (WBusy t). cbn; auto.
  Qed.
  Lemma out_keys_In j k (s : st) : In (j, k) (out_keys s) <-> exists o, In (j, k, o) (s_out s).
  Proof.
    unfold out_keys. rewrite in_map_iff. split.
    - intros ([[j' k'] o] & H & I). cbn in H. injection H as -> ->. eauto.
    - intros (o & I). exists (j, k, o). auto.
  Qed.
  Lemma lost_keys_In j k (l : list event) : In (j, k) (lost_keys l) <-> In (ELost A V E j k) l.
  Proof.
    unfold lost_keys. rewrite in_flat_map. split.
    - intros ([] & I & H); cbn in H; try tauto. destruct H as [H|[]]. congruence.
    - intros I. eexists; split; eauto. cbn; auto.
  Qed.
  Lemma rep_keys_In j k (l : list event) : In (j, k) (rep_keys l) <-> exists o, In (k, o) (reports j l).
  Proof.
    unfold rep_keys. rewrite in_flat_map. split.
    - intros ([] & I & H); cbn in H; try tauto. destruct H as [H|[]]. injection H as -> ->. exists o. now apply In_reports.
    - intros (o & I). apply In_reports in I. eexists; split; eauto. cbn; auto.
  Qed.

  Lemma outstanding_cnt (s : st) j k : outstanding s j k <->
    0 < cnt (j, k) (in_keys s) + cnt (j, k) (busy_keys (s_pool s)) + cnt (j, k) (out_keys s) + cnt (j, k) (lost_keys (s_log s)).
  Proof.
    unfold outstanding. split.
    - intros [(t & H1 & H2 & [H|H])|[H|H]].
      + assert (In (j, k) (in_keys s)) by (apply in_keys_In; eauto). apply cnt_in in H0. lia.
      + assert (In (j, k) (busy_keys (s_pool s))) by (apply busy_keys_In; eauto). apply cnt_in in H0. lia.
      + apply out_keys_In, cnt_in in H. lia.
      + apply lost_keys_In, cnt_in in H. lia.
    - intro H. destruct (Nat.eq_dec (cnt (j, k) (in_keys s)) 0) as [Z1|Z1].
      2:{ left. assert (Q : In (j, k) (in_keys s)) by (apply cnt_in; lia). apply in_keys_In in Q as (t & ? & ? & ?). exists t. auto. }
      destruct (Nat.eq_dec (cnt (j, k) (busy_keys (s_pool s))) 0) as [Z2|Z2].
      2:{ left. assert (Q : In (j, k) (busy_keys (s_pool s))) by (apply cnt_in; lia). apply busy_keys_In in Q as (t & ? & ? & ?). exists t. auto. }
      right. destruct (Nat.eq_dec (cnt (j, k) (out_keys s)) 0) as [Z3|Z3].
      2:{ left. assert (Q : In (j, k) (out_keys s)) by (apply cnt_in; lia). now apply out_keys_In in Q. }
      right. apply lost_keys_In. apply cnt_in. lia.
  Qed.

  Lemma accounted (s : st) j jb pf k : INV [] s -> In (ESubmit j jb pf) (s_log s) -> k < njobs jb ->
    (reported s j k \/ outstanding s j k) /\ ~ (reported s j k /\ outstanding s j k).
  Proof.
    intros I HS Hk.
    assert (SK : In (j, k) (sub_keys (s_log s))) by (apply In_sub_keys; eauto).
    apply cnt_in in SK. pose proof (inv_le1 (j, k) I). pose proof (i_cnt I (j, k)) as C. rewrite cnt_nil in C.
    assert (RR : reported s j k <-> 0 < cnt (j, k) (rep_keys (s_log s))).
    { unfold reported. rewrite <- rep_keys_In. apply cnt_in. }
    rewrite RR, outstanding_cnt. lia.
  Qed.

  Lemma all_reported (s : st) j jb pf : INV [] s -> In (ESubmit j jb pf) (s_log s) ->
    (forall k, k < njobs jb -> reported s j k) -> length (reports j (s_log s)) = njobs jb.
  Proof. intros I HS H. apply (valid_full (@inv_valid A V E [] s j jb pf I HS)). auto. Qed.

  Lemma completed_no_outstanding (s : st) j k : all_completed s -> ~ outstanding s j k.
  Proof.
    intros (H1 & H2 & H3 & H4) [(t & _ & _ & [H|H])|[(o & H)|H]].
    - now apply H1 in H.
    - now apply H2 in H.
    - now rewrite H3 in H.
    - now apply H4 in H.
  Qed.

  Lemma completed_cache (s : st) : INV [] s -> all_completed s ->
    (forall j jb pf, In (ESubmit j jb pf) (s_log s) -> ~ empty_iter jb) -> s_cache s = [].
  Proof.
    intros I AC NE. destruct (s_cache s) as [|j q] eqn:Q; auto. exfalso.
    assert (Ij : In j (s_cache s)) by (rewrite Q; cbn; auto).
    pose proof (i_cache I _ Ij) as IS. apply In_sub_ids in IS as (jb & pf & HS).
    destruct (i_obj I _ _ _ HS) as (r & _ & _ & P). pose proof (proj1 P Ij) as [C L].
    assert (F : length (reports j (s_log s)) = njobs jb).
    { apply (@all_reported s j jb pf I HS). intros k Hk. destruct (@accounted s j jb pf k I HS Hk) as [[?|?] _]; auto. now apply completed_no_outstanding in H. }
    assert (Z : njobs jb = 0) by lia. pose proof (i_size I _ _ _ HS) as Sz.
    destruct jb as [f x|f xs c|b f xs c]; cbn in Sz.
    - discriminate.
    - destruct xs as [|x xs]; [now apply C, Sz|].
      assert (0 < njobs (JMap f (x :: xs) c)) by (apply njobs_map; cbn; lia). lia.
    - apply (NE _ _ _ HS). cbn. destruct xs as [|x xs]; auto.
      assert (0 < njobs (JIter b f (x :: xs) c)) by (apply njobs_iter; cbn; lia). lia.
  Qed.

  (* a job that can never be finished stays in the cache *)
  Lemma stuck_cache (s : st) j jb pf : INV [] s -> In (ESubmit j jb pf) (s_log s) ->
    empty_iter jb \/ (exists k, In (ELost A V E j k) (s_log s)) -> In j (s_cache s).
  Proof.
    intros I HS H. destruct (i_obj I _ _ _ HS) as (r & _ & _ & P). apply P. destruct H as [H|(k & H)].
    - destruct jb as [| |b f xs c]; cbn in H; try tauto. subst xs. split; auto. right.
      pose proof (i_size I _ _ _ HS) as Sz. cbn in Sz.
      destruct (njobs (JIter b f [] c)) eqn:N; auto. exfalso.
      assert (0 * c < length (@nil A)) by (apply (njobs_iter b f [] 0 Sz); lia). cbn in H. lia.
    - assert (L : 0 < cnt (j, k) (lost_keys (s_log s))) by (apply cnt_in, lost_keys_In; auto).
      pose proof (i_cnt I (j, k)) as C. pose proof (inv_le1 (j, k) I) as L1.
      assert (SK : In (j, k) (sub_keys (s_log s))) by (apply cnt_in; lia).
      apply In_sub_keys in SK as (jb' & pf' & HS' & Hk). destruct (@sub_unique A V E _ _ _ _ _ _ (i_ids I) HS HS') as [<- <-].
      assert (NR : ~ reported s j k).
      { unfold reported. rewrite <- rep_keys_In. rewrite cnt_in. lia. }
      split.
      + destruct jb as [|f xs c|]; auto. intros ->. unfold njobs in Hk. cbn [works] in Hk. rewrite split_zero in Hk. cbn in Hk. lia.
      + left. pose proof (valid_len (@inv_valid A V E [] s j jb pf I HS)) as Vl.
        destruct (Nat.eq_dec (length (reports j (s_log s))) (njobs jb)) as [Q|]; [|lia].
        destruct (valid_all (@inv_valid A V E [] s j jb pf I HS) Q Hk) as (o & Ho). exfalso. apply NR. exists o. auto.
  Qed.

  (* ---- handler threads and workers ---- *)
  Definition nones (q : list (option (task A V E))) : nat :=
    length (filter (fun t => match t with None => true | _ => false end) q).
  Definition TI (s : st) : Prop :=
    (s_wh s = true -> nones (s_in s) = 0) /\
    (s_wh s = false -> live s <= nones (s_in s)) /\
    (s_wh s = false \/ s_rh s = false -> s_state s = PTerm \/ (s_state s = PClose /\ s_cache s = [])).

  Lemma nones_app a b : nones (a ++ b) = nones a + nones b.
  Proof. unfold nones. now rewrite filter_app, app_length. Qed.
  Lemma nones_repeat n : nones (repeat None n) = n.
  Proof. induction n; cbn; auto. Qed.
  Lemma filter_le {T} (f : T -> bool) l : length (filter f l) <= length l.
  Proof. induction l as [|x l IH]; cbn; auto. destruct (f x); cbn; lia. Qed.
  Lemma live_upd (p : list (wstate A V E)) w x y : nth_error p w = Some y ->
    length (filter (@alive A V E) (upd w x p)) + (if alive y then 1 else 0) =
    length (filter (@alive A V E) p) + (if alive x then 1 else 0).
  Proof.
    revert w; induction p as [|z p IH]; intros [|w] H; cbn in H; try discriminate.
    - injection H as ->. cbn. destruct (alive x), (alive y); cbn; lia.
    - cbn. specialize (IH _ H). destruct (alive z); cbn; lia.
  Qed.

  Lemma report_frame j k o (s : st) :
    s_state (report j k o s) = s_state s /\ s_in (report j k o s) = s_in s /\ s_pool (report j k o s) = s_pool s /\
    s_wh (report j k o s) = s_wh s /\ s_rh (report j k o s) = s_rh s /\ s_ctr (report j k o s) = s_ctr s /\
    s_out (report j k o s) = s_out s /\ (forall i, In i (s_cache (report j k o s)) -> In i (s_cache s)) /\
    (forall e, In e (s_log s) -> In e (s_log (report j k o s))).
  Proof.
    unfold report. destruct (existsb _ _); [|auto 15]. destruct (dget j (s_objs s)); [|auto 15].
    destruct (obj_set k o r) as [r' d]. cbn. repeat split; auto.
    - intros i H. destruct d; auto. apply rm_In in H. tauto.
    - intros e H. apply in_app_iff. auto.
  Qed.

  Lemma put_all_frame j pf ws : forall k (s : st),
    let s' := put_all j k ws pf s in
    s_state s' = s_state s /\ nones (s_in s') = nones (s_in s) /\ s_pool s' = s_pool s /\ s_wh s' = s_wh s /\ s_rh s' = s_rh s /\
    (forall e, In e (s_log s) -> In e (s_log s')).
  Proof.
    induction ws as [|w ws IH]; intros k s; cbn [put_all]; cbv zeta; [auto 10|].
    destruct (pf k) as [e|].
    - destruct (report_frame j k (Bad e) s) as (a & b & c & d & f & _ & _ & _ & g).
      specialize (IH (S k) (report j k (Bad e) s)). cbv zeta in IH. rewrite a, b, c, d, f in IH. intuition.
    - specialize (IH (S k) (put_in (Some {| t_job := j; t_chunk := k; t_work := w |}) s)). cbv zeta in IH.
      cbn [put_in s_state s_in s_pool s_wh s_rh s_log] in IH. rewrite nones_app in IH. cbn in IH. rewrite Nat.add_0_r in IH. exact IH.
  Qed.

  Lemma submit_frame jb pf (s : st) :
    let s' := fst (submit jb pf s) in
    s_state s' = s_state s /\ nones (s_in s') = nones (s_in s) /\ s_pool s' = s_pool s /\ s_wh s' = s_wh s /\ s_rh s' = s_rh s /\
    In (ESubmit (s_ctr s) jb pf) (s_log s').
  Proof.
    unfold submit. cbn [fst]. destruct (put_all_frame (s_ctr s) pf (works jb) 0 (register (s_ctr s) jb pf (bump s))) as (a & b & c & d & e & f).
    rewrite a, b, c, d, e. unfold register in *. destruct (new_obj jb) as [r cc]. cbn in *. repeat split; auto.
    apply f. apply in_app_iff. cbn; auto.
  Qed.

  Lemma TI_submit jb pf s : TI s -> s_state s = PRun -> TI (fst (submit jb pf s)).
  Proof.
    intros (T1 & T2 & T3) R. destruct (submit_frame jb pf s) as (a & b & c & d & e & _).
    set (s' := fst (submit jb pf s)) in *.
    assert (W : s_wh s = true /\ s_rh s = true).
    { destruct (s_wh s) eqn:W, (s_rh s) eqn:H; auto; destruct T3 as [Q|[Q _]]; auto; congruence. }
    unfold TI, live. rewrite a, b, c, d, e. destruct W as [W1 W2]. rewrite W1, W2.
    split; [intros _; auto|split; [discriminate|intros [|]; discriminate]].
  Qed.

  Lemma running_true (s : st) : running s = true -> s_state s = PRun.
  Proof. unfold running. now destruct (s_state s). Qed.

  Variable procs : nat.

  Lemma TI_step s l : TI s -> TI (fst (step procs s l)).
  Proof.
    intro T. pose proof T as (T1 & T2 & T3).
    destruct l as [f x pf|f xs c plen pf|b f xs c pf|j|w|w|w| | | | |]; cbn [step].
    - destruct (running s) eqn:R; [|exact T]. apply TI_submit; auto. now apply running_true.
    - destruct (running s) eqn:R; [|exact T]. destruct (map_chunksize c (length xs) plen); [|exact T].
      destruct (_ <? 0)%Z; [exact T|]. apply TI_submit; auto. now apply running_true.
    - destruct (running s) eqn:R; [|exact T]. destruct (c <? 1)%Z; [exact T|]. apply TI_submit; auto. now apply running_true.
    - destruct (dget j (s_objs s)); [|exact T]. destruct (obj_next r) as [r' []]; exact T.
    - destruct (nth_error (s_pool s) w) as [[|t|]|] eqn:W; try exact T.
      destruct (s_in s) as [|[t|] q] eqn:Q; try exact T; cbn [fst].
      + unfold TI, live in *. cbn [set_in set_pool s_wh s_in s_pool s_rh s_state s_cache]. cbn in T1, T2.
        pose proof (@live_upd (s_pool s) w (WBusy t) _ W) as L. cbn in L. fold (nones q) in T1, T2. repeat split; auto. intro. specialize (T2 H). lia.
      + unfold TI, live in *. cbn [set_in set_pool s_wh s_in s_pool s_rh s_state s_cache]. cbn in T1, T2. fold (nones q) in T1, T2.
        pose proof (@live_upd (s_pool s) w WDead _ W) as L. cbn in L. repeat split; auto; intro H; [specialize (T1 H)|specialize (T2 H)]; lia.
    - destruct (nth_error (s_pool s) w) as [[|t|]|] eqn:W; try exact T. cbn [fst].
      unfold TI, live in *. cbn [set_out set_pool s_wh s_in s_pool s_rh s_state s_cache].
      pose proof (@live_upd (s_pool s) w WIdle _ W) as L. cbn in L. repeat split; auto. intro. specialize (T2 H). lia.
    - destruct (nth_error (s_pool s) w) as [[|t|]|] eqn:W; try exact T; cbn [fst];
      unfold TI, live in *; cbn [add_log set_pool s_wh s_in s_pool s_rh s_state s_cache];
      pose proof (@live_upd (s_pool s) w WDead _ W) as L; cbn in L; repeat split; auto; intro H; specialize (T2 H); lia.
    - destruct (s_rh s) eqn:R; [|exact T]. destruct (keep_going s) eqn:K.
      + destruct (s_out s) as [|[[j k] o] q]; [exact T|]. cbn [fst].
        destruct (report_frame j k o (set_out q s)) as (a & b & c & d & e & _ & _ & g & _).
        unfold TI, live in *. rewrite a, b, c, d, e. cbn [set_out s_wh s_in s_pool s_rh s_state]. repeat split; auto.
        intro H. destruct T3 as [Q|[Q Q']]; [rewrite R in H; exact H|auto|].
        right. split; auto. destruct (s_cache (report j k o (set_out q s))) as [|i z] eqn:Z; auto.
        exfalso. assert (G : In i (s_cache s)) by (apply g; cbn; auto). rewrite Q' in G. exact G.
      + unfold TI, live in *. cbn [fst set_threads s_wh s_in s_pool s_rh s_state s_cache]. repeat split; auto.
        intros _. unfold keep_going in K. destruct (s_state s); [discriminate| |auto]. right. destruct (s_cache s); [auto|discriminate].
    - destruct (s_wh s) eqn:W; [|exact T]. destruct (keep_going s) eqn:K; cbn [fst].
      + unfold TI, live in *. cbn [set_pool s_wh s_in s_pool s_rh s_state s_cache]. rewrite W. repeat split; auto. discriminate.
      + unfold TI, live in *. cbn [set_threads set_in s_wh s_in s_pool s_rh s_state s_cache]. repeat split; [discriminate| |].
        * intros _. rewrite nones_app, nones_repeat. pose proof (filter_le (@alive A V E) (s_pool s)). lia.
        * intros _. unfold keep_going in K. destruct (s_state s); [discriminate| |auto]. right. destruct (s_cache s); [auto|discriminate].
    - destruct (running s) eqn:R; [|exact T]. apply running_true in R. unfold TI, live in *. cbn [fst set_state s_wh s_in s_pool s_rh s_state s_cache].
      repeat split; auto. intro H. apply T3 in H as [H|[H _]]; congruence.
    - unfold TI, live in *. cbn [fst set_state s_wh s_in s_pool s_rh s_state s_cache]. repeat split; auto.
    - destruct (s_state s) eqn:Q; try exact T. destruct (s_wh s || s_rh s); [exact T|]. cbn [fst]. rewrite fold_add_log.
      unfold TI, live in *. cbn [with_log s_wh s_in s_pool s_rh s_state s_cache]. repeat split; auto.
      intros _. replace (length (filter (@alive A V E) (map (fun _ => WDead) (s_pool s)))) with 0; [lia|].
      clear. induction (s_pool s); cbn; auto.
  Qed.

  Lemma TI_run ls : TI (run procs ls).
  Proof.
    unfold run. assert (G : forall s, TI s -> TI (fold_left (fun s l => fst (step procs s l)) ls s)).
    { induction ls as [|l ls IH]; intros s I; cbn; auto. apply IH. now apply TI_step. }
    apply G. unfold TI. cbn. repeat split; auto; [discriminate|intros [|]; discriminate].
  Qed.

  (* the pool after close, with nothing left to do *)
  Definition quiet (s : st) : Prop := s_state s = PClose /\ all_completed s /\ s_cache s = [].

  Lemma live_exists (p : list (wstate A V E)) : 0 < length (filter (@alive A V E) p) ->
    exists w x, nth_error p w = Some x /\ alive x = true.
  Proof.
    induction p as [|z p IH]; cbn; [lia|]. destruct (alive z) eqn:Az.
    - intros _. exists 0, z. auto.
    - intro H. destruct (IH H) as (w & x & ? & ?). exists (S w), x. auto.
  Qed.

  Lemma quiet_step (s : st) l : TI s -> quiet s -> l <> LTerm _ _ _ ->
    quiet (fst (step procs s l)) /\ waiting_for (fst (step procs s l)) <= waiting_for s.
  Proof.
    intros T (St & AC & Ca) NT. pose proof AC as (A1 & A2 & A3 & A4).
    assert (KG : keep_going s = false) by (unfold keep_going; now rewrite St, Ca).
    assert (RN : running s = false) by (unfold running; now rewrite St).
    assert (Q0 : quiet s) by (repeat split; auto).
    assert (NB : forall w t, nth_error (s_pool s) w = Some (WBusy t) -> False).
    { intros w t H. eapply A2, nth_error_In; eauto. }
    assert (UP : forall w x t, x <> WBusy t -> ~ In (WBusy t) (upd w x (s_pool s))).
    { intros w x t Nx H. apply In_upd in H as [H|H]; [congruence|now apply A2 in H]. }
    destruct l as [f x pf|f xs c plen pf|b f xs c pf|j|w|w|w| | | | |]; cbn [step]; rewrite ?RN, ?KG; try (split; [exact Q0|apply Nat.le_refl]); try congruence.
    - destruct (dget j (s_objs s)); [|split; auto]. destruct (obj_next r) as [r' []]; try (split; [exact Q0|apply Nat.le_refl]).
      split; [|apply Nat.le_refl]. split; [exact St|]. split; [|exact Ca]. split; [exact A1|]. split; [exact A2|]. split; [exact A3|].
      cbn. intros j' k' H. apply In_snoc in H as [H|H]; [now apply A4 in H|discriminate].
    - destruct (nth_error (s_pool s) w) as [[|t|]|] eqn:W; try (split; [exact Q0|apply Nat.le_refl]).
      destruct (s_in s) as [|[t|] q] eqn:Q; try (split; [exact Q0|apply Nat.le_refl]).
      + exfalso. eapply A1; try rewrite Q; cbn; auto.
      + cbn [fst]. split.
        * split; [exact St|]. split; [|exact Ca]. repeat split; cbn; auto.
          -- intros t H. eapply A1; try rewrite Q; cbn; eauto.
          -- intros t. apply UP. discriminate.
        * unfold waiting_for, live. cbn. pose proof (@live_upd (s_pool s) w WDead _ W) as L. cbn in L. lia.
    - destruct (nth_error (s_pool s) w) as [[|t|]|] eqn:W; try (split; [exact Q0|apply Nat.le_refl]). now apply NB in W.
    - destruct (nth_error (s_pool s) w) as [[|t|]|] eqn:W; try (split; [exact Q0|apply Nat.le_refl]); [|now apply NB in W].
      cbn [fst]. split.
      + split; [exact St|]. split; [|exact Ca]. repeat split; cbn; auto. intros t. apply UP. discriminate.
      + unfold waiting_for, live. cbn. pose proof (@live_upd (s_pool s) w WDead _ W) as L. cbn in L. lia.
    - destruct (s_rh s) eqn:R; [|split; [exact Q0|apply Nat.le_refl]]. cbn [fst]. split; [repeat split; auto|].
      unfold waiting_for, live. cbn. rewrite R. lia.
    - destruct (s_wh s) eqn:R; [|split; [exact Q0|apply Nat.le_refl]]. cbn [fst]. split.
      + split; [exact St|]. split; [|exact Ca]. repeat split; cbn; auto.
        intros t H. apply in_app_iff in H as [H|H]; [now apply A1 in H|]. apply repeat_spec in H. discriminate.
      + unfold waiting_for, live. cbn. rewrite R. lia.
    - rewrite St. split; [exact Q0|apply Nat.le_refl].
  Qed.

  Lemma quiet_progress (s : st) : TI s -> quiet s -> 0 < waiting_for s ->
    exists l, (l = LHandler _ _ _ \/ l = LResult _ _ _ \/ exists w, l = LTake _ _ _ w) /\
    waiting_for (fst (step procs s l)) < waiting_for s.
  Proof.
    intros T (St & AC & Ca) H. pose proof AC as (A1 & A2 & A3 & A4). destruct T as (T1 & T2 & T3).
    assert (KG : keep_going s = false) by (unfold keep_going; now rewrite St, Ca).
    destruct (s_wh s) eqn:W.
    { exists (LHandler _ _ _). split; auto. cbn [step]. rewrite W, KG. unfold waiting_for, live. cbn. rewrite W. lia. }
    destruct (s_rh s) eqn:R.
    { exists (LResult _ _ _). split; auto. cbn [step]. rewrite R, KG. unfold waiting_for, live. cbn. rewrite W, R. lia. }
    unfold waiting_for in H. rewrite W, R in H. cbn in H. pose proof (live_exists _ H) as (w & x & Hw & Ax).
    specialize (T2 eq_refl).
    destruct (s_in s) as [|[t|] q] eqn:Q.
    - cbn in T2. lia.
    - exfalso. eapply A1; try rewrite Q; cbn; auto.
    - exists (LTake _ _ _ w). split; [eauto|]. cbn [step]. rewrite Hw, Q.
      destruct x; try discriminate; [|exfalso; eapply A2, nth_error_In; eauto].
      unfold waiting_for, live. cbn [fst set_in set_pool s_wh s_rh s_pool]. pose proof (@live_upd (s_pool s) w WDead _ Hw) as L. cbn in L. lia.
  Qed.
End Facts.
