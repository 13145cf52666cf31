(* C186-C188: all_clear and all_size of distributed buffers while the members go on working. *)
From Verif Require Import Lib.Base Model.Buffer Model.DistConc.
Set Implicit Arguments.

Lemma collect_ok ans : forall k i count v, collect ans i k count = Some (Ok v) ->
  exists xs, length xs = k /\ (forall j, j < k -> ans (i + j) = Some (Ok (nth j xs 0))) /\ v = count + list_sum xs.
Proof.
  induction k as [|k IH]; cbn; intros i count v E.
  - injection E as <-. exists []. split; [reflexivity|]. split; [intros j J; lia|]. cbn. lia.
  - destruct (ans i) as [[x|e]|] eqn:A; try discriminate.
    destruct (IH _ _ _ E) as (xs & L & N & ->). exists (x :: xs). split; [cbn; congruence|]. split.
    + intros [|j] J; [rewrite Nat.add_0_r; exact A|]. rewrite Nat.add_succ_r. apply N. lia.
    + change (list_sum (x :: xs)) with (x + list_sum xs). lia.
Qed.
(* storing an episode only adds its transitions *)
Lemma st_loop_In {T} (ep : list T) : forall s x, In x (st_data (fst (st_store_loop s ep))) -> In x (st_data s) \/ In x ep.
Proof.
  induction ep as [|t ep IH]; cbn; intros s x I; [left; exact I|].
  assert (Q : forall y, In y (st_data (fst (st_store1 s t))) -> In y (st_data s) \/ y = t).
  { intros y J. unfold st_store1 in J.
    destruct (Nat.eqb (length (st_data s)) (st_cap s)); [destruct (Nat.ltb (st_idx s) (length (st_data s)))|
      destruct (Nat.ltb (length (st_data s)) (st_cap s))]; cbn in J; auto.
    - apply In_upd in J. tauto.
    - apply in_app_or in J. cbn in J. intuition. }
  destruct (st_store1 s t) as [s1 [p|e]]; cbn in *; [|destruct (Q x I); auto].
  assert (I' : In x (st_data (fst (st_store_loop s1 ep)))) by (destruct (st_store_loop s1 ep) as [s2 [ps|e]]; exact I).
  destruct (IH s1 x I') as [J|J]; [destruct (Q x J); auto|auto].
Qed.
Lemma store_In {T} (ok : T -> bool) b ep x : In x (st_data (b_st (fst (b_store_episode ok b ep)))) ->
  In x (st_data (b_st b)) \/ In x ep.
Proof.
  unfold b_store_episode. destruct ep as [|t ep]; [left; assumption|].
  destruct (negb (forallb ok (t :: ep))); [left; assumption|]. unfold st_store_episode.
  pose proof (@st_loop_In T (t :: ep) (b_st b) x) as Q. destruct (st_store_loop (b_st b) (t :: ep)) as [s1 [ps|e]]; cbn [fst] in Q.
  - destruct (has_dup ps); [exact Q|]. destruct (claim _ _ _ _) as [[ten1 eth1]|e]; exact Q.
  - exact Q.
Qed.

Section Conc.
  Context {T : Type}.
  Variable ok : T -> bool.
  Variables n cap services : nat.
  Notation step := (dstep ok n services).
  Notation run := (drun ok n services).
  Notation start := (@dinit T cap).
  Definition held (s : dst T) (m : nat) : list T := st_data (b_st (m_buf (d_mem s m))).

  Lemma put_same {A} (f : nat -> A) i x : put f i x i = x.
  Proof. unfold put. rewrite Nat.eqb_refl. reflexivity. Qed.
  Lemma put_other {A} (f : nat -> A) i j x : j <> i -> put f i x j = f j.
  Proof. unfold put. intros E. apply Nat.eqb_neq in E. rewrite E. reflexivity. Qed.

  (* one step, seen from call c *)
  Lemma call_step s l c k : nth_error (d_calls s) c = Some k ->
    exists k', nth_error (d_calls (step s l)) c = Some k' /\ c_kind k' = c_kind k /\
    (forall m r, c_ans k m = Some r -> c_ans k' m = Some r) /\
    (forall m, c_ans k m = None -> c_ans k' m = None \/
       (l = DServe c m /\ c_ans k' m = Some (snd (serve services (c_kind k) (d_mem s m))) /\
        d_mem (step s l) m = fst (serve services (c_kind k) (d_mem s m)))).
  Proof.
    intros E.
    assert (Same : forall s' : dst T, d_calls s' = d_calls s -> exists k', nth_error (d_calls s') c = Some k' /\ c_kind k' = c_kind k /\
      (forall m r, c_ans k m = Some r -> c_ans k' m = Some r) /\
      (forall m, c_ans k m = None -> c_ans k' m = None \/
         (l = DServe c m /\ c_ans k' m = Some (snd (serve services (c_kind k) (d_mem s m))) /\
          d_mem s' m = fst (serve services (c_kind k) (d_mem s m))))).
    { intros s' ->. exists k. auto. }
    assert (Lt : c < length (d_calls s)) by (apply nth_error_Some; congruence).
    destruct l as [m|m ep|m|p kd|c'|c' m]; cbn [dstep].
    - destruct (ready services (d_mem s m)); apply Same; reflexivity.
    - destruct (ready services (d_mem s m)); apply Same; reflexivity.
    - destruct (ready services (d_mem s m)); apply Same; reflexivity.
    - destruct (ready services (d_mem s p)); [|apply Same; reflexivity].
      exists k. cbn. rewrite nth_error_app1 by exact Lt. auto.
    - destruct (nth_error (d_calls s) c') as [k1|] eqn:E1; [|apply Same; reflexivity].
      destruct (negb (c_lost k1) && (c_sent k1 <? n)); [|apply Same; reflexivity].
      destruct (Nat.eq_dec c' c) as [->|N].
      + assert (k1 = k) by congruence. subst k1.
        destruct (found (c_kind k) (d_mem s (c_sent k))); eexists; cbn [set_call d_calls]; rewrite upd_same by exact Lt;
          (split; [reflexivity|]); cbn; auto.
      + exists k. destruct (found (c_kind k1) (d_mem s (c_sent k1))); cbn; rewrite upd_other by exact N; auto.
    - destruct (nth_error (d_calls s) c') as [k1|] eqn:E1; [|apply Same; reflexivity].
      destruct (c_ans k1 m) eqn:A1; [apply Same; reflexivity|].
      destruct (m <? c_sent k1); [|apply Same; reflexivity].
      destruct (serve services (c_kind k1) (d_mem s m)) as [mb r] eqn:S1.
      destruct (Nat.eq_dec c' c) as [->|N].
      + assert (k1 = k) by congruence. subst k1. eexists. cbn [set_call set_mem d_calls]. rewrite upd_same by exact Lt.
        split; [reflexivity|]. cbn. split; [reflexivity|]. split.
        * intros m' r' A. rewrite put_other by congruence. exact A.
        * intros m' A. destruct (Nat.eq_dec m' m) as [->|M].
          -- right. rewrite !put_same, S1. auto.
          -- left. rewrite put_other by exact M. exact A.
      + exists k. cbn. rewrite upd_other by exact N. auto.
  Qed.

  (* an answer was given by exactly one service step *)
  Lemma answered ls : forall s c k, nth_error (d_calls s) c = Some k ->
    exists k', nth_error (d_calls (run s ls)) c = Some k' /\ c_kind k' = c_kind k /\
    (forall m r, c_ans k m = Some r -> c_ans k' m = Some r) /\
    (forall m r, c_ans k m = None -> c_ans k' m = Some r ->
       exists a b, ls = a ++ DServe c m :: b /\
         r = snd (serve services (c_kind k) (d_mem (run s a) m)) /\
         d_mem (run s (a ++ [DServe c m])) m = fst (serve services (c_kind k) (d_mem (run s a) m))).
  Proof.
    induction ls as [|l ls IH]; intros s c k E.
    - exists k. split; [exact E|]. split; [reflexivity|]. split; [auto|]. intros m r A B. congruence.
    - destruct (call_step s l c E) as (k1 & E1 & K1 & P1 & N1).
      destruct (IH _ _ _ E1) as (k2 & E2 & K2 & P2 & N2). cbn [drun fold_left].
      exists k2. split; [exact E2|]. split; [congruence|]. split; [intros m r A; apply P2, P1, A|].
      intros m r A B. destruct (N1 m A) as [A1|(-> & A1 & M1)].
      + destruct (N2 m r A1 B) as (a & b & -> & R & M). exists (l :: a), b. split; [reflexivity|].
        rewrite <- K1. split; [exact R|exact M].
      + exists [], ls. split; [reflexivity|]. cbn [drun fold_left app].
        pose proof (P2 _ _ A1) as Q. split; [congruence|]. exact M1.
  Qed.

  Lemma run_app s a b : run s (a ++ b) = run (run s a) b.
  Proof. apply fold_left_app. Qed.

  (* transitions come from stores only *)
  Lemma held_from ls : forall s m x, In x (held (run s ls) m) ->
    In x (held s m) \/ exists ep, In (DStore m ep) ls /\ In x ep.
  Proof.
    induction ls as [|l ls IH]; intros s m x I; [left; exact I|]. cbn [drun fold_left] in I.
    destruct (IH _ _ _ I) as [J|(ep & J & X)]; [|right; exists ep; split; [right|]; assumption].
    assert (Put : forall mb m', In x (held (set_mem s m' mb) m) -> In x (held s m) \/ (m' = m /\ In x (st_data (b_st (m_buf mb))))).
    { intros mb m'. unfold held, set_mem. cbn. destruct (Nat.eq_dec m m') as [->|N]; [rewrite put_same|rewrite put_other by exact N]; auto. }
    destruct l as [m'|m' ep|m'|p kd|c'|c' m']; cbn [dstep] in J.
    - destruct (ready services (d_mem s m')); [auto|]. destruct (Put _ _ J) as [|[-> K]]; [auto|left; exact K].
    - destruct (ready services (d_mem s m')); [|auto]. destruct (Put _ _ J) as [|[-> K]]; [auto|].
      destruct (store_In _ _ _ _ K) as [K'|K']; [left; exact K'|right; exists ep; split; [left; reflexivity|exact K']].
    - destruct (ready services (d_mem s m')); [|auto]. destruct (Put _ _ J) as [|[-> K]]; [auto|destruct K].
    - destruct (ready services (d_mem s p)); auto.
    - destruct (nth_error (d_calls s) c') as [k|]; [|auto]. destruct (negb (c_lost k) && (c_sent k <? n)); [|auto].
      destruct (found (c_kind k) (d_mem s (c_sent k))); auto.
    - destruct (nth_error (d_calls s) c') as [k|]; [|auto]. destruct (c_ans k m'); [auto|].
      destruct (m' <? c_sent k); [|auto]. unfold serve in J.
      destruct (ready services (d_mem s m')), (c_kind k); destruct (Put _ _ J) as [|[-> K]]; auto; try (left; exact K); destruct K.
  Qed.

  (* the call made now gets the next number *)
  Lemma new_call (s : dst T) p k : ready services (d_mem s p) = true ->
    nth_error (d_calls (step s (DCall p k))) (length (d_calls s)) = Some (MkCall k 0 false (fun _ => None)) /\
    forall m, d_mem (step s (DCall p k)) m = d_mem s m.
  Proof.
    intros R. cbn [dstep]. rewrite R. cbn. rewrite nth_error_app2, Nat.sub_diag by lia. split; reflexivity.
  Qed.
  Lemma outcome_ok (s : dst T) c k v : nth_error (d_calls s) c = Some k -> outcome n s c = Some (Ok v) ->
    exists xs, length xs = n /\ (forall j, j < n -> c_ans k j = Some (Ok (nth j xs 0))) /\ v = list_sum xs.
  Proof.
    intros E. unfold outcome. rewrite E. destruct (c_lost k); [discriminate|]. destruct (c_sent k =? n); [|discriminate].
    intros O. destruct (collect_ok _ _ _ _ O) as (xs & L & N & V). exists xs. auto.
  Qed.

  (* C186: member p calls all_clear after ls1; whatever happens meanwhile and afterwards (ls2), once the call has
     returned every transition held anywhere was stored after the call was made *)
  Theorem C186_all_clear ls1 p ls2 v : let s1 := run start ls1 in let s2 := run start (ls1 ++ DCall p KClear :: ls2) in
    ready services (d_mem s1 p) = true -> outcome n s2 (length (d_calls s1)) = Some (Ok v) ->
    forall m x, m < n -> In x (held s2 m) -> exists ep, In (DStore m ep) ls2 /\ In x ep.
  Proof.
    cbn zeta. intros R O m x M I. rewrite run_app in *. cbn [drun fold_left] in O, I.
    set (s1 := run start ls1) in *. destruct (@new_call s1 p KClear R) as [E _].
    destruct (@answered ls2 _ _ _ E) as (k & E2 & K & _ & A).
    destruct (@outcome_ok _ _ _ _ E2 O) as (xs & _ & N & _).
    destruct (A m _ eq_refl (N m M)) as (a & b & -> & Q & Z). cbn [c_kind] in *.
    change (fold_left step ?l ?s) with (run s l) in I.
    replace (a ++ DServe (length (d_calls s1)) m :: b) with ((a ++ [DServe (length (d_calls s1)) m]) ++ b) in I
      by (rewrite <- app_assoc; reflexivity).
    rewrite run_app in I. destruct (held_from _ _ _ _ I) as [J|(ep & J & X)].
    - unfold held in J. rewrite Z in J. unfold serve in J, Q.
      destruct (ready services (d_mem (run (step s1 (DCall p KClear)) a) m)); [|discriminate]. cbn in J. destruct J.
    - exists ep. split; [|exact X]. apply in_or_app. right. right. exact J.
  Qed.

  (* and nobody's buffer is emptied but by a clear of its owner or of a call of all_clear *)
  Theorem C186_nothing_else s l m : d_mem (step s l) m <> d_mem s m ->
    l = DNew m \/ (exists ep, l = DStore m ep) \/ l = DLocal m \/
    (exists c k, l = DServe c m /\ nth_error (d_calls s) c = Some k /\ c_kind k = KClear).
  Proof.
    assert (Put : forall mb m', d_mem (set_mem s m' mb) m <> d_mem s m -> m' = m).
    { intros mb m'. unfold set_mem. cbn. destruct (Nat.eq_dec m m') as [->|N]; [reflexivity|rewrite put_other by exact N; congruence]. }
    intros D. destruct l as [m'|m' ep|m'|p kd|c'|c' m']; cbn [dstep] in D.
    - left. destruct (ready services (d_mem s m')); [congruence|]. rewrite (Put _ _ D). reflexivity.
    - right. left. destruct (ready services (d_mem s m')); [|congruence]. rewrite (Put _ _ D). eauto.
    - right. right. left. destruct (ready services (d_mem s m')); [|congruence]. rewrite (Put _ _ D). reflexivity.
    - destruct (ready services (d_mem s p)); cbn in D; congruence.
    - destruct (nth_error (d_calls s) c') as [k|]; [|congruence]. destruct (negb (c_lost k) && (c_sent k <? n)); [|congruence].
      destruct (found (c_kind k) (d_mem s (c_sent k))); cbn in D; congruence.
    - destruct (nth_error (d_calls s) c') as [k|] eqn:E; [|congruence]. destruct (c_ans k m'); [congruence|].
      destruct (m' <? c_sent k); [|congruence].
      destruct (serve services (c_kind k) (d_mem s m')) as [mb r] eqn:V.
      pose proof (Put mb m' D) as ->. right. right. right. exists c', k. split; [reflexivity|]. split; [exact E|].
      unfold serve in V. cbn in D. rewrite put_same in D.
      destruct (ready services (d_mem s m)), (c_kind k); try reflexivity; injection V as <- <-; congruence.
  Qed.

  (* C187.  Full claim: all_size is the number of transitions of all buffers at some moment of the call.  What holds:
     it is a sum of sizes the buffers had at moments of the call, each at its own. *)
  Theorem C187_partial ls1 p ls2 v : let s1 := run start ls1 in let c := length (d_calls s1) in
    let s2 := run start (ls1 ++ DCall p KSize :: ls2) in
    ready services (d_mem s1 p) = true -> outcome n s2 c = Some (Ok v) ->
    exists sizes, length sizes = n /\ v = list_sum sizes /\
    forall m, m < n -> exists a b, ls2 = a ++ DServe c m :: b /\
      nth_error sizes m = Some (length (held (run start (ls1 ++ DCall p KSize :: a)) m)).
  Proof.
    cbn zeta. intros R O. rewrite run_app in O. cbn [drun fold_left] in O.
    set (s1 := run start ls1) in *. destruct (@new_call s1 p KSize R) as [E _].
    destruct (@answered ls2 _ _ _ E) as (k & E2 & K & _ & A).
    destruct (@outcome_ok _ _ _ _ E2 O) as (xs & L & N & V). exists xs. split; [exact L|]. split; [exact V|].
    intros m M. destruct (A m _ eq_refl (N m M)) as (a & b & -> & Q & _). cbn [c_kind] in *. exists a, b.
    split; [reflexivity|]. rewrite run_app. cbn [drun fold_left]. fold s1.
    change (fold_left step ?l ?s) with (run s l).
    rewrite (nth_error_nth' xs 0) by lia. unfold serve in Q.
    destruct (ready services (d_mem (run (step s1 (DCall p KSize)) a) m)); [|discriminate].
    cbn in Q. injection Q as ->. reflexivity.
  Qed.
  (* when nothing is stored or cleared meanwhile, it is the number of transitions *)
  Theorem C187_quiet ls1 p ls2 v : let s1 := run start ls1 in let c := length (d_calls s1) in
    let s2 := run start (ls1 ++ DCall p KSize :: ls2) in
    ready services (d_mem s1 p) = true -> outcome n s2 c = Some (Ok v) ->
    (forall a b m, ls2 = a ++ b -> m < n -> held (run start (ls1 ++ DCall p KSize :: a)) m = held s1 m) ->
    v = list_sum (map (fun m => length (held s1 m)) (seq 0 n)).
  Proof.
    cbn zeta. intros R O Q. destruct (C187_partial _ _ _ R O) as (xs & L & -> & A). f_equal.
    apply nth_ext with (d := 0) (d' := length (held (run start ls1) 0)); [rewrite map_length, seq_length; exact L|].
    intros m M. rewrite L in M. destruct (A m M) as (a & b & E & N). rewrite (Q a _ m E M) in N.
    rewrite (nth_error_nth _ _ _ N). rewrite (map_nth (fun m => length (held (run start ls1) m))), seq_nth by exact M. reflexivity.
  Qed.

  (* ---------------------------------------------------------------- *)
  (* C188 *)
  Lemma ready_step s l m : ready services (d_mem s m) = true -> ready services (d_mem (step s l) m) = true.
  Proof.
    intros R. unfold ready in *. rewrite Nat.ltb_lt in *.
    assert (Put : forall mb m', m_stage (d_mem s m') <= m_stage mb -> services < m_stage (d_mem (set_mem s m' mb) m)).
    { intros mb m' L. unfold set_mem. cbn. destruct (Nat.eq_dec m m') as [->|N]; [rewrite put_same|rewrite put_other by exact N]; lia. }
    destruct l as [m'|m' ep|m'|p kd|c'|c' m']; cbn [dstep].
    - destruct (ready services (d_mem s m')); [exact R|]. apply Put. cbn. lia.
    - destruct (ready services (d_mem s m')); [|exact R]. apply Put. cbn. lia.
    - destruct (ready services (d_mem s m')); [|exact R]. apply Put. cbn. lia.
    - destruct (ready services (d_mem s p)); exact R.
    - destruct (nth_error (d_calls s) c') as [k|]; [|exact R]. destruct (negb (c_lost k) && (c_sent k <? n)); [|exact R].
      destruct (found (c_kind k) (d_mem s (c_sent k))); exact R.
    - destruct (nth_error (d_calls s) c') as [k|]; [|exact R]. destruct (c_ans k m'); [exact R|].
      destruct (m' <? c_sent k); [|exact R]. unfold serve.
      destruct (ready services (d_mem s m')), (c_kind k); apply Put; cbn; lia.
  Qed.
  Lemma ready_run ls : forall s m, ready services (d_mem s m) = true -> ready services (d_mem (run s ls) m) = true.
  Proof. induction ls as [|l ls IH]; intros s m R; [exact R|]. cbn [drun fold_left]. apply IH, ready_step, R. Qed.

  Definition healthy (s : dst T) (c : nat) (kd : kind) : Prop :=
    (forall m, m < n -> ready services (d_mem s m) = true) /\
    exists k, nth_error (d_calls s) c = Some k /\ c_kind k = kd /\ c_lost k = false /\ c_sent k <= n /\
      (forall m r, c_ans k m = Some r -> exists x, r = Ok x).
  Lemma healthy_step s l c kd : 1 <= services -> healthy s c kd -> healthy (step s l) c kd.
  Proof.
    intros P (R & k & E & K & L & S1 & A). split; [intros m M; apply ready_step, R, M|].
    assert (Lt : c < length (d_calls s)) by (apply nth_error_Some; congruence).
    assert (Same : forall s' : dst T, d_calls s' = d_calls s -> exists k', nth_error (d_calls s') c = Some k' /\ c_kind k' = kd /\
      c_lost k' = false /\ c_sent k' <= n /\ (forall m r, c_ans k' m = Some r -> exists x, r = Ok x))
      by (intros s' ->; exists k; auto).
    destruct l as [m'|m' ep|m'|p kd'|c'|c' m']; cbn [dstep].
    - destruct (ready services (d_mem s m')); apply Same; reflexivity.
    - destruct (ready services (d_mem s m')); apply Same; reflexivity.
    - destruct (ready services (d_mem s m')); apply Same; reflexivity.
    - destruct (ready services (d_mem s p)); [|apply Same; reflexivity].
      exists k. cbn. rewrite nth_error_app1 by exact Lt. auto.
    - destruct (nth_error (d_calls s) c') as [k1|] eqn:E1; [|apply Same; reflexivity].
      destruct (negb (c_lost k1) && (c_sent k1 <? n)) eqn:B; [|apply Same; reflexivity].
      destruct (Nat.eq_dec c' c) as [->|N].
      + assert (k1 = k) by congruence. subst k1. apply andb_prop in B. destruct B as [_ B]. apply Nat.ltb_lt in B.
        assert (F : found (c_kind k) (d_mem s (c_sent k)) = true).
        { pose proof (R _ B) as Q. unfold ready in Q. apply Nat.ltb_lt in Q. unfold found. destruct (c_kind k); apply Nat.ltb_lt; lia. }
        rewrite F. eexists. cbn [set_call d_calls]. rewrite upd_same by exact Lt. split; [reflexivity|]. cbn. repeat split; auto; lia.
      + exists k. destruct (found (c_kind k1) (d_mem s (c_sent k1))); cbn; rewrite upd_other by exact N; auto.
    - destruct (nth_error (d_calls s) c') as [k1|] eqn:E1; [|apply Same; reflexivity].
      destruct (c_ans k1 m') eqn:A1; [apply Same; reflexivity|].
      destruct (m' <? c_sent k1) eqn:B; [|apply Same; reflexivity]. apply Nat.ltb_lt in B.
      destruct (serve services (c_kind k1) (d_mem s m')) as [mb r] eqn:S2.
      destruct (Nat.eq_dec c' c) as [->|N].
      + assert (k1 = k) by congruence. subst k1. eexists. cbn [set_call set_mem d_calls]. rewrite upd_same by exact Lt.
        split; [reflexivity|]. cbn. repeat split; auto. intros m r' J.
        destruct (Nat.eq_dec m m') as [->|M].
        * rewrite put_same in J. injection J as <-. unfold serve in S2. rewrite (R m' ltac:(lia)) in S2.
          destruct (c_kind k); injection S2 as <- <-; eauto.
        * rewrite put_other in J by exact M. exact (A _ _ J).
      + exists k. cbn. rewrite upd_other by exact N. auto.
  Qed.
  Lemma healthy_run ls : forall s c kd, 1 <= services -> healthy s c kd -> healthy (run s ls) c kd.
  Proof. induction ls as [|l ls IH]; intros s c kd P H; [exact H|]. cbn [drun fold_left]. apply IH, healthy_step; assumption. Qed.

  Lemma collect_healthy ans : (forall m r, ans m = Some r -> exists x, r = Ok x) ->
    forall k i count, collect ans i k count = None \/ exists v, collect ans i k count = Some (Ok v).
  Proof.
    intros A. induction k as [|k IH]; cbn; intros i count; [right; eauto|].
    destruct (ans i) as [r|] eqn:E; [|left; reflexivity]. destruct (A _ _ E) as (x & ->). apply IH.
  Qed.

  (* sending to everybody and answering everybody *)
  Definition finish (c : nat) : list (dlabel T) := repeat (DSend c) n ++ map (DServe c) (seq 0 n).

  Lemma finish_send c kd : forall d s, 1 <= services -> healthy s c kd ->
    (forall k, nth_error (d_calls s) c = Some k -> n <= c_sent k + d) ->
    forall k, nth_error (d_calls (run s (repeat (DSend c) d))) c = Some k -> c_sent k = n.
  Proof.
    induction d as [|d IH]; intros s P Hs B k E.
    - cbn in E. destruct Hs as (_ & k' & E' & _ & _ & Q & _). assert (k' = k) by congruence. subst. pose proof (B _ E). lia.
    - cbn [repeat drun fold_left] in E. change (fold_left step ?l ?s) with (run s l) in E. refine (IH (step s (DSend c)) P (healthy_step _ P Hs) _ k E).
      intros k1 E1. destruct Hs as (R & k0 & E0 & K0 & L0 & Q0 & A0). pose proof (B _ E0) as B0.
      cbn [dstep] in E1. rewrite E0, L0 in E1. cbn [negb andb] in E1.
      assert (Lt : c < length (d_calls s)) by (apply nth_error_Some; congruence).
      destruct (c_sent k0 <? n) eqn:C.
      + apply Nat.ltb_lt in C.
        assert (F : found (c_kind k0) (d_mem s (c_sent k0)) = true).
        { pose proof (R _ C) as Q. unfold ready in Q. apply Nat.ltb_lt in Q. unfold found. destruct (c_kind k0); apply Nat.ltb_lt; lia. }
        rewrite F in E1. cbn [set_call d_calls] in E1. rewrite upd_same in E1 by exact Lt. injection E1 as <-. cbn. lia.
      + apply Nat.ltb_ge in C. assert (k1 = k0) by congruence. subst. lia.
  Qed.
  Lemma finish_serve c kd : forall d i s, 1 <= services -> healthy s c kd -> i + d = n ->
    (forall k, nth_error (d_calls s) c = Some k -> c_sent k = n /\ forall m, m < i -> c_ans k m <> None) ->
    forall k, nth_error (d_calls (run s (map (DServe c) (seq i d)))) c = Some k ->
      c_sent k = n /\ forall m, m < n -> c_ans k m <> None.
  Proof.
    induction d as [|d IH]; intros i s P Hs D B k E.
    - replace n with i by lia. replace i with n in * by lia. exact (B _ E).
    - cbn [seq map drun fold_left] in E. change (fold_left step ?l ?s) with (run s l) in E.
      refine (IH (S i) (step s (DServe c i)) P (healthy_step _ P Hs) ltac:(lia) _ k E).
      intros k1 E1. destruct Hs as (R & k0 & E0 & K0 & L0 & Q0 & A0). destruct (B _ E0) as [B0 B1].
      assert (Lt : c < length (d_calls s)) by (apply nth_error_Some; congruence).
      cbn [dstep] in E1. rewrite E0 in E1. destruct (c_ans k0 i) eqn:A.
      + assert (k1 = k0) by congruence. subst. split; [exact B0|]. intros m M.
        destruct (Nat.eq_dec m i) as [->|]; [congruence|]. apply B1. lia.
      + replace (i <? c_sent k0) with true in E1 by (symmetry; apply Nat.ltb_lt; lia).
        destruct (serve services (c_kind k0) (d_mem s i)) as [mb r]. cbn [set_call set_mem d_calls] in E1.
        rewrite upd_same in E1 by exact Lt. injection E1 as <-. cbn. split; [exact B0|]. intros m M.
        destruct (Nat.eq_dec m i) as [->|N]; [rewrite put_same; congruence|rewrite put_other by exact N; apply B1; lia].
  Qed.

  (* Full claim: every call on a constructed buffer succeeds.  It does if every member had finished its constructor
     when the call was made: it never raises, and returns once everybody was asked and has answered, whatever else
     happens in between. *)
  Theorem C188_partial ls1 p kd ls2 : 1 <= services -> p < n ->
    let s1 := run start ls1 in let c := length (d_calls s1) in let s2 := run start (ls1 ++ DCall p kd :: ls2) in
    (forall m, m < n -> ready services (d_mem s1 m) = true) ->
    (outcome n s2 c = None \/ exists v, outcome n s2 c = Some (Ok v)) /\
    exists v, outcome n (run s2 (finish c)) c = Some (Ok v).
  Proof.
    intros P Pn. cbn zeta. intros R. rewrite run_app. cbn [drun fold_left]. change (fold_left step ?l ?s) with (run s l).
    set (s1 := run start ls1) in *. destruct (@new_call s1 p kd (R _ Pn)) as [E D].
    set (c := length (d_calls s1)) in *.
    assert (H0 : healthy (step s1 (DCall p kd)) c kd).
    { split; [intros m M; rewrite D; exact (R m M)|]. eexists. split; [exact E|]. cbn. repeat split; [lia|]. congruence. }
    pose proof (healthy_run ls2 P H0) as H2. set (s2 := run (step s1 (DCall p kd)) ls2) in *. split.
    - destruct H2 as (_ & k & E2 & _ & L & _ & A). unfold outcome. rewrite E2, L. destruct (c_sent k =? n); [|auto].
      apply collect_healthy, A.
    - unfold finish. rewrite run_app.
      pose proof (healthy_run (repeat (DSend c) n) P H2) as H3.
      pose proof (@finish_send c kd n s2 P H2 ltac:(intros; lia)) as Q3.
      set (s3 := run s2 (repeat (DSend c) n)) in *.
      pose proof (healthy_run (map (DServe c) (seq 0 n)) P H3) as H4.
      pose proof (@finish_serve c kd n 0 s3 P H3 eq_refl (fun k Ek => conj (Q3 k Ek) (fun m M => False_ind _ (Nat.nlt_0_r m M)))) as Q4.
      set (s4 := run s3 (map (DServe c) (seq 0 n))) in *.
      destruct H4 as (_ & k & E4 & _ & L & _ & A). destruct (Q4 _ E4) as [S4 N4]. unfold outcome. rewrite E4, L, S4, Nat.eqb_refl.
      assert (X : forall d i count, i + d <= n -> exists v, collect (c_ans k) i d count = Some (Ok v)).
      { induction d as [|d IH]; cbn; intros i count B; [eauto|]. destruct (c_ans k i) as [r|] eqn:Ei; [|exfalso; apply (N4 i); [lia|exact Ei]].
        destruct (A _ _ Ei) as (x & ->). apply IH. lia. }
      apply X. lia.
  Qed.

  Lemma send_ok s c k : nth_error (d_calls s) c = Some k -> c_lost k = false -> c_sent k < n ->
    found (c_kind k) (d_mem s (c_sent k)) = true ->
    step s (DSend c) = set_call s c (MkCall (c_kind k) (S (c_sent k)) false (c_ans k)).
  Proof. intros E L B F. cbn [dstep]. apply Nat.ltb_lt in B. rewrite E, L, B, F. reflexivity. Qed.
  Lemma serve_ok s c k m : nth_error (d_calls s) c = Some k -> c_ans k m = None -> m < c_sent k ->
    step s (DServe c m) = set_call (set_mem s m (fst (serve services (c_kind k) (d_mem s m)))) c
      (MkCall (c_kind k) (c_sent k) (c_lost k) (put (c_ans k) m (Some (snd (serve services (c_kind k) (d_mem s m)))))).
  Proof.
    intros E A B. cbn [dstep]. apply Nat.ltb_lt in B. rewrite E, A, B.
    destruct (serve services (c_kind k) (d_mem s m)); reflexivity.
  Qed.

  (* a member whose constructor is not through: the call raises, after the members before it were cleared.  Statements of
     the constructor needed for the service to be known: *)
  Definition reg (kd : kind) : nat := match kd with KSize => 0 | KClear => 1 end.
  Theorem C188_refuted ls1 p m kd : let s1 := run start ls1 in let c := length (d_calls s1) in
    p < n -> m < n -> ready services (d_mem s1 p) = true -> ready services (d_mem s1 m) = false ->
    (forall j, j < m -> ready services (d_mem s1 j) = true) -> 1 <= services ->
    let ask j := [DSend c; DServe c j] in
    let s2 := run s1 (DCall p kd :: flat_map ask (seq 0 (S m))) in
    (m_stage (d_mem s1 m) <= reg kd -> outcome n s2 c = Some (Err EKey)) /\
    (reg kd < m_stage (d_mem s1 m) -> exists k, nth_error (d_calls s2) c = Some k /\ c_ans k m = Some (Err EOther) /\
                                  forall v, outcome n (run s2 (finish c)) c <> Some (Ok v)) /\
    (forall j, j < m -> held s2 j = match kd with KClear => [] | KSize => held s1 j end) /\ d_mem s2 m = d_mem s1 m.
  Proof.
    cbn zeta. intros Pn Mn R U J P. set (s1 := run start ls1) in *. set (c := length (d_calls s1)) in *.
    destruct (@new_call s1 p kd R) as [E D]. cbn [drun fold_left]. change (fold_left step ?l ?s) with (run s l).
    set (s0 := step s1 (DCall p kd)) in *.
    (* after the members before i *)
    assert (I : forall i, i <= m -> exists k, nth_error (d_calls (run s0 (flat_map (fun j => [DSend c; DServe c j]) (seq 0 i)))) c = Some k /\
      c_kind k = kd /\ c_sent k = i /\ c_lost k = false /\ (forall j, i <= j -> c_ans k j = None) /\
      (forall j, j < i -> held (run s0 (flat_map (fun j => [DSend c; DServe c j]) (seq 0 i))) j = match kd with KClear => [] | KSize => held s1 j end) /\
      (forall j, i <= j -> d_mem (run s0 (flat_map (fun j => [DSend c; DServe c j]) (seq 0 i))) j = d_mem s1 j)).
    { induction i as [|i IH]; intros Li.
      - eexists. split; [exact E|]. cbn. repeat split; intros; try lia; auto.
      - destruct (IH ltac:(lia)) as (k & Ek & Kk & Sk & Lk & Ak & Hk & Mk). rewrite seq_S, flat_map_app. cbn [flat_map app plus].
        rewrite run_app. set (s := run s0 (flat_map (fun j => [DSend c; DServe c j]) (seq 0 i))) in *.
        assert (Lt : c < length (d_calls s)) by (apply nth_error_Some; congruence).
        pose proof (J i ltac:(lia)) as Ji. assert (Jb := Ji). unfold ready in Jb. apply Nat.ltb_lt in Jb.
        assert (Fi : found (c_kind k) (d_mem s (c_sent k)) = true).
        { rewrite Kk, Sk, (Mk i (Nat.le_refl i)). unfold found. destruct kd; apply Nat.ltb_lt; lia. }
        cbn [drun fold_left]. rewrite (@send_ok s c k Ek Lk ltac:(lia) Fi).
        erewrite serve_ok; [|cbn [set_call d_calls]; apply upd_same; exact Lt|cbn; apply Ak; lia|cbn; lia].
        cbn [set_call c_kind c_sent c_lost c_ans d_mem]. rewrite Kk, (Mk i (Nat.le_refl i)). unfold serve. rewrite Ji.
        cbn [fst snd set_mem set_call d_calls d_mem]. rewrite upd_same by (rewrite upd_length; exact Lt).
        eexists. split; [reflexivity|]. cbn. rewrite Sk. repeat split.
        + intros j Lj. rewrite put_other by lia. apply Ak. lia.
        + intros j Lj. unfold held. cbn. destruct (Nat.eq_dec j i) as [->|N]; [rewrite put_same; destruct kd; reflexivity|].
          rewrite put_other by exact N. apply Hk. lia.
        + intros j Lj. rewrite put_other by lia. apply Mk. lia. }
    destruct (I m (Nat.le_refl m)) as (k & Ek & Kk & Sk & Lk & Ak & Hk & Mk). rewrite seq_S, flat_map_app. cbn [flat_map app plus].
    rewrite run_app. set (s := run s0 (flat_map (fun j => [DSend c; DServe c j]) (seq 0 m))) in *. clear I.
    assert (Lt : c < length (d_calls s)) by (apply nth_error_Some; congruence).
    assert (Pd := Mk m (Nat.le_refl m)).
    cbn [drun fold_left]. set (s2 := step (step s (DSend c)) (DServe c m)).
    assert (B : (m <? n) = true) by (apply Nat.ltb_lt; exact Mn).
    destruct (le_lt_dec (m_stage (d_mem s1 m)) (reg kd)) as [Q|Q].
    - assert (X : s2 = set_call s c (MkCall (c_kind k) (c_sent k) true (c_ans k))).
      { unfold s2. cbn [dstep]. rewrite Ek, Lk, Sk, Kk, B. cbn [negb andb]. rewrite Pd.
        replace (found kd (d_mem s1 m)) with false by (symmetry; unfold found; destruct kd; unfold reg in Q; apply Nat.ltb_ge; lia).
        cbn [set_call d_calls]. rewrite upd_same by exact Lt. cbn [c_ans c_sent]. rewrite (Ak m (Nat.le_refl m)), Nat.ltb_irrefl.
        reflexivity. }
      rewrite X. split; [|split; [intros; lia|split; [exact Hk|exact Pd]]]. intros _. unfold outcome.
      cbn [set_call d_calls]. rewrite upd_same by exact Lt. reflexivity.
    - assert (X : s2 = set_call (set_mem (set_call s c (MkCall kd (S m) false (c_ans k))) m (d_mem s1 m)) c
                         (MkCall kd (S m) false (put (c_ans k) m (Some (Err EOther))))).
      { unfold s2.
        assert (Fi : found (c_kind k) (d_mem s (c_sent k)) = true) by (rewrite Kk, Sk, Pd; unfold found; destruct kd; unfold reg in Q; apply Nat.ltb_lt; lia).
        rewrite (@send_ok s c k Ek Lk ltac:(lia) Fi).
        erewrite serve_ok; [|cbn [set_call d_calls]; apply upd_same; exact Lt|cbn; apply Ak; lia|cbn; lia].
        cbn [set_call c_kind c_sent c_lost c_ans d_mem]. rewrite Kk, Pd, Sk. unfold serve. rewrite U. reflexivity. }
      assert (Y : nth_error (d_calls s2) c = Some (MkCall kd (S m) false (put (c_ans k) m (Some (Err EOther))))).
      { rewrite X. cbn [set_call set_mem d_calls]. rewrite upd_same by (rewrite upd_length; exact Lt). reflexivity. }
      split; [intros; lia|]. split; [|split].
      + intros _. eexists. split; [exact Y|]. cbn. rewrite put_same. split; [reflexivity|]. intros v O.
        destruct (@answered (finish c) _ _ _ Y) as (k' & E' & _ & Keep & _).
        destruct (@outcome_ok _ _ _ _ E' O) as (xs & _ & N & _).
        pose proof (Keep m (Err EOther)) as Z. cbn in Z. rewrite put_same in Z. specialize (Z eq_refl). rewrite (N m Mn) in Z. discriminate.
      + intros j Lj. rewrite X. unfold held. cbn. rewrite put_other by lia. apply Hk, Lj.
      + rewrite X. cbn. rewrite put_same. reflexivity.
  Qed.
End Conc.
Print Assumptions C186_all_clear.
Print Assumptions C186_nothing_else.
Print Assumptions C187_partial.
Print Assumptions C187_quiet.
Print Assumptions C188_partial.
Print Assumptions C188_refuted.

(* two members, three services, capacity 8 *)
Definition build {T} (m : nat) : list (dlabel T) := repeat (DNew m) 4.
Definition both : list (dlabel nat) := build 0 ++ build 1.
Definition conc (ls : list (dlabel nat)) := drun (fun _ : nat => true) 2 3 (dinit 8) ls.

(* C187: there are never more than two transitions while the call runs, and it answers 3: member 0 answers while it holds
   one, is cleared, and member 1 answers after it has stored two *)
Theorem C187_refuted : exists ls1 ls2,
  let s1 := conc ls1 in
  outcome 2 (conc (ls1 ++ DCall 0 KSize :: ls2)) (length (d_calls s1)) = Some (Ok 3) /\
  forall a b, ls2 = a ++ b ->
    length (held (conc (ls1 ++ DCall 0 KSize :: a)) 0) + length (held (conc (ls1 ++ DCall 0 KSize :: a)) 1) <= 2.
Proof.
  exists (both ++ [DStore 0 [1]]), [DSend 0; DServe 0 0; DLocal 0; DSend 0; DStore 1 [2; 3]; DServe 0 1].
  split; [reflexivity|]. intros a b E.
  destruct a as [|l1 a]; [vm_compute; lia|]. injection E as <- E.
  destruct a as [|l2 a]; [vm_compute; lia|]. injection E as <- E.
  destruct a as [|l3 a]; [vm_compute; lia|]. injection E as <- E.
  destruct a as [|l4 a]; [vm_compute; lia|]. injection E as <- E.
  destruct a as [|l5 a]; [vm_compute; lia|]. injection E as <- E.
  destruct a as [|l6 a]; [vm_compute; lia|]. injection E as <- E.
  destruct a as [|l7 a]; [vm_compute; lia|discriminate].
Qed.
Print Assumptions C187_refuted.

Example C186_nonvacuous :
  let s := conc (both ++ [DStore 0 [1; 2]; DStore 1 [3]; DCall 1 KClear; DSend 0; DSend 0; DServe 0 1; DStore 1 [4]; DServe 0 0; DStore 0 [5]]) in
  outcome 2 s 0 = Some (Ok 0) /\ held s 0 = [5] /\ held s 1 = [4].
Proof. repeat split; reflexivity. Qed.
Example C187_nonvacuous :
  let s := conc (both ++ [DStore 0 [1; 2]; DStore 1 [3]; DCall 1 KSize; DSend 0; DSend 0; DServe 0 1; DServe 0 0]) in
  outcome 2 s 0 = Some (Ok 3).
Proof. reflexivity. Qed.
(* member 1 has registered its services but has no lock yet *)
Example C188_nonvacuous :
  let s := conc (build 0 ++ [DStore 0 [1]; DNew 1; DNew 1; DNew 1; DCall 0 KClear; DSend 0; DServe 0 0; DSend 0; DServe 0 1]) in
  outcome 2 s 0 = Some (Err EOther) /\ held s 0 = [] /\
  let s' := conc (build 0 ++ [DStore 0 [1]; DNew 1; DCall 0 KClear; DSend 0; DServe 0 0; DSend 0; DServe 0 1]) in
  outcome 2 s' 0 = Some (Err EKey) /\ held s' 0 = [].
Proof. repeat split; reflexivity. Qed.
