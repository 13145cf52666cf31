(* C193, C194: terminating and closing thread pools. *)
From Coq Require Import Permutation.
From Verif Require Import Lib.Base Model.ThreadPool.
Set Implicit Arguments.

Lemma cut {A} (l : list A) w x : nth_error l w = Some x ->
  exists a b, l = a ++ x :: b /\ forall y, upd w y l = a ++ y :: b.
Proof.
  revert w. induction l as [|h t IH]; intros [|w] E; cbn in E; try discriminate.
  - injection E as ->. exists [], t. split; auto.
  - destruct (IH w E) as (a & b & -> & U). exists (h :: a), b. split; auto. intros y. cbn. now rewrite U.
Qed.

Definition tasks (q : list item) : list nat := flat_map (fun x => match x with Task t => [t] | Stop => [] end) q.
Definition busy (p : list worker) : list nat := flat_map (fun w => match w with Busy t _ => [t] | _ => [] end) p.
Definition stops (q : list item) : nat := list_sum (map (fun x => match x with Task _ => 0 | Stop => 1 end) q).
Definition alive (p : list worker) : nat := list_sum (map (fun w => match w with Gone => 0 | _ => 1 end) p).

Lemma tasks_app a b : tasks (a ++ b) = tasks a ++ tasks b.
Proof. apply flat_map_app. Qed.
Lemma busy_app a b : busy (a ++ b) = busy a ++ busy b.
Proof. apply flat_map_app. Qed.
Lemma stops_app a b : stops (a ++ b) = stops a + stops b.
Proof. unfold stops. now rewrite map_app, list_sum_app. Qed.
Lemma alive_app a b : alive (a ++ b) = alive a + alive b.
Proof. unfold alive. now rewrite map_app, list_sum_app. Qed.
Lemma tasks_stop n : tasks (repeat Stop n) = [].
Proof. induction n; auto. Qed.
Lemma stops_stop n : stops (repeat Stop n) = n.
Proof. induction n as [|n IH]; auto. cbn [repeat]. change (stops (Stop :: repeat Stop n)) with (1 + stops (repeat Stop n)). now rewrite IH. Qed.
Lemma busy_renew p : busy (map renew p) = busy p.
Proof. induction p as [|[k|t k|] p IH]; auto. cbn. f_equal. exact IH. Qed.
Lemma alive_le p : alive p <= length p.
Proof. induction p as [|w p IH]; auto. change (alive (w :: p)) with ((match w with Gone => 0 | _ => 1 end) + alive p). cbn [length]. destruct w; lia. Qed.
Lemma busy_cons w p : busy (w :: p) = (match w with Busy t _ => [t] | _ => [] end) ++ busy p.
Proof. reflexivity. Qed.
Lemma alive_cons w p : alive (w :: p) = (match w with Gone => 0 | _ => 1 end) + alive p.
Proof. reflexivity. Qed.
Lemma tasks_cons x q : tasks (x :: q) = (match x with Task t => [t] | Stop => [] end) ++ tasks q.
Proof. reflexivity. Qed.
Lemma stops_cons x q : stops (x :: q) = (match x with Task _ => 0 | Stop => 1 end) + stops q.
Proof. reflexivity. Qed.

Lemma remove_perm t l m : NoDup l -> Permutation l (t :: m) -> Permutation (remove Nat.eq_dec t l) m.
Proof.
  intros N P. assert (N2 : NoDup (t :: m)) by (eapply Permutation_NoDup; eauto). inversion N2 as [|? ? NI N3]; subst.
  apply NoDup_Permutation; auto.
  - clear - N. induction N as [|x l NI N IH]; cbn; [constructor|]. destruct (Nat.eq_dec t x); auto. constructor; auto.
    intros I. apply NI. eapply in_remove. exact I.
  - intros x. split.
    + intros I. apply in_remove in I as [I D]. apply (Permutation_in _ P) in I. destruct I as [->|I]; [congruence|exact I].
    + intros I. apply in_in_remove; [intros ->; contradiction|]. apply (Permutation_in _ (Permutation_sym P)). now right.
Qed.

(* permutations by counting, from H *)
Ltac cnt H := apply (Permutation_count_occ Nat.eq_dec); let x := fresh "x" in intros x;
  let Q := fresh "Q" in pose proof (proj1 (Permutation_count_occ Nat.eq_dec _ _) H x) as Q;
  revert Q; repeat rewrite ?tasks_app, ?busy_app, ?tasks_cons, ?busy_cons, ?count_occ_app; cbn [count_occ app tasks flat_map];
  repeat match goal with |- context [Nat.eq_dec ?a ?b] => destruct (Nat.eq_dec a b) end; intros; lia.

Section P.
  Variables (procs : nat) (maxtasks : option nat).
  Notation step := (tstep maxtasks).
  Notation run := (trun maxtasks).
  Notation start := (tp_new procs).

  Definition left_over (s : tpool) : list nat := tasks (tp_in s) ++ busy (tp_pool s) ++ tp_out s.
  Record Inv (s : tpool) : Prop := MkInv {
    i_len : length (tp_pool s) = procs;
    i_all : Permutation (left_over s ++ tp_done s) (seq 0 (tp_jobs s));
    i_cache : Permutation (tp_cache s) (left_over s);
    i_fifo : tp_began s ++ tasks (tp_in s) = seq 0 (tp_jobs s);
    i_hnd : match tp_hnd s with Out => alive (tp_pool s) <= stops (tp_in s) | _ => stops (tp_in s) = 0 end;
    i_hout : tp_hnd s = Out -> keep_on s = false;
    i_rout : tp_res s = Out -> keep_on s = false }.

  Lemma keep_same s s' : tp_state s' = tp_state s -> tp_cache s' = tp_cache s -> keep_on s' = keep_on s.
  Proof. unfold keep_on. now intros -> ->. Qed.
  Lemma inv_step s l : Inv s -> Inv (step s l).
  Proof.
    intros [L A C F H HO RO]. unfold left_over in *. destruct l as [| | |w|w|w| |].
    - cbn [tstep]. destruct (tp_state s) eqn:St; try (constructor; auto; fail).
      assert (K : keep_on s = true) by (unfold keep_on; now rewrite St).
      constructor; unfold left_over; cbn [tp_state tp_jobs tp_cache tp_in tp_out tp_pool tp_hnd tp_res tp_began tp_done]; auto.
      + rewrite seq_S. cnt A.
      + cnt C.
      + rewrite tasks_app, app_assoc, F, seq_S. reflexivity.
      + rewrite stops_app. cbn. destruct (tp_hnd s); rewrite ?Nat.add_0_r; auto.
      + intros E. rewrite (HO E) in K. discriminate.
      + intros E. rewrite (RO E) in K. discriminate.
    - cbn [tstep]. destruct (tp_state s) eqn:St; try (constructor; auto; fail).
      assert (K : keep_on s = true) by (unfold keep_on; now rewrite St).
      constructor; cbn; auto.
      + intros E. rewrite (HO E) in K. discriminate.
      + intros E. rewrite (RO E) in K. discriminate.
    - constructor; cbn; auto.
    - cbn [tstep]. destruct (nth_error (tp_pool s) w) as [[k|t k|]|] eqn:E; try (constructor; auto; fail).
      destruct (tp_in s) as [|[t|] q] eqn:Q; [constructor; unfold left_over; rewrite ?Q; auto| |].
      + destruct (cut _ _ E) as (a & b & P & U). rewrite U. rewrite P in *.
        constructor; unfold left_over; cbn [tp_state tp_jobs tp_cache tp_in tp_out tp_pool tp_hnd tp_res tp_began tp_done]; auto.
        * rewrite <- L, !app_length. reflexivity.
        * cnt A.
        * cnt C.
        * rewrite <- F, tasks_cons, <- app_assoc. reflexivity.
        * rewrite stops_cons in H. cbn [plus] in H. rewrite !alive_app, !alive_cons in *. exact H.
      + destruct (cut _ _ E) as (a & b & P & U). rewrite U. rewrite P in *.
        constructor; unfold left_over; cbn [tp_state tp_jobs tp_cache tp_in tp_out tp_pool tp_hnd tp_res tp_began tp_done]; auto.
        * rewrite <- L, !app_length. reflexivity.
        * cnt A.
        * cnt C.
        * rewrite stops_cons in H. rewrite !alive_app, !alive_cons in *. destruct (tp_hnd s); lia.
    - cbn [tstep]. destruct (nth_error (tp_pool s) w) as [[k|t k|]|] eqn:E; try (constructor; auto; fail).
      destruct (cut _ _ E) as (a & b & P & U). rewrite U. rewrite P in *. set (w' := if retires maxtasks (S k) then Gone else Idle (S k)).
      assert (Bw : busy (w' :: b) = busy b) by (rewrite busy_cons; unfold w'; destruct (retires maxtasks (S k)); reflexivity).
      constructor; unfold left_over; cbn [tp_state tp_jobs tp_cache tp_in tp_out tp_pool tp_hnd tp_res tp_began tp_done]; auto.
      + rewrite <- L, !app_length. reflexivity.
      + rewrite busy_app, Bw. cnt A.
      + rewrite busy_app, Bw. cnt C.
      + rewrite !alive_app, !alive_cons in *. unfold w'. destruct (tp_hnd s); auto. destruct (retires maxtasks (S k)); lia.
    - cbn [tstep]. destruct (nth_error (tp_pool s) w) as [[[|k]|t k|]|] eqn:E; try (constructor; auto; fail).
      destruct (cut _ _ E) as (a & b & P & U). rewrite U. rewrite P in *.
      constructor; unfold left_over, set_pool; cbn [tp_state tp_jobs tp_cache tp_in tp_out tp_pool tp_hnd tp_res tp_began tp_done]; auto.
      + rewrite <- L, !app_length. reflexivity.
      + cnt A.
      + cnt C.
      + rewrite !alive_app, !alive_cons in *. destruct (tp_hnd s); lia.
    - cbn [tstep]. destruct (tp_hnd s) eqn:Hn; [|constructor|constructor; unfold left_over; rewrite ?Hn; auto].
      + destruct (keep_on s) eqn:K; constructor; unfold left_over, set_hnd; cbn [tp_state tp_jobs tp_cache tp_in tp_out tp_pool tp_hnd tp_res tp_began tp_done]; auto; try discriminate.
        * intros E. specialize (RO E). discriminate.
        * rewrite tasks_app, tasks_stop, app_nil_r. exact A.
        * rewrite tasks_app, tasks_stop, app_nil_r. exact C.
        * rewrite tasks_app, tasks_stop, app_nil_r. exact F.
        * rewrite stops_app, stops_stop. pose proof (alive_le (tp_pool s)). lia.
      + cbn. now rewrite map_length.
      + unfold left_over. cbn. rewrite busy_renew. exact A.
      + unfold left_over. cbn. rewrite busy_renew. exact C.
      + exact F.
      + exact H.
      + discriminate.
      + exact RO.
    - cbn [tstep]. destruct (tp_res s) eqn:R; [| |constructor; unfold left_over; rewrite ?R; auto].
      + constructor; cbn; auto. destruct (keep_on s) eqn:K; [discriminate|auto].
      + destruct (tp_out s) as [|t q] eqn:O; [constructor; unfold left_over; cbn; rewrite ?O; auto; discriminate|].
        assert (ND : NoDup (tp_cache s)).
        { apply (Permutation_NoDup (Permutation_sym C)). pose proof (Permutation_NoDup (Permutation_sym A) (seq_NoDup _ _)) as ND.
          clear - ND. revert ND. generalize (tasks (tp_in s) ++ busy (tp_pool s) ++ t :: q), (tp_done s). intros l m.
          induction l as [|x l IH]; cbn; intros N; [constructor|]. inversion N; subst. constructor; auto. intros I. apply H1, in_or_app. now left. }
        constructor; unfold left_over; cbn [tp_state tp_jobs tp_cache tp_in tp_out tp_pool tp_hnd tp_res tp_began tp_done]; auto; try discriminate.
        * cnt A.
        * apply remove_perm; auto. eapply perm_trans; [exact C|]. rewrite !app_assoc. apply Permutation_sym, Permutation_middle.
        * intros E. specialize (HO E). unfold keep_on in *. cbn [tp_state tp_cache]. destruct (tp_state s); auto.
          destruct (tp_cache s) as [|x c]; [reflexivity|discriminate].
  Qed.
  Lemma inv_start : Inv start.
  Proof.
    assert (B : busy (repeat (Idle 0) procs) = []) by (induction procs; auto).
    constructor; unfold left_over, tp_new; cbn [tp_state tp_jobs tp_cache tp_in tp_out tp_pool tp_hnd tp_res tp_began tp_done]; try discriminate;
      rewrite ?B; cbn; auto. apply repeat_length.
  Qed.
  Lemma inv_run ls s : Inv s -> Inv (run s ls).
  Proof. revert s. induction ls as [|l ls IH]; intros s I; [exact I|]. cbn. apply IH, inv_step, I. Qed.
  Lemma all_gone p : forallb (fun w => match w with Gone => true | _ => false end) p = true -> p = repeat Gone (length p).
  Proof. induction p as [|[k|t k|] p IH]; cbn; try discriminate; auto. intros E. now rewrite <- IH. Qed.
  Lemma busy_gone n : busy (repeat Gone n) = [].
  Proof. induction n; auto. Qed.

  (* close() and join(): nothing is lost or done twice, tasks are begun in the order of submission *)
  Theorem C194_delivered ls : let s := run start ls in joined s = true -> tp_state s = PClose ->
    tp_began s = seq 0 (tp_jobs s) /\ Permutation (tp_done s) (seq 0 (tp_jobs s)) /\ tp_cache s = [].
  Proof.
    cbn zeta. intros J St. destruct (inv_run ls inv_start) as [L A C F H HO RO]. set (s := run start ls) in *.
    assert (K : keep_on s = false). { apply HO. unfold joined in J. destruct (tp_hnd s); auto; discriminate. }
    assert (Z : tp_cache s = []). { unfold keep_on in K. rewrite St in K. destruct (tp_cache s); [reflexivity|discriminate]. }
    rewrite Z in C. apply Permutation_nil in C. unfold left_over in *. rewrite C in A. cbn [app] in A.
    apply app_eq_nil in C as [C _]. rewrite C, app_nil_r in F. auto.
  Qed.

  (* progress of close() and terminate() *)
  Definition weight (s : tpool) : nat :=
    6 * length (tasks (tp_in s)) + stops (tp_in s)
    + list_sum (map (fun w => match w with Busy _ _ => 5 | Idle _ => 0 | Gone => match tp_hnd s with Out => 0 | _ => 1 end end) (tp_pool s))
    + match tp_res s with Out => 0 | _ => 1 + 2 * length (tp_out s) end
    + match tp_hnd s with Out => 0 | _ => 1 + procs end.
  (* steps of the pool's own threads *)
  Definition own (l : label) : Prop := match l with Take _ | Finish _ | Handler | Result => True | _ => False end.

  Lemma wsum_app (f : worker -> nat) a w b : list_sum (map f (a ++ w :: b)) = list_sum (map f a) + f w + list_sum (map f b).
  Proof. rewrite map_app, list_sum_app. cbn. fold (list_sum (map f b)). lia. Qed.
  Lemma wsum_le (f g : worker -> nat) p : (forall w, f w <= g w) -> list_sum (map f p) <= list_sum (map g p).
  Proof.
    intros H. induction p as [|w p IH]; auto. cbn [map]. change (f w + list_sum (map f p) <= g w + list_sum (map g p)). specialize (H w). lia.
  Qed.
  Lemma renew_sum p : list_sum (map (fun w => match w with Busy _ _ => 5 | Idle _ => 0 | Gone => 1 end) (map renew p))
    + (length p - alive p) = list_sum (map (fun w => match w with Busy _ _ => 5 | Idle _ => 0 | Gone => 1 end) p).
  Proof.
    induction p as [|w p IH]; auto. cbn [map]. rewrite alive_cons. pose proof (alive_le p). cbn [length].
    match goal with |- list_sum (?a :: ?x) + _ = list_sum (?b :: ?y) => change (a + list_sum x + (S (length p) - ((match w with Gone => 0 | _ => 1 end) + alive p)) = b + list_sum y) end.
    destruct w; cbn [renew]; lia.
  Qed.
  Lemma own_decreases s l : Inv s -> own l -> weight (step s l) <= weight s.
  Proof.
    intros I O. destruct l as [| | |w|w|w| |]; try contradiction; cbn [tstep].
    - destruct (nth_error (tp_pool s) w) as [[k|t k|]|] eqn:E; auto. destruct (cut _ _ E) as (a & b & P & U). destruct (tp_in s) as [|[t|] q] eqn:Q; auto; rewrite U; unfold weight; rewrite Q, P, ?tasks_cons, ?stops_cons;
        cbn [tp_in tp_pool tp_hnd tp_res tp_out]; rewrite !wsum_app; cbn [app length]; destruct (tp_hnd s); lia.
    - destruct (nth_error (tp_pool s) w) as [[k|t k|]|] eqn:E; auto. destruct (cut _ _ E) as (a & b & P & U). rewrite U. unfold weight. rewrite P.
      cbn [tp_in tp_pool tp_hnd tp_res tp_out]. rewrite !wsum_app, app_length. cbn [length].
      destruct (tp_hnd s), (tp_res s), (retires maxtasks (S k)); lia.
    - destruct (tp_hnd s) eqn:Hn; auto.
      + destruct (keep_on s); unfold weight, set_hnd; cbn [tp_in tp_pool tp_hnd tp_res tp_out]; rewrite Hn; [lia|].
        rewrite tasks_app, tasks_stop, app_nil_r, stops_app, stops_stop, (i_len I).
        pose proof (wsum_le (fun w => match w with Busy _ _ => 5 | _ => 0 end) (fun w => match w with Busy _ _ => 5 | Idle _ => 0 | Gone => 1 end) (tp_pool s) ltac:(intros []; lia)) as Q.
        assert (Q2 : list_sum (map (fun w => match w with Busy _ _ => 5 | _ => 0 end) (tp_pool s)) = list_sum (map (fun w => match w with Busy _ _ => 5 | Idle _ => 0 | Gone => 0 end) (tp_pool s))).
        { reflexivity. }
        lia.
      + unfold weight, set_hnd, set_pool; cbn [tp_in tp_pool tp_hnd tp_res tp_out]. rewrite Hn.
        pose proof (renew_sum (tp_pool s)). lia.
    - destruct (tp_res s) eqn:R; auto.
      + unfold weight, set_res; cbn [tp_in tp_pool tp_hnd tp_res tp_out]; rewrite R. destruct (keep_on s); lia.
      + destruct (tp_out s) as [|t q] eqn:Q; unfold weight, set_res; cbn [tp_in tp_pool tp_hnd tp_res tp_out]; rewrite R, ?Q; cbn [length]; lia.
  Qed.

  (* some worker is in a given state, or none is *)
  Lemma find_busy p : busy p = [] \/ exists w t k, nth_error p w = Some (Busy t k).
  Proof.
    induction p as [|[k|t k|] p [IH|(w & t' & k' & IH)]]; auto; right; [exists (S w)|exists 0|exists 0|exists (S w)]; cbn; eauto.
  Qed.
  Lemma find_idle p : busy p = [] -> p = repeat Gone (length p) \/ exists w k, nth_error p w = Some (Idle k).
  Proof.
    induction p as [|[k|t k|] p IH]; intros B; auto.
    - right. exists 0. cbn. eauto.
    - discriminate.
    - destruct (IH B) as [E|(w & k & E)]; [left; cbn; now rewrite <- E|right; exists (S w); cbn; eauto].
  Qed.
  Lemma finish_decreases s w t k : nth_error (tp_pool s) w = Some (Busy t k) -> weight (step s (Finish w)) < weight s.
  Proof.
    intros E. cbn [tstep]. rewrite E. destruct (cut _ _ E) as (a & b & P & U). rewrite U. unfold weight. rewrite P.
    cbn [tp_in tp_pool tp_hnd tp_res tp_out]. rewrite !wsum_app, app_length. cbn [length].
    destruct (tp_hnd s), (tp_res s), (retires maxtasks (S k)); lia.
  Qed.
  Lemma take_decreases s w k x q : nth_error (tp_pool s) w = Some (Idle k) -> tp_in s = x :: q ->
    tp_hnd s = Out \/ (exists t, x = Task t) -> weight (step s (Take w)) < weight s.
  Proof.
    intros E Q H. cbn [tstep]. rewrite E, Q. destruct (cut _ _ E) as (a & b & P & U). destruct x as [t|].
    - unfold weight. rewrite U, Q, P, tasks_cons, stops_cons. cbn [tp_in tp_pool tp_hnd tp_res tp_out]. rewrite !wsum_app. cbn [app length]. destruct (tp_hnd s); lia.
    - destruct H as [H|[t H]]; [|discriminate].
      unfold weight. rewrite U, Q, P, tasks_cons, stops_cons, H. cbn [tp_in tp_pool tp_hnd tp_res tp_out]. rewrite !wsum_app. cbn [app length]. lia.
  Qed.

  (* closed or terminated: the pool's threads never get farther from the end, and unless it is reached one or two of their
     steps get nearer; so they get there if every task returns *)
  Theorem C194_ends ls : 1 <= procs -> let s := run start ls in tp_state s <> PRun ->
    (forall l, own l -> tp_state (step s l) = tp_state s /\ weight (step s l) <= weight s) /\
    (joined s = true \/ exists us, Forall own us /\ length us <= 2 /\ weight (run s us) < weight s).
  Proof.
    cbn zeta. intros P0 St. pose proof (inv_run ls inv_start) as I. set (s := run start ls) in *. split.
    { intros l O. split; [|now apply own_decreases].
      destruct l; try contradiction; cbn [tstep]; repeat match goal with |- context [match ?x with _ => _ end] => destruct x end; reflexivity. }
    destruct (find_busy (tp_pool s)) as [B|(w & t & k & B)].
    2: { right. exists [Finish w]. split; [repeat constructor|split; [cbn; lia|]]. cbn. eapply finish_decreases, B. }
    (* the worker handler leaves its loop *)
    assert (HX : keep_on s = false -> tp_hnd s <> Out -> exists us, Forall own us /\ length us <= 2 /\ weight (run s us) < weight s).
    { intros K Hn.
      assert (X : forall s', Inv s' -> tp_hnd s' = Top -> keep_on s' = false -> weight (step s' Handler) < weight s').
      { intros s' I' H' K'. cbn [tstep]. rewrite H', K'. unfold weight, set_hnd; cbn [tp_in tp_pool tp_hnd tp_res tp_out]; rewrite H'.
        rewrite tasks_app, tasks_stop, app_nil_r, stops_app, stops_stop, (i_len I').
        pose proof (wsum_le (fun w => match w with Busy _ _ => 5 | Idle _ => 0 | Gone => 0 end) (fun w => match w with Busy _ _ => 5 | Idle _ => 0 | Gone => 1 end) (tp_pool s') ltac:(intros []; lia)) as Q.
        lia. }
      destruct (tp_hnd s) eqn:E; [| |congruence].
      - exists [Handler]. split; [repeat constructor|split; [cbn; lia|]]. cbn [trun fold_left]. apply X; auto.
      - exists [Handler; Handler]. split; [repeat constructor|split; [cbn; lia|]]. cbn [trun fold_left].
        pose proof (own_decreases Handler I Logic.I) as D. assert (I2 := inv_step Handler I).
        assert (H2 : tp_hnd (step s Handler) = Top) by (cbn [tstep]; rewrite E; reflexivity).
        assert (K2 : keep_on (step s Handler) = false) by (cbn [tstep]; rewrite E; exact K).
        specialize (X _ I2 H2 K2). lia. }
    (* the result handler takes a result *)
    assert (RX : tp_out s <> [] -> tp_res s <> Out -> keep_on s = true \/ tp_res s = Within -> exists us, Forall own us /\ length us <= 2 /\ weight (run s us) < weight s).
    { intros NO R0 KR.
      assert (X : forall s', tp_res s' = Within -> tp_out s' <> [] -> weight (step s' Result) < weight s').
      { intros s' R' O'. cbn [tstep]. rewrite R'. destruct (tp_out s') as [|t q] eqn:Q; [congruence|]. unfold weight.
        cbn [tp_in tp_pool tp_hnd tp_res tp_out]; rewrite R', ?Q; cbn [length]. lia. }
      destruct (tp_res s) eqn:R; [| |congruence].
      - destruct KR as [K|K]; [|congruence]. exists [Result; Result]. split; [repeat constructor|split; [cbn; lia|]]. cbn [trun fold_left].
        pose proof (own_decreases Result I Logic.I) as D.
        assert (H2 : tp_res (step s Result) = Within) by (cbn [tstep]; rewrite R, K; reflexivity).
        assert (H3 : tp_out (step s Result) <> []) by (cbn [tstep]; rewrite R, K; exact NO).
        specialize (X _ H2 H3). lia.
      - exists [Result]. split; [repeat constructor|split; [cbn; lia|]]. cbn [trun fold_left]. apply X; auto. }
    destruct (keep_on s) eqn:K.
    - (* closed, with tasks left *)
      right. assert (Hn : tp_hnd s <> Out) by (intros E; pose proof (i_hout I E); congruence).
      assert (Rn : tp_res s <> Out) by (intros E; pose proof (i_rout I E); congruence).
      destruct (tp_out s) as [|x o] eqn:O; [|apply RX; auto; discriminate].
      pose proof (i_cache I) as C. unfold left_over in C. rewrite B, O, app_nil_r in C. pose proof (i_hnd I) as H.
      assert (NS : stops (tp_in s) = 0) by (destruct (tp_hnd s); auto; congruence).
      destruct (tp_in s) as [|[t|] q] eqn:Q; [| |rewrite stops_cons in NS; discriminate].
      { cbn in C. apply Permutation_sym, Permutation_nil in C. unfold keep_on in K. rewrite C in K. destruct (tp_state s); congruence. }
      destruct (find_idle _ B) as [G|(w & k & G)].
      + assert (X : forall s', tp_pool s' = repeat Gone procs -> tp_hnd s' = Within -> weight (step s' Handler) < weight s').
        { intros s' G' H'. cbn [tstep]. rewrite H'. unfold weight, set_hnd, set_pool; cbn [tp_in tp_pool tp_hnd tp_res tp_out]. rewrite H'.
          pose proof (renew_sum (tp_pool s')) as Q'. rewrite G' in *.
          assert (Al : alive (repeat Gone procs) = 0) by (clear; induction procs; auto). rewrite Al, repeat_length in Q'. lia. }
        rewrite (i_len I) in G. destruct (tp_hnd s) eqn:E; [| |congruence].
        * exists [Handler; Handler]. split; [repeat constructor|split; [cbn; lia|]]. cbn [trun fold_left].
          pose proof (own_decreases Handler I Logic.I) as D.
          specialize (X (step s Handler)). cbn [tstep] in *. rewrite E, K in *. specialize (X G eq_refl). cbn in *. lia.
        * exists [Handler]. split; [repeat constructor|split; [cbn; lia|]]. cbn [trun fold_left]. apply X; auto.
      + exists [Take w]. split; [repeat constructor|split; [cbn; lia|]]. cbn [trun fold_left]. eapply take_decreases; eauto.
    - destruct (tp_hnd s) eqn:Hn; [right; apply HX; congruence|right; apply HX; congruence|].
      pose proof (i_hnd I) as H. rewrite Hn in H.
      destruct (find_idle _ B) as [G|(w & k & G)].
      + destruct (tp_res s) eqn:R.
        * right. exists [Result]. split; [repeat constructor|split; [cbn; lia|]]. cbn [trun fold_left tstep]. rewrite R, K. unfold weight, set_res. cbn [tp_in tp_pool tp_hnd tp_res tp_out]. rewrite R. lia.
        * right. destruct (tp_out s) as [|x o] eqn:O; [|apply RX; auto; discriminate].
          exists [Result; Result]. split; [repeat constructor|split; [cbn; lia|]]. cbn [trun fold_left tstep]. rewrite R, O. cbn [set_res tp_res tstep].
          replace (keep_on (set_res s Top)) with (keep_on s) by reflexivity. rewrite K.
          unfold weight, set_res. cbn [tp_in tp_pool tp_hnd tp_res tp_out]. rewrite R. lia.
        * left. unfold joined. rewrite Hn, R, G. clear. induction (length (tp_pool s)); auto.
      + right. exists [Take w]. split; [repeat constructor|split; [cbn; lia|]]. cbn [trun fold_left].
        destruct (tp_in s) as [|x q] eqn:Q; [|eapply take_decreases; eauto].
        exfalso. destruct (cut _ _ G) as (a & b & P & _). rewrite P, alive_app, alive_cons in H. cbn in H. lia.
  Qed.

  Lemma run_app s a b : run s (a ++ b) = run (run s a) b.
  Proof. apply fold_left_app. Qed.
  Lemma term_stays s l : tp_state s = PTerm -> tp_state (step s l) = PTerm.
  Proof.
    intros T. destruct l; cbn [tstep]; rewrite ?T; auto; repeat match goal with |- context [match ?x with _ => _ end] => destruct x end; auto.
  Qed.
  Lemma term_run ls s : tp_state s = PTerm -> tp_state (run s ls) = PTerm.
  Proof. revert s. induction ls as [|l ls IH]; intros s T; [exact T|]. cbn. apply IH, term_stays, T. Qed.
  Lemma gone_nth n w : nth_error (repeat Gone n) w = Some Gone \/ nth_error (repeat Gone n) w = None.
  Proof. revert w. induction n as [|n IH]; intros [|w]; cbn; auto. Qed.
  Lemma joined_stays s l : Inv s -> joined s = true -> joined (step s l) = true /\ tp_began (step s l) = tp_began s.
  Proof.
    intros I J. assert (J0 := J). unfold joined in J. destruct (tp_hnd s) eqn:H; try discriminate. destruct (tp_res s) eqn:R; try discriminate.
    apply all_gone in J. pose proof (i_hout I H) as K.
    destruct l as [| | |w|w|w| |]; cbn [tstep]; rewrite ?H, ?R; auto.
    - unfold keep_on in K. destruct (tp_state s); auto; discriminate.
    - destruct (tp_state s); auto.
    - rewrite J. destruct (gone_nth (length (tp_pool s)) w) as [-> | ->]; auto.
    - rewrite J. destruct (gone_nth (length (tp_pool s)) w) as [-> | ->]; auto.
    - rewrite J. destruct (gone_nth (length (tp_pool s)) w) as [-> | ->]; auto.
  Qed.

  (* Full claim: terminate() returns, and no task begins after it was called.  What holds: it returns when the tasks do
     (C194_ends, whose steps are those of the pool's threads), and nothing begins after it has returned. *)
  Theorem C193_partial ls1 ls2 : 1 <= procs -> let s := run start (ls1 ++ Terminate :: ls2) in
    tp_state s = PTerm /\
    (joined s = true \/ exists us, Forall own us /\ length us <= 2 /\ weight (run s us) < weight s) /\
    (joined s = true -> forall ls3, joined (run s ls3) = true /\ tp_began (run s ls3) = tp_began s).
  Proof.
    cbn zeta. intros P0. set (s := run start (ls1 ++ Terminate :: ls2)).
    assert (T : tp_state s = PTerm) by (unfold s; rewrite run_app; apply (term_run ls2 (step (run start ls1) Terminate)); reflexivity).
    split; [exact T|]. split; [apply (C194_ends (ls1 ++ Terminate :: ls2) P0); fold s; congruence|].
    intros J ls3. assert (I : Inv s) by apply inv_run, inv_start. clearbody s. clear T. revert s J I. induction ls3 as [|l ls3 IH]; intros s J I; [auto|].
    destruct (joined_stays l I J) as [J2 B2]. destruct (IH _ J2 (inv_step l I)) as [J3 B3]. cbn. split; [exact J3|exact (eq_trans B3 B2)].
  Qed.

  (* the results of all but at most one of the tasks that were not delivered when terminate() was called are never set *)
  Definition slack (s : tpool) : nat := match tp_res s with Within => 1 | _ => 0 end.
  Theorem C193_lost ls1 ls2 : let s1 := run start (ls1 ++ [Terminate]) in
    length (tp_done (run s1 ls2)) <= length (tp_done s1) + slack s1.
  Proof.
    cbn zeta. set (s1 := run start (ls1 ++ [Terminate])). assert (T : tp_state s1 = PTerm) by (unfold s1; rewrite run_app; reflexivity).
    clearbody s1. revert s1 T.
    assert (St : forall s l, tp_state s = PTerm -> length (tp_done (step s l)) + slack (step s l) <= length (tp_done s) + slack s).
    { intros s l T. assert (Same : forall s', tp_done s' = tp_done s -> tp_res s' = tp_res s -> length (tp_done s') + slack s' <= length (tp_done s) + slack s).
      { unfold slack. intros s' -> ->. auto. }
      destruct l as [| | |w|w|w| |]; cbn [tstep]; rewrite ?T; auto.
      - destruct (nth_error (tp_pool s) w) as [[k|t k|]|]; auto. destruct (tp_in s) as [|[t|] q]; auto.
      - destruct (nth_error (tp_pool s) w) as [[k|t k|]|]; auto.
      - destruct (nth_error (tp_pool s) w) as [[[|k]|t k|]|]; auto.
      - destruct (tp_hnd s); auto. destruct (keep_on s); auto.
      - destruct (tp_res s) eqn:R; auto; unfold slack; rewrite R.
        + unfold keep_on. rewrite T. cbn. lia.
        + destruct (tp_out s); cbn; rewrite ?app_length; cbn; lia. }
    assert (G : forall ls s, tp_state s = PTerm -> length (tp_done (run s ls)) + slack (run s ls) <= length (tp_done s) + slack s).
    { induction ls as [|l ls IH]; intros s T; [auto|]. cbn. specialize (St s l T). specialize (IH _ (term_stays s l T)). change (fold_left step ls (step s l)) with (run (step s l) ls) in *. lia. }
    intros s T. specialize (G ls2 s T). lia.
  Qed.
End P.

(* threads are not stopped: the stop signals stand behind the waiting tasks, so terminate() waits until all these are done *)
Section NoRetire.
  Variable procs : nat.
  Notation step := (tstep None).
  Notation run := (trun None).
  Notation start := (tp_new procs).
  Definition K (s : tpool) : Prop :=
    match tp_hnd s with
    | Out => exists ts k, tp_in s = map Task ts ++ repeat Stop k /\ alive (tp_pool s) = k /\ (k = procs \/ ts = [])
    | _ => alive (tp_pool s) = procs
    end.
  Lemma renew_alive p : alive (map renew p) = length p.
  Proof. induction p as [|w p IH]; auto. cbn [map length]. rewrite alive_cons, IH. destruct w; reflexivity. Qed.
  Lemma only_tasks q : stops q = 0 -> q = map Task (tasks q).
  Proof. induction q as [|[t|] q IH]; auto; rewrite stops_cons; intros E; [|discriminate]. cbn. f_equal. exact (IH E). Qed.
  Lemma k_step s l : Inv procs s -> (forall w, l <> Fail w) -> K s -> K (step s l).
  Proof.
    intros I NF. unfold K. destruct l as [| | |w|w|w| |]; cbn [tstep].
    - destruct (tp_state s) eqn:St; auto. cbn [tp_hnd tp_pool tp_in]. destruct (tp_hnd s) eqn:H; auto.
      pose proof (i_hout I H) as Q. unfold keep_on in Q. rewrite St in Q. discriminate.
    - destruct (tp_state s); auto.
    - auto.
    - destruct (nth_error (tp_pool s) w) as [[k|t k|]|] eqn:E; auto. destruct (cut _ _ E) as (a & b & P & U).
      pose proof (i_hnd I) as Hs. destruct (tp_in s) as [|[t|] q] eqn:Q.
      + rewrite Q. auto.
      + cbn [tp_hnd tp_pool tp_in]. rewrite U, P, !alive_app, !alive_cons. destruct (tp_hnd s) eqn:H; auto.
        intros (ts & n & E2 & A & D). destruct ts as [|t' ts]; [destruct n; discriminate|]. injection E2 as -> ->.
        exists ts, n. split; auto. split; auto. destruct D as [D|D]; [auto|discriminate].
      + cbn [tp_hnd tp_pool tp_in]. rewrite U, P, !alive_app, !alive_cons. destruct (tp_hnd s) eqn:H.
        * rewrite stops_cons in Hs. discriminate.
        * rewrite stops_cons in Hs. discriminate.
        * intros (ts & n & E2 & A & D). destruct ts as [|t' ts]; [|discriminate]. destruct n as [|n]; [discriminate|]. injection E2 as ->.
          exists [], n. split; auto. split; auto. lia.
    - destruct (nth_error (tp_pool s) w) as [[k|t k|]|] eqn:E; auto. destruct (cut _ _ E) as (a & b & P & U).
      cbn [tp_hnd tp_pool tp_in retires]. rewrite U, P, !alive_app, !alive_cons. auto.
    - exfalso. exact (NF w eq_refl).
    - destruct (tp_hnd s) eqn:H; [| |rewrite H; auto].
      + intros A. destruct (keep_on s); cbn [set_hnd tp_hnd tp_pool tp_in]; auto.
        pose proof (i_hnd I) as Hs. rewrite H in Hs. exists (tasks (tp_in s)), procs. rewrite <- only_tasks, (i_len I) by exact Hs. auto.
      + intros _. cbn [set_hnd set_pool tp_hnd tp_pool tp_in]. rewrite renew_alive. apply (i_len I).
    - destruct (tp_res s); auto. destruct (tp_out s); auto.
  Qed.
  Lemma k_run ls : (forall w, ~ In (Fail w) ls) -> K (run start ls).
  Proof.
    assert (G : forall ls s, Inv procs s -> K s -> (forall w, ~ In (Fail w) ls) -> K (run s ls)).
    { induction ls0 as [|l ls0 IH]; intros s I Ks NF; [exact Ks|]. cbn. apply IH; [now apply inv_step| |intros w H; apply (NF w); now right].
      apply k_step; auto. intros w ->. apply (NF w). now left. }
    intros NF. apply G; auto; [apply inv_start|]. unfold K. cbn [tp_new tp_hnd tp_pool]. clear. induction procs as [|n IH]; auto. cbn [repeat]. rewrite alive_cons, IH. reflexivity.
  Qed.
  Theorem C193_refuted ls1 ls2 : 1 <= procs -> (forall w, ~ In (Fail w) (ls1 ++ Terminate :: ls2)) ->
    let s1 := run start (ls1 ++ [Terminate]) in let s2 := run start (ls1 ++ Terminate :: ls2) in
    joined s2 = true ->
    tp_began s2 = tp_began s1 ++ tasks (tp_in s1) /\ forall t, In (Task t) (tp_in s1) -> ~ In t (tp_began s1) /\ In t (tp_began s2).
  Proof.
    cbn zeta. intros P0 NF J. set (s1 := run start (ls1 ++ [Terminate])). set (s2 := run start (ls1 ++ Terminate :: ls2)) in *.
    pose proof (inv_run None ls1 (inv_start procs)) as I0.
    assert (I1 : Inv procs s1) by apply inv_run, inv_start. assert (I2 : Inv procs s2) by apply inv_run, inv_start.
    assert (Jb : tp_jobs s2 = tp_jobs s1).
    { assert (E : s2 = run s1 ls2) by (unfold s1, s2; rewrite !run_app; reflexivity).
      assert (T : tp_state s1 = PTerm) by (unfold s1; rewrite run_app; reflexivity). rewrite E. clearbody s1. clear - T. revert s1 T.
      induction ls2 as [|l ls IH]; intros s T; [auto|]. cbn. change (fold_left step ls (step s l)) with (run (step s l) ls). rewrite IH by now apply term_stays.
      destruct l; cbn [tstep]; rewrite ?T; auto; repeat match goal with |- context [match ?x with _ => _ end] => destruct x end; auto. }
    assert (B : tp_began s2 = tp_began s1 ++ tasks (tp_in s1)).
    { rewrite (i_fifo I1), <- Jb, <- (i_fifo I2). pose proof (k_run _ NF) as Ks. fold s2 in Ks. unfold K in Ks. unfold joined in J.
      destruct (tp_hnd s2); try discriminate. destruct (tp_res s2); try discriminate. apply all_gone in J.
      destruct Ks as (ts & k & E & A & D). rewrite J in A. assert (Z : forall n, alive (repeat Gone n) = 0) by (induction n; auto). rewrite Z in A.
      destruct D as [D|D]; [lia|]. subst. rewrite E. cbn. now rewrite app_nil_r. }
    split; [exact B|]. intros t I. assert (It : In t (tasks (tp_in s1))) by (apply in_flat_map; exists (Task t); split; [exact I|now left]).
    split; [|rewrite B; apply in_or_app; now right]. intros N.
    pose proof (seq_NoDup (tp_jobs s1) 0) as ND. rewrite <- (i_fifo I1) in ND. revert ND N It. generalize (tp_began s1), (tasks (tp_in s1)). clear.
    induction l as [|x l IH]; cbn; intros m ND N It; [contradiction|]. inversion ND as [|? ? NI ND2]; subst. destruct N as [->|N]; [apply NI, in_or_app; now right|eauto].
  Qed.
End NoRetire.
Print Assumptions C194_delivered.
Print Assumptions C194_ends.
Print Assumptions C193_partial.
Print Assumptions C193_lost.
Print Assumptions C193_refuted.

(* two workers, three tasks waiting behind two running ones: terminate() ends after all five are done, no result is set *)
Example C193_nonvacuous :
  let s1 := trun None (tp_new 2) [Submit; Submit; Submit; Submit; Submit; Take 0; Take 1; Terminate] in
  let s2 := trun None s1 [Handler; Result; Finish 1; Take 1; Finish 0; Take 0; Finish 0; Take 0; Finish 0; Take 0; Finish 1; Take 1] in
  tp_began s1 = [0; 1] /\ tp_in s1 = [Task 2; Task 3; Task 4] /\ joined s2 = true /\ tp_began s2 = [0; 1; 2; 3; 4] /\
  tp_done s2 = [] /\ tp_out s2 = [1; 0; 3; 4; 2].
Proof. vm_compute. auto 10. Qed.
(* workers that retire after one task are replaced until the closed pool has delivered everything *)
Example C194_nonvacuous :
  let s := trun (Some 1) (tp_new 1) [Submit; Submit; Close; Take 0; Finish 0; Handler; Handler; Result; Result; Take 0; Finish 0;
     Result; Result; Handler; Result; Submit] in
  joined s = true /\ tp_state s = PClose /\ tp_jobs s = 2 /\ tp_done s = [0; 1] /\ tp_in s = [Stop].
Proof. vm_compute. auto 10. Qed.
