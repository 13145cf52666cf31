(* C75, C76: MultiP2PQueue, machin/parallel/queue.py. *)
From Verif Require Import Lib.Base Model.P2PQueue.
Local Arguments Nat.ltb : simpl never.
Local Arguments Nat.modulo : simpl never.

(* the objects of one sub queue, in order *)
Definition of_queue {X} (i : nat) (l : list (nat * X)) : list X := map snd (filter (fun p => fst p =? i) l).
Lemma of_queue_snoc {X} i j (x : X) l : of_queue i (l ++ [(j, x)]) = of_queue i l ++ (if j =? i then [x] else []).
Proof. unfold of_queue. rewrite filter_app, map_app. cbn. destruct (j =? i); reflexivity. Qed.
Local Arguments of_queue : simpl never.

Lemma nth_upd {X} i j (x d : X) l : nth j (upd i x l) d = if ((i =? j) && (i <? length l))%bool then x else nth j l d.
Proof. apply upd_nth. Qed.
Definition conserved {X} (s : @mq X) : Prop :=
  forall i, of_queue i (log_put s) = of_queue i (log_got s) ++ nth i (queues s) [].
Definition scan_ok {X} (s : @mq X) : Prop := match scan s with Some i => i < length (queues s) | None => True end.
Lemma put_conserved {X} i (x : X) s c : i < length (queues s) -> conserved s -> conserved (put i x s c).
Proof.
  intros L C j. cbn. rewrite of_queue_snoc, nth_upd, C. apply Nat.ltb_lt in L. rewrite L, andb_true_r.
  destruct (Nat.eqb_spec i j) as [->|N]; [now rewrite app_assoc|now rewrite app_nil_r].
Qed.
Lemma conserved_step {X} (s : @mq X) a : 0 < length (queues s) -> conserved s /\ scan_ok s ->
  conserved (qstep s a) /\ scan_ok (qstep s a).
Proof.
  intros L0 [C K]. destruct a; cbn.
  - destruct (Nat.ltb_spec (counter s) (length (queues s))); auto. split; [now apply put_conserved|].
    unfold scan_ok in *. cbn. rewrite upd_length. exact K.
  - destruct (Nat.ltb_spec i (length (queues s))); auto. split; [now apply put_conserved|].
    unfold scan_ok in *. cbn. rewrite upd_length. exact K.
  - destruct (scan s); auto.
  - destruct (scan s) as [i|] eqn:Es; auto. unfold scan_ok in *. rewrite Es in K. destruct (nth i (queues s) []) as [|x r] eqn:E.
    + split; [exact C|]. unfold scan_ok. cbn. destruct (Nat.ltb_spec (S i) (length (queues s))); auto.
    + split; [|exact I]. intros j. cbn. rewrite of_queue_snoc, nth_upd, C. assert (L := K). apply Nat.ltb_lt in L. rewrite L, andb_true_r.
      destruct (Nat.eqb_spec i j) as [->|N]; [rewrite E, <- app_assoc; reflexivity|now rewrite app_nil_r].
Qed.
Lemma queues_length {X} (s : @mq X) a : length (queues (qstep s a)) = length (queues s).
Proof.
  destruct a; cbn; repeat match goal with
  | |- context [if ?b then _ else _] => destruct b
  | |- context [match ?o with _ => _ end] => destruct o end; cbn; rewrite ?upd_length; auto.
Qed.
Lemma conserved_run {X} ls : forall s : @mq X, 0 < length (queues s) -> conserved s /\ scan_ok s ->
  conserved (qrun s ls) /\ scan_ok (qrun s ls) /\ length (queues (qrun s ls)) = length (queues s).
Proof.
  induction ls as [|a r IH]; intros s L C; cbn; [tauto|].
  destruct (IH (qstep s a)) as (A & B & D); [now rewrite queues_length|now apply conserved_step|].
  rewrite queues_length in D. auto.
Qed.
Lemma conserved_new {X} n : conserved (@mq_new X n) /\ scan_ok (@mq_new X n).
Proof.
  split; [|exact I]. intros i. cbn. destruct (nth_in_or_default i (repeat (@nil X) n) []) as [H|H].
  - apply repeat_spec in H. now rewrite H.
  - now rewrite H.
Qed.

(* C75: for every sub queue the objects received so far, in order, followed by those still queued, are the objects put. *)
Theorem C75_delivery : forall X n ls, 0 < n -> let s := qrun (@mq_new X n) ls in
  forall i, of_queue i (log_put s) = of_queue i (log_got s) ++ nth i (queues s) [].
Proof.
  intros X n ls L s. apply (conserved_run ls (mq_new n)); [cbn; now rewrite repeat_length|apply conserved_new].
Qed.
Print Assumptions C75_delivery.

(* and only the sub queues 0..n-1 occur; quick_put goes round them *)
Theorem C75_round_robin : forall X n (xs : list X), 0 < n ->
  log_put (qrun (mq_new n) (map QuickPut xs)) = combine (map (fun k => k mod n) (seq 0 (length xs))) xs.
Proof.
  intros X n xs L.
  assert (G : forall xs s k, length (queues s) = n -> counter s = k mod n ->
    log_put (qrun s (map (@QuickPut X) xs)) = log_put s ++ combine (map (fun k => k mod n) (seq k (length xs))) xs).
  { clear xs. induction xs as [|x r IH]; intros s k Ln Ck; cbn; [now rewrite app_nil_r|].
    assert (Lk : counter s < n) by (rewrite Ck; apply Nat.mod_upper_bound; lia).
    rewrite Ln. destruct (Nat.ltb_spec (counter s) n); [|lia]. unfold qrun in IH. rewrite (IH _ (S k)).
    - cbn. rewrite <- app_assoc, Ck. reflexivity.
    - cbn. now rewrite upd_length.
    - cbn. rewrite Ck, Nat.add_mod_idemp_l by lia. f_equal. lia. }
  rewrite (G xs (mq_new n) 0); [reflexivity| |].
  - cbn. apply repeat_length.
  - cbn. now rewrite Nat.mod_0_l by lia.
Qed.
Print Assumptions C75_round_robin.
Example C75_nonvacuous :
  let s := qrun (mq_new 3) [QuickPut 1; QuickPut 2; SubPut 1 7; QuickPut 3; QuickPut 4; GetBegin; Poll; GetBegin; Poll; GetBegin; Poll; Poll] in
  (log_put s, log_got s, queues s) =
  ([(0, 1); (1, 2); (1, 7); (2, 3); (0, 4)], [(0, 1); (0, 4); (1, 2)], [[]; [7]; [3]]).
Proof. reflexivity. Qed.

(* C76: an object in the queue of worker 1 is never returned while worker 0 keeps its queue filled, for any number of
   calls. *)
Fixpoint feed {X} (x : X) (k : nat) : list (@qlabel X) :=
  match k with O => [] | S k => [SubPut 0 x; GetBegin; Poll] ++ feed x k end.
Theorem C76_starvation_refuted : forall X n (x y : X) k, 2 <= n ->
  let s := qrun (mq_new n) (SubPut 1 y :: feed x k) in
  length (log_got s) = k /\ nth 1 (queues s) [] = [y] /\ of_queue 1 (log_got s) = [].
Proof.
  intros X n x y k L. cbn zeta.
  assert (G : forall k s, length (queues s) = n -> scan s = None -> nth 0 (queues s) [] = [] -> nth 1 (queues s) [] = [y] ->
    of_queue 1 (log_got s) = [] ->
    let s' := qrun s (feed x k) in
    length (log_got s') = length (log_got s) + k /\ nth 1 (queues s') [] = [y] /\ of_queue 1 (log_got s') = []).
  { clear k. induction k as [|k IH]; intros s Ln Sc Q0 Q1 G; cbn zeta.
    - cbn. repeat split; auto.
    - set (s1 := Build_mq (counter s) (upd 0 [] (upd 0 [x] (queues s))) None (log_put s ++ [(0, x)]) (log_got s ++ [(0, x)])).
      assert (E : qrun s (feed x (S k)) = qrun s1 (feed x k)).
      { cbn [feed app qrun fold_left]. unfold qrun. cbn [fold_left]. f_equal. cbn [qstep]. rewrite Ln.
        destruct (Nat.ltb_spec 0 n); [|lia]. unfold put. cbn [scan counter queues log_put log_got]. rewrite Sc, Q0.
        cbn [scan counter queues log_put log_got app qstep]. rewrite nth_upd, Ln. destruct (Nat.ltb_spec 0 n); [|lia]. reflexivity. }
      rewrite E. destruct (IH s1) as (A & B & C); unfold s1; cbn [queues scan log_got].
      + now rewrite !upd_length.
      + reflexivity.
      + rewrite nth_upd, upd_length, Ln. destruct (Nat.ltb_spec 0 n); [|lia]. reflexivity.
      + rewrite !nth_upd. exact Q1.
      + rewrite of_queue_snoc, G. reflexivity.
      + fold s1. split; [|auto]. rewrite A. unfold s1. cbn [log_got]. rewrite app_length. cbn. lia. }
  assert (F : forall m, nth m (queues (@mq_new X n)) [] = []).
  { intros m. cbn. destruct (nth_in_or_default m (repeat (@nil X) n) []) as [H|H]; auto. now apply repeat_spec in H. }
  set (s0 := put 1 y (mq_new n) 0).
  assert (E : qrun (mq_new n) (SubPut 1 y :: feed x k) = qrun s0 (feed x k)).
  { unfold qrun. cbn [fold_left qstep queues mq_new]. rewrite repeat_length. destruct (Nat.ltb_spec 1 n); [reflexivity|lia]. }
  rewrite E. apply (G k s0); unfold s0, put; cbn [queues scan log_got].
  - rewrite upd_length. apply repeat_length.
  - reflexivity.
  - rewrite nth_upd. apply F.
  - rewrite nth_upd. rewrite F. unfold mq_new. cbn [queues]. rewrite repeat_length. destruct (Nat.ltb_spec 1 n); [reflexivity|lia].
  - reflexivity.
Qed.
Print Assumptions C76_starvation_refuted.
(* Missing: the same while objects keep arriving. Without further puts every object is returned: as long as something
   is queued, the running quick_get returns within one round. *)
Theorem C76_no_puts_partial : forall X n ls, 0 < n -> let s := qrun (@mq_new X n) ls in
  (exists i, nth i (queues s) [] <> []) -> scan s <> None ->
  exists k, k <= n /\ length (log_got (qrun s (repeat Poll k))) = S (length (log_got s)).
Proof.
  intros X n ls L s [i I] Sc. destruct (conserved_run ls (@mq_new X n)) as (_ & K & Ln).
  { cbn. now rewrite repeat_length. } { apply conserved_new. }
  fold s in K, Ln. cbn in Ln. rewrite repeat_length in Ln. clearbody s.
  assert (Li : i < n). { rewrite <- Ln. destruct (Nat.lt_ge_cases i (length (queues s))); auto. exfalso. apply I. now apply nth_overflow. }
  assert (G : forall d s p, length (queues s) = n -> scan s = Some p -> p < n -> nth i (queues s) [] <> [] ->
    (if p <=? i then i - p else n - p + i) = d ->
    exists k, k <= S d /\ length (log_got (qrun s (repeat (@Poll X) k))) = S (length (log_got s))).
  { clear s I Sc K Ln. induction d as [|d IH]; intros s p Ln Sc Lp I D.
    - destruct (Nat.leb_spec p i); [|lia]. assert (p = i) by lia. subst p. exists 1. split; [lia|].
      cbn. rewrite Sc. destruct (nth i (queues s) []) eqn:E; [congruence|]. cbn. rewrite app_length. cbn. lia.
    - destruct (nth p (queues s) []) as [|x r] eqn:E.
      + set (q := if S p <? n then S p else 0).
        destruct (IH (Build_mq (counter s) (queues s) (Some q) (log_put s) (log_got s)) q) as (k & Hk & Ek); auto.
        * unfold q. destruct (Nat.ltb_spec (S p) n); lia.
        * unfold q. destruct (Nat.ltb_spec (S p) n).
          -- assert (p <> i) by (intros ->; congruence).
             destruct (Nat.leb_spec p i), (Nat.leb_spec (S p) i); lia.
          -- assert (p <> i) by (intros ->; congruence). destruct (Nat.leb_spec p i); cbn; lia.
        * exists (S k). split; [lia|]. cbn [repeat]. unfold qrun in *. cbn [fold_left qstep]. rewrite Sc, E, Ln. fold q. exact Ek.
      + exists 1. split; [lia|]. cbn. rewrite Sc, E. cbn. rewrite app_length. cbn. lia. }
  unfold scan_ok in K. destruct (scan s) as [p|] eqn:Es; [|congruence]. rewrite Ln in K.
  destruct (G _ s p Ln Es K I eq_refl) as (k & Hk & Ek). exists k. split; auto.
  destruct (Nat.leb_spec p i); lia.
Qed.
Print Assumptions C76_no_puts_partial.
Example C76_nonvacuous :
  let s := qrun (mq_new 3) (SubPut 1 9 :: feed 5 4) in
  (log_got s, queues s) = ([(0, 5); (0, 5); (0, 5); (0, 5)], [[]; [9]; []]) /\
  log_got (qrun s [GetBegin; Poll; Poll]) = log_got s ++ [(1, 9)].
Proof. split; reflexivity. Qed.
