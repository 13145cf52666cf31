(* C71, C72: combined events, machin/parallel/event.py. *)
From Coq Require Import QArith.
From Verif Require Import Lib.Base Lib.Rat Model.Event Spec.EventSpec Proofs.EventProofs.
Close Scope Q_scope.
Open Scope nat_scope.

Theorem C71_is_set : forall f e, is_set f e = true <-> holds (fun l => f l = true) e.
Proof. exact is_set_holds. Qed.
Print Assumptions C71_is_set.

(* the flag of a leaf is up iff a set() of it has ended and no clear() of it came after *)
Definition ends_set (s : st) (a : label) (l : nat) : Prop :=
  (a = SetBegin l /\ dmem l (parents s) = false) \/
  exists k x, a = SetStep k /\ find (fun y => s_id y =? k) (setters s) = Some x /\ leaf x = l /\ ~ setting (step s a) k.
Theorem C71_flags : forall history l, flag (run init history) l = true <->
  exists before a after, history = before ++ a :: after /\ ends_set (run init before) a l /\ ~ In (Clear l) after.
Proof.
  intros history l. induction history as [|a h IH] using rev_ind.
  - cbn. split; [discriminate|]. intros (b & a & c & E & _). destruct b; discriminate.
  - unfold run in *. rewrite fold_left_app. cbn [fold_left]. set (s := fold_left step h init) in *.
    assert (G : (exists b x c, h ++ [a] = b ++ x :: c /\ ends_set (fold_left step b init) x l /\ ~ In (Clear l) c) <->
      ends_set s a l \/ (a <> Clear l /\ exists b x c, h = b ++ x :: c /\ ends_set (fold_left step b init) x l /\ ~ In (Clear l) c)).
    { split.
      - intros (b & x & c & E & F & N). destruct c as [|y c _] using rev_ind.
        + apply app_inj_tail in E. destruct E as [-> ->]. auto.
        + right. rewrite app_comm_cons, app_assoc in E. apply app_inj_tail in E. destruct E as [-> ->]. split.
          * intros ->. apply N. apply in_or_app. cbn. auto.
          * exists b, x, c. repeat split; auto. intros I. apply N. apply in_or_app. auto.
      - intros [F|(N & b & x & c & -> & F & M)].
        + exists h, a, []. repeat split; auto.
        + exists b, x, (c ++ [a]). rewrite <- app_assoc. repeat split; auto.
          intros I. apply in_app_or in I. cbn in I. intuition congruence. }
    rewrite G. clear G. rewrite <- IH. clear IH.
    assert (K : forall f l' b, set_flag f l' b l = if l =? l' then b else f l) by reflexivity.
    destruct a as [k subs|l'|k|l'|m|w]; cbn [step].
    + assert (H : ~ ends_set s (New k subs) l) by (intros [[E _]|(? & ? & E & _)]; discriminate).
      destruct (forallb _ _); cbn; intuition congruence.
    + destruct (dmem l' (parents s)) eqn:D; cbn [flag].
      * assert (H : ~ ends_set s (SetBegin l') l) by (intros [[E F]|(? & ? & E & _)]; [inversion E; congruence|discriminate]).
        intuition congruence.
      * rewrite K. destruct (Nat.eqb_spec l l') as [->|N].
        -- split; auto. intros _. left. left. auto.
        -- assert (H : ~ ends_set s (SetBegin l') l) by (intros [[E F]|(? & ? & E & _)]; [inversion E; congruence|discriminate]).
           intuition congruence.
    + destruct (find (fun x => s_id x =? k) (setters s)) as [x|] eqn:F.
      * pose proof (find_some _ _ F) as (Ix & Ex). apply Nat.eqb_eq in Ex.
        destruct (nth_error (parents_of s (leaf x)) (pos x)) as [m|] eqn:P; cbn [flag].
        -- assert (H : ~ ends_set s (SetStep k) l).
           { intros [[E _]|(k' & x' & E & F' & L & N)]; [discriminate|]. inversion E; subst k'. apply N. cbn [step]. rewrite F, P.
             eexists. split; [cbn; apply in_map; exact Ix|]. destruct (Nat.eqb_spec (s_id x) k); cbn; auto. }
           intuition congruence.
        -- rewrite K. destruct (Nat.eqb_spec l (leaf x)) as [->|N].
           ++ split; auto. intros _. left. right. exists k, x. repeat split; auto. cbn [step]. rewrite F, P.
              intros (y & Iy & Ey). cbn in Iy. apply filter_In in Iy. destruct Iy as (_ & Iy). rewrite Ey, Nat.eqb_refl in Iy. discriminate.
           ++ assert (H : ~ ends_set s (SetStep k) l).
              { intros [[E _]|(k' & x' & E & F' & L & M)]; [discriminate|]. inversion E; subst k'. rewrite F in F'. inversion F'; subst. congruence. }
              intuition congruence.
      * assert (H : ~ ends_set s (SetStep k) l).
        { intros [[E _]|(k' & x' & E & F' & _)]; [discriminate|]. inversion E; subst k'. congruence. }
        intuition congruence.
    + assert (H : ~ ends_set s (Clear l') l) by (intros [[E _]|(? & ? & E & _)]; discriminate).
      cbn [flag]. rewrite K. destruct (Nat.eqb_spec l l') as [->|N]; [|intuition congruence].
      split; [discriminate|]. intuition congruence.
    + assert (H : ~ ends_set s (WaitBegin m) l) by (intros [[E _]|(? & ? & E & _)]; discriminate).
      destruct (m <? length (objs s)); cbn; intuition congruence.
    + assert (H : ~ ends_set s (WaitEnd w) l) by (intros [[E _]|(? & ? & E & _)]; discriminate).
      destruct (find _ (waiters s)) as [x|]; [destruct (notified x)|]; cbn; intuition congruence.
Qed.
Print Assumptions C71_flags.
(* combining existing events makes a new event of exactly these *)
Theorem C71_new : forall before k subs, let s := run init before in
  (forall e, In e subs -> (exists l, e = Leaf l) \/ exists id k' subs', e = Multi id k' subs' /\ nth_error (objs s) id = Some e) ->
  objs (run s [New k subs]) = objs s ++ [Multi (length (objs s)) k subs].
Proof.
  intros before k subs s H. cbn [run fold_left step].
  assert (forallb (known s) subs = true) as ->.
  { apply forallb_forall. intros e I. destruct (H e I) as [(l & ->)|(id & k' & subs' & -> & E)]; auto.
    cbn. apply Nat.ltb_lt. apply nth_error_Some. congruence. }
  cbn [objs]. replace (map (resolve s) subs) with subs; auto.
  rewrite <- (map_id subs) at 1. apply map_ext_in. intros e I.
  destruct (H e I) as [(l & ->)|(id & k' & subs' & -> & E)]; auto. cbn. symmetry. apply nth_error_nth. exact E.
Qed.
Print Assumptions C71_new.

(* A thread waiting on m when set() of any leaf of m begins is woken before that set() ends, for any
   nesting and any schedule. Missing: wait() returning because the condition holds, and returning
   only then; both are false, see below. *)
Theorem C71_woken_partial : forall before w m e l after, let s := run init before in
  waits_on s w m -> nth_error (objs s) m = Some e -> In l (leaves e) ->
  ~ setting (run s (SetBegin l :: after)) (fresh s) ->
  ~ asleep (run s (SetBegin l :: after)) w.
Proof. intros before w m e l after s. apply set_wakes. apply inv_run, inv_init. Qed.
Print Assumptions C71_woken_partial.

(* Whatever holds: a thread that starts to wait when nobody is inside set() sleeps until the next
   set(), even if the condition holds all the time. *)
Theorem C71_already_set_refuted : forall before m after, let s := run init before in
  m < length (objs s) -> setters s = [] -> forallb (fun a => negb (sets a)) after = true ->
  asleep (run s (WaitBegin m :: after)) (fresh s).
Proof.
  intros before m after s M N F.
  assert (V : inv s) by (apply inv_run, inv_init).
  change (run s (WaitBegin m :: after)) with (run (step s (WaitBegin m)) after).
  apply asleep_run; auto; [now apply inv_step| |].
  - cbn [step]. apply Nat.ltb_lt in M. rewrite M. exact N.
  - cbn [step]. apply Nat.ltb_lt in M. rewrite M. eexists. split; [apply in_or_app; right; cbn; eauto|]. cbn. auto.
Qed.
Print Assumptions C71_already_set_refuted.

(* new_set notifies before it sets: whoever waits can be woken by the first set() of any leaf, and then
   returns the value from before that set(). *)
Theorem C71_before_set_refuted : forall before w m e l, let s := run init before in
  waits_on s w m -> nth_error (objs s) m = Some e -> In l (leaves e) -> is_set (flag s) e = false ->
  exists schedule, returned (run s (SetBegin l :: schedule)) = returned s ++ [(w, false)].
Proof.
  intros before w m e l s W E L F. destruct (@wakes_in_time s w m e l) as (n & _ & R); auto.
  - apply inv_run, inv_init.
  - rewrite F in R. eauto.
Qed.
Print Assumptions C71_before_set_refuted.

(* And one notification ends wait() even when set() has finished and the condition does not hold:
   an AndEvent with another leaf that is not set. *)
Theorem C71_and_refuted : forall before w m id subs l l', let s := run init before in
  waits_on s w m -> nth_error (objs s) m = Some (Multi id KAnd subs) ->
  In (Leaf l) subs -> In (Leaf l') subs -> l <> l' -> flag s l' = false ->
  exists schedule, ~ setting (run s (SetBegin l :: schedule)) (fresh s) /\
    returned (run s (SetBegin l :: schedule ++ [WaitEnd w])) = returned s ++ [(w, false)].
Proof.
  intros before w m id subs l l' s W E I I' N F.
  destruct (@wakes_after s w m (Multi id KAnd subs) l) as (n & D & R); auto.
  - apply inv_run, inv_init.
  - cbn. apply in_flat_map. exists (Leaf l). cbn. auto.
  - exists (repeat (SetStep (fresh s)) n). split; auto. rewrite R. repeat f_equal. cbn.
    apply not_true_is_false. intros C. rewrite forallb_forall in C. specialize (C _ I'). cbn in C.
    unfold set_flag in C. destruct (Nat.eqb_spec l' l); congruence.
Qed.
Print Assumptions C71_and_refuted.

(* Or(0, And(1, 2)); waiter 0 on it. *)
Definition nested : list label := [New KAnd [Leaf 1; Leaf 2]; New KOr [Leaf 0; Multi 0 KAnd []]; WaitBegin 1].
Example C71_nonvacuous :
  let s := run init nested in
  (leaves (nth 1 (objs s) (Leaf 9)), map (is_set (fun l => negb (l =? 0))) (objs s), map (is_set (fun l => l =? 1)) (objs s)) =
    ([0; 1; 2], [true; true], [false; false]) /\
  returned (run s [SetBegin 2; SetStep 1; SetStep 1; SetStep 1; WaitEnd 0]) = [(0, false)] /\
  returned (run s [SetBegin 0; SetStep 1; WaitEnd 0]) = [(0, false)] /\
  returned (run s [SetBegin 0; SetStep 1; SetStep 1; WaitEnd 0]) = [(0, true)] /\
  asleep (run init [New KOr [Leaf 0]; SetBegin 0; SetStep 0; SetStep 0; WaitBegin 0; WaitEnd 1]) 1.
Proof. vm_compute. repeat split. eexists. split; [left; reflexivity|auto]. Qed.

(* C72: every cond.wait lasts at most timeout, so reading i+1 is at most timeout after reading i. *)
Fixpoint paced (timeout : Qc) (from : Qc) (readings : list Qc) : Prop :=
  match readings with
  | [] => True
  | r :: rest => (from <= r)%Qc /\ (r <= from + timeout)%Qc /\ paced timeout r rest
  end.
(* wait(timeout) returns before twice the timeout. Missing: returning as soon as the condition holds, and
   within the timeout. *)
Theorem C72_bounded_partial : forall timeout begin readings r, (0 < timeout)%Qc -> paced timeout begin readings ->
  wait_loop timeout begin readings = Some r -> (r < begin + timeout + timeout)%Qc.
Proof.
  intros timeout begin readings r T. assert (G : forall readings from, (from < begin + timeout)%Qc -> paced timeout from readings ->
    wait_loop timeout begin readings = Some r -> (r < begin + timeout + timeout)%Qc).
  { induction readings0 as [|x rest IH]; cbn; [discriminate|]. intros from F (P1 & P2 & P3) H.
    destruct (Qcleb_spec timeout (x - begin)) as [C|C].
    - injection H as <-. qcl.
    - apply (IH x); auto. qcl. }
  intros P H. apply (G readings begin); auto. qcl.
Qed.
Print Assumptions C72_bounded_partial.
(* The condition plays no part: wait(timeout) never returns before the timeout is over. *)
Theorem C72_early_refuted : forall timeout begin readings r,
  wait_loop timeout begin readings = Some r -> (begin + timeout <= r)%Qc.
Proof.
  intros timeout begin readings r. induction readings as [|x rest IH]; cbn; [discriminate|].
  destruct (Qcleb_spec timeout (x - begin)) as [C|C]; auto. intros [= <-]. qcl.
Qed.
Print Assumptions C72_early_refuted.
(* ... and one notification just before the end makes it wait once more for the whole timeout: every
   moment up to twice the timeout is possible. *)
Theorem C72_late_refuted : forall timeout begin r, (0 < timeout)%Qc -> (begin + timeout <= r)%Qc ->
  (r < begin + timeout + timeout)%Qc ->
  exists readings, paced timeout begin readings /\ wait_loop timeout begin readings = Some r.
Proof.
  intros timeout begin r T A B. exists [(r - timeout)%Qc; r]. cbn. split.
  - repeat split; qcl.
  - destruct (Qcleb_spec timeout (r - timeout - begin)) as [C|C]; [exfalso; revert C; apply Qclt_not_le; qcl|].
    destruct (Qcleb_spec timeout (r - begin)) as [D|D]; auto. exfalso. apply D. qcl.
Qed.
Print Assumptions C72_late_refuted.
Example C72_nonvacuous :
  let q n := Q2Qc (QArith_base.Qmake n 1) in
  option_map this (wait_loop (q 5%Z) (q 10%Z) (map q [12; 14; 19]%Z)) = Some (this (q 19%Z)) /\
  wait_loop (q 5%Z) (q 10%Z) (map q [12; 14]%Z) = None /\
  paced (q 5%Z) (q 10%Z) (map q [12; 14; 19]%Z).
Proof. vm_compute. repeat split; discriminate. Qed.
