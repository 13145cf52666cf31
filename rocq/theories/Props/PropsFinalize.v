(* C46 finalizers run at most once, C62 finalizers run when their object is collected. *)
From Verif Require Import Lib.Base Model.Finalize.

(* The owner's part of the state, from which everything follows. *)
Definition own (s : fst_) : option pst := dget (owner s) (procs s).
Definition inv (o : nat) (s : fst_) : Prop :=
  owner s = o /\ exists x, own s = Some x /\
    (forall p, In p (runs s) -> p = o) /\
    (if reg x then key x = true /\ calling x = 0 /\ cancelling x = 0 /\ runs s = []
     else length (runs s) + calling x <= 1 /\ (cancelling x > 0 -> length (runs s) + calling x = 0)).

Lemma own_with_other s p f : p <> owner s -> own (with_proc s p f) = own s.
Proof.
  intros N. unfold with_proc. destruct (dget p (procs s)) eqn:E; auto. unfold own. cbn. now apply dget_dset_other.
Qed.
Lemma own_with s p f x : p = owner s -> own s = Some x -> own (with_proc s p f) = Some (f x).
Proof. intros -> E. unfold with_proc, own in *. rewrite E. cbn. apply dget_dset_same. Qed.
Lemma with_owner s p f : owner (with_proc s p f) = owner s /\ runs (with_proc s p f) = runs s.
Proof. unfold with_proc. destruct (dget p (procs s)); auto. Qed.

Lemma inv_step o s e : inv o s -> inv o (step s e).
Proof.
  intros (Ho & x & Hx & HR & HI). unfold inv.
  destruct e as [p|p|p|p|p q|p]; cbn [step].
  - destruct (with_owner s p (fun x => if (reg x && key x)%bool then P false (key x) (S (calling x)) (cancelling x) else x)) as [-> ->].
    split; auto. destruct (Nat.eq_dec p (owner s)) as [->|N].
    + rewrite (own_with _ _ _ _ eq_refl Hx). eexists. split; [reflexivity|]. split; auto.
      destruct (reg x) eqn:E; cbn [andb]; [|rewrite E; auto]. destruct HI as (-> & C & D & ->). cbn. rewrite C, D. lia.
    + rewrite own_with_other by auto. exists x. auto.
  - destruct (Nat.eq_dec p (owner s)) as [->|N].
    + unfold own in Hx. rewrite Hx. destruct (calling x) as [|n] eqn:C.
      * split; auto. exists x. rewrite C. auto.
      * cbn. rewrite Nat.eqb_refl. split; auto. unfold own. cbn. rewrite dget_dset_same. eexists. split; [reflexivity|]. cbn.
        split; [intros p [<-|I]; auto|]. destruct (reg x); [lia|]. cbn. lia.
    + destruct (dget p (procs s)) as [y|] eqn:Ep; [|split; auto; exists x; auto].
      destruct (calling y); [split; auto; exists x; auto|].
      cbn. destruct (Nat.eqb_spec (owner s) p); [congruence|]. split; auto. exists x. unfold own. cbn.
      rewrite dget_dset_other by auto. auto.
  - destruct (with_owner s p (fun x => if (reg x && key x)%bool then P false (key x) (calling x) (S (cancelling x)) else x)) as [-> ->].
    split; auto. destruct (Nat.eq_dec p (owner s)) as [->|N].
    + rewrite (own_with _ _ _ _ eq_refl Hx). eexists. split; [reflexivity|]. split; auto.
      destruct (reg x) eqn:E; cbn [andb]; [|rewrite E; auto]. destruct HI as (-> & C & D & ->). cbn. rewrite C. lia.
    + rewrite own_with_other by auto. exists x. auto.
  - destruct (with_owner s p (fun x => match cancelling x with 0 => x | S n => P (reg x) false (calling x) n end)) as [-> ->].
    split; auto. destruct (Nat.eq_dec p (owner s)) as [->|N].
    + rewrite (own_with _ _ _ _ eq_refl Hx). eexists. split; [reflexivity|]. split; auto.
      destruct (cancelling x) as [|n] eqn:E; [rewrite E; auto|]. cbn. destruct (reg x); [lia|]. lia.
    + rewrite own_with_other by auto. exists x. auto.
  - destruct (dget p (procs s)) as [y|] eqn:Ep; [|split; auto; exists x; auto].
    destruct (dget q (procs s)) as [z|] eqn:Eq; [split; auto; exists x; auto|].
    cbn. split; auto. exists x. unfold own in *. cbn. rewrite dget_dset_other; auto. intros ->. congruence.
  - split; auto. exists x. auto.
Qed.
Lemma inv_run o s es : inv o s -> inv o (fin_run s es).
Proof. revert s. induction es as [|e es IH]; intros s H; cbn; auto. apply IH. now apply inv_step. Qed.
Lemma inv_new o : inv o (fin_new o).
Proof.
  split; auto. exists (P true true 0 0). unfold own. cbn. rewrite Nat.eqb_refl. split; auto. split; [intros p []|]. auto.
Qed.
Lemma fin_run_app s a b : fin_run s (a ++ b) = fin_run (fin_run s a) b.
Proof. apply fold_left_app. Qed.

(* events of the owner that take the entry *)
Lemma step_reg o s e x : inv o s -> own s = Some x -> reg x = true ->
  e <> Call o -> e <> Cancel o -> exists y, own (step s e) = Some y /\ reg y = true.
Proof.
  intros (Ho & x' & Hx' & _ & HI) Hx R N1 N2. rewrite Hx in Hx'. injection Hx' as <-. rewrite R in HI.
  assert (K : forall p f, p <> o -> exists y, own (with_proc s p f) = Some y /\ reg y = true).
  { intros p f N. rewrite own_with_other by congruence. eauto. }
  destruct e as [p|p|p|p|p q|p]; cbn [step]; try (apply K; congruence).
  - destruct (Nat.eq_dec p (owner s)) as [->|N].
    + unfold own in Hx. rewrite Hx. destruct (calling x); [exists x; auto|lia].
    + destruct (dget p (procs s)) as [y|]; [|eauto]. destruct (calling y); [eauto|]. unfold own. cbn.
      rewrite dget_dset_other by auto. eauto.
  - destruct (Nat.eq_dec p o) as [->|N]; [|apply K; auto]. rewrite (own_with _ _ _ _ (eq_sym Ho) Hx). eexists. split; [reflexivity|].
    destruct (cancelling x); [auto|lia].
  - destruct (dget p (procs s)) as [y|] eqn:Ep; [|eauto]. destruct (dget q (procs s)) eqn:Eq; [eauto|].
    unfold own in *. cbn. rewrite dget_dset_other; [eauto|]. intros ->. congruence.
  - eauto.
Qed.
Lemma run_reg o s es x : inv o s -> own s = Some x -> reg x = true ->
  ~ In (Call o) es -> ~ In (Cancel o) es -> exists y, own (fin_run s es) = Some y /\ reg y = true.
Proof.
  revert s x. induction es as [|e es IH]; intros s x I Hx R N1 N2; cbn; [eauto|].
  destruct (step_reg o s e x I Hx R) as (y & Hy & Ry); [intros ->; apply N1; left; auto|intros ->; apply N2; left; auto|].
  apply (IH _ y); auto; [now apply inv_step|intros H; apply N1; right; auto|intros H; apply N2; right; auto].
Qed.

(* once the owner has taken the entry for a call, runs + pending calls stays 1; for a cancel, 0 *)
Lemma taken_step o n s e x : inv o s -> own s = Some x -> reg x = false -> length (runs s) + calling x = n ->
  exists y, own (step s e) = Some y /\ reg y = false /\ length (runs (step s e)) + calling y = n.
Proof.
  intros (Ho & x' & Hx' & _ & _) Hx R L.
  destruct e as [p|p|p|p|p q|p]; cbn [step]; try (
    match goal with |- context [with_proc s p ?f] =>
      destruct (with_owner s p f) as [_ ->];
      destruct (Nat.eq_dec p (owner s)) as [->|N];
      [rewrite (own_with _ _ _ _ eq_refl Hx); eexists; split; [reflexivity|] |
       rewrite own_with_other by auto; exists x; auto] end).
  - rewrite R. cbn [andb]. rewrite R. auto.
  - destruct (Nat.eq_dec p (owner s)) as [->|N].
    + unfold own in Hx. rewrite Hx. destruct (calling x) as [|m] eqn:C; [exists x; rewrite C; auto|].
      cbn. rewrite Nat.eqb_refl. unfold own. cbn. rewrite dget_dset_same. eexists. split; [reflexivity|]. cbn. split; auto. lia.
    + destruct (dget p (procs s)) as [y|]; [|exists x; auto]. destruct (calling y); [exists x; auto|].
      cbn. destruct (Nat.eqb_spec (owner s) p); [congruence|]. exists x. unfold own. cbn. rewrite dget_dset_other by auto. auto.
  - rewrite R. cbn [andb]. rewrite R. auto.
  - destruct (cancelling x); cbn; auto.
  - destruct (dget p (procs s)) as [y|] eqn:Ep; [|exists x; auto]. destruct (dget q (procs s)) eqn:Eq; [exists x; auto|].
    exists x. unfold own in *. cbn. rewrite dget_dset_other; auto. intros ->. congruence.
  - exists x. auto.
Qed.
Lemma taken_run o n es : forall s x, inv o s -> own s = Some x -> reg x = false -> length (runs s) + calling x = n ->
  exists y, own (fin_run s es) = Some y /\ reg y = false /\ length (runs (fin_run s es)) + calling y = n.
Proof.
  induction es as [|e es IH]; intros s x I Hx R L; cbn; [eauto|].
  destruct (taken_step o n s e x I Hx R L) as (y & Hy & Ry & Ly). apply (IH _ y); auto. now apply inv_step.
Qed.
Lemma taken_by o es1 e : ~ In (Call o) es1 -> ~ In (Cancel o) es1 -> e = Call o \/ e = Cancel o ->
  let s := step (fin_run (fin_new o) es1) e in
  exists y, own s = Some y /\ reg y = false /\ length (runs s) + calling y = match e with Call _ => 1 | _ => 0 end.
Proof.
  intros N1 N2 He s. pose proof (inv_run o _ es1 (inv_new o)) as I.
  destruct (run_reg o (fin_new o) es1 (P true true 0 0) (inv_new o)) as (x & Hx & R); auto.
  { unfold own. cbn. now rewrite Nat.eqb_refl. }
  destruct I as (Ho & x' & Hx' & _ & HI). rewrite Hx in Hx'. injection Hx' as <-. rewrite R in HI. destruct HI as (K & C & D & Rn).
  unfold s. destruct He as [-> | ->]; cbn [step];
    (match goal with |- context [with_proc ?t o ?f] => destruct (with_owner t o f) as [_ ->] end);
    rewrite (own_with _ _ _ _ (eq_sym Ho) Hx), R, K, Rn; eexists; (split; [reflexivity|]); cbn; lia.
Qed.

(* In every history: at most one run, and only in the process that registered the finalizer.
   If that process calls it before it cancels it, the callback has run exactly once as soon as no
   call is half done; if it cancels it first, the callback never runs. *)
Theorem C46_once : forall o es,
  let s := fin_run (fin_new o) es in
  length (runs s) <= 1 /\ (forall p, In p (runs s) -> p = o) /\
  (forall es1 es2, es = es1 ++ Call o :: es2 -> ~ In (Call o) es1 -> ~ In (Cancel o) es1 ->
     (forall x, dget o (procs s) = Some x -> calling x = 0) -> runs s = [o]) /\
  (forall es1 es2, es = es1 ++ Cancel o :: es2 -> ~ In (Call o) es1 -> ~ In (Cancel o) es1 -> runs s = []) /\
  (~ In (Call o) es -> runs s = []).
Proof.
  intros o es s. pose proof (inv_run o _ es (inv_new o)) as I. fold s in I.
  pose proof I as (Ho & x & Hx & HR & HI).
  assert (L : length (runs s) <= 1) by (destruct (reg x); [destruct HI as (_ & _ & _ & ->); cbn|]; lia).
  assert (Can : forall es1 es2, es = es1 ++ Cancel o :: es2 -> ~ In (Call o) es1 -> ~ In (Cancel o) es1 -> runs s = []).
  { intros es1 es2 -> N1 N2. destruct (taken_by o es1 (Cancel o) N1 N2 (or_intror eq_refl)) as (y & Hy & Ry & Ly).
    destruct (taken_run o 0 es2 _ y (inv_step o _ _ (inv_run o _ es1 (inv_new o))) Hy Ry Ly) as (z & Hz & Rz & Lz).
    unfold s in *. rewrite fin_run_app. cbn [fin_run fold_left]. apply length_zero_iff_nil. unfold fin_run in *. lia. }
  split; [exact L|]. split; [exact HR|]. split; [|split; [exact Can|]].
  - intros es1 es2 E N1 N2 Q. destruct (taken_by o es1 (Call o) N1 N2 (or_introl eq_refl)) as (y & Hy & Ry & Ly).
    destruct (taken_run o 1 es2 _ y (inv_step o _ _ (inv_run o _ es1 (inv_new o))) Hy Ry Ly) as (z & Hz & Rz & Lz).
    assert (Es : fin_run (step (fin_run (fin_new o) es1) (Call o)) es2 = s) by (unfold s; rewrite E, fin_run_app; reflexivity).
    rewrite Es in *. unfold own in Hz. rewrite Ho in Hz. rewrite (Q z Hz) in Lz.
    destruct (runs s) as [|a [|b l]]; cbn in Lz; try lia. rewrite (HR a); auto. left; auto.
  - intros N. destruct (in_dec (fun a b : ev => ltac:(repeat decide equality)) (Cancel o) es) as [Ic|Nc].
    + clear -N Ic Can. revert Can. induction es as [|e es IH]; [destruct Ic|]. intros Can.
      assert (D : exists es1 es2, e :: es = es1 ++ Cancel o :: es2 /\ ~ In (Cancel o) es1).
      { clear -Ic. revert Ic. generalize (e :: es). induction l as [|a l IH]; [intros []|].
        intros I. destruct (match a, Cancel o as b return {a = b} + {a <> b} with a, b => ltac:(repeat decide equality) end) as [->|Na].
        - exists [], l. auto.
        - destruct IH as (l1 & l2 & -> & N); [destruct I; [congruence|auto]|]. exists (a :: l1), l2. split; auto.
          intros [X|X]; [congruence|auto]. }
      destruct D as (es1 & es2 & E & N2). apply (Can es1 es2 E); auto. intros X. apply N. rewrite E. apply in_or_app. auto.
    + destruct (run_reg o (fin_new o) es (P true true 0 0) (inv_new o)) as (y & Hy & Ry); auto.
      { unfold own. cbn. now rewrite Nat.eqb_refl. }
      fold s in Hy. rewrite Hx in Hy. injection Hy as ->. rewrite Ry in HI. apply HI.
Qed.
Print Assumptions C46_once.
Example C46_nonvacuous :
  (runs (fin_run (fin_new 5) [Fork 5 6; Call 6; Call 5; Call 5; Cancel 5; Continue 6; Continue 5; Continue 5; Clear 5]),
   runs (fin_run (fin_new 5) [Cancel 5; Call 5; Fork 5 6; Call 6; Continue 6; Continue 5])) = ([5], []).
Proof. reflexivity. Qed.

(* C62: nothing happens when the tracked object is collected: the weak reference passed by the
   interpreter is taken for the registry. *)
Theorem C62_refuted : forall o es, (forall p, ~ In (Call p) es) -> In (Collected o) es ->
  runs (fin_run (fin_new o) es) = [] /\
  (~ In (Cancel o) es -> exists x, dget o (procs (fin_run (fin_new o) es)) = Some x /\ reg x = true).
Proof.
  intros o es N _. split; [apply (C46_once o es); auto|]. intros Nc.
  pose proof (inv_run o _ es (inv_new o)) as (Ho & _).
  destruct (run_reg o (fin_new o) es (P true true 0 0) (inv_new o)) as (y & Hy & Ry); auto.
  { unfold own. cbn. now rewrite Nat.eqb_refl. }
  unfold own in Hy. rewrite Ho in Hy. eauto.
Qed.
Print Assumptions C62_refuted.
Example C62_nonvacuous : runs (fin_run (fin_new 5) [Collected 5]) = [] /\ runs (fin_run (fin_new 5) [Call 5; Continue 5]) = [5].
Proof. split; reflexivity. Qed.
