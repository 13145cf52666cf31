From Verif Require Import Lib.Base Lib.Rat Model.Event Spec.EventSpec.
Set Implicit Arguments.
Local Arguments Nat.ltb : simpl never.
Local Arguments Nat.eqb : simpl never.

Section EvInd.
  Variable P : ev -> Prop.
  Hypothesis HL : forall l, P (Leaf l).
  Hypothesis HM : forall id k subs, (forall e, In e subs -> P e) -> P (Multi id k subs).
  Fixpoint ev_rect' (e : ev) : P e :=
    match e with
    | Leaf l => HL l
    | Multi id k subs =>
        HM id k subs ((fix go (es : list ev) : forall e, In e es -> P e :=
          match es with
          | [] => fun e I => match I with end
          | x :: r => fun e I => match I with
                                 | or_introl E => eq_ind x P (ev_rect' x) e E
                                 | or_intror I' => go r e I'
                                 end
          end) subs)
    end.
End EvInd.

Lemma is_set_holds f e : is_set f e = true <-> holds (fun l => f l = true) e.
Proof.
  induction e as [l|id k subs IH] using ev_rect'; cbn.
  - split; intros H; [now constructor|now inversion H].
  - destruct k.
    + rewrite existsb_exists. split.
      * intros (e & I & H). econstructor; eauto. now apply IH.
      * intros H. inversion H; subst. exists e. split; auto. now apply IH.
    + rewrite forallb_forall. split.
      * intros H. constructor. intros e I. apply IH; auto.
      * intros H e I. inversion H; subst. apply IH; auto.
Qed.

(* ---- parents only grow ---- *)
Definition pof (ps : list (nat * list nat)) (l : nat) : list nat := match dget l ps with Some q => q | None => [] end.
Lemma pof_register m ps l l' : exists q, pof (register m ps l) l' = pof ps l' ++ q /\ (l = l' -> q = [m]) .
Proof.
  unfold pof, register. destruct (Nat.eq_dec l l') as [->|N].
  - destruct (dget l' ps) eqn:E; rewrite dget_dset_same; exists [m]; auto.
  - exists []. split; [|congruence]. destruct (dget l ps); rewrite dget_dset_other, app_nil_r by auto; reflexivity.
Qed.
Lemma pof_fold m ls : forall ps l', exists q, pof (fold_left (register m) ls ps) l' = pof ps l' ++ q /\
  (In l' ls -> In m q).
Proof.
  induction ls as [|l r IH]; intros ps l'; cbn.
  - exists []. rewrite app_nil_r. tauto.
  - destruct (IH (register m ps l) l') as (q & E & H). destruct (pof_register m ps l l') as (q1 & E1 & H1).
    exists (q1 ++ q). split; [rewrite E, E1, app_assoc; reflexivity|].
    intros [->|I]; apply in_or_app; [left; rewrite H1; cbn; auto|right; auto].
Qed.
Lemma parents_grow s a l : exists q, parents_of (step s a) l = parents_of s l ++ q.
Proof.
  destruct a; cbn; try (exists []; rewrite app_nil_r; reflexivity).
  - destruct (forallb _ _); [|exists []; now rewrite app_nil_r]. unfold parents_of. cbn.
    destruct (pof_fold (length (objs s)) (flat_map leaves (map (resolve s) subs)) (parents s) l) as (q & E & _).
    exists q. exact E.
  - destruct (dmem l0 (parents s)); exists []; now rewrite app_nil_r.
  - destruct (find _ _); [|exists []; now rewrite app_nil_r].
    destruct (nth_error _ _); exists []; now rewrite app_nil_r.
  - destruct (_ <? _); exists []; now rewrite app_nil_r.
  - destruct (find _ _) as [x|]; [destruct (notified x)|]; exists []; now rewrite app_nil_r.
Qed.

(* ---- reachable states ---- *)
Record inv (s : st) : Prop := {
  i_reg : forall m e, nth_error (objs s) m = Some e -> forall l, In l (leaves e) -> In m (parents_of s l);
  i_w : NoDup (map w_id (waiters s));
  i_s : NoDup (map s_id (setters s));
  i_wf : forall x, In x (waiters s) -> w_id x < fresh s;
  i_sf : forall x, In x (setters s) -> s_id x < fresh s;
  i_won : forall x, In x (waiters s) -> on x < length (objs s)
}.
Lemma NoDup_snoc {A} (l : list A) x : NoDup l -> ~ In x l -> NoDup (l ++ [x]).
Proof. intros N H. apply NoDup_Add with (a := x) (l := l); [|auto]. replace l with (l ++ []) at 1 by apply app_nil_r. apply Add_app. Qed.
Lemma NoDup_map_filter {A B} (f : A -> B) p l : NoDup (map f l) -> NoDup (map f (filter p l)).
Proof.
  induction l as [|x r IH]; cbn; auto. intros N. inversion N; subst. destruct (p x); cbn; auto.
  constructor; auto. intros I. apply H1. apply in_map_iff in I as (y & E & I). apply filter_In in I as [I _].
  apply in_map_iff. eauto.
Qed.
Lemma map_notify_id m ws : map w_id (map (notify m) ws) = map w_id ws.
Proof. rewrite map_map. apply map_ext. intros x. unfold notify. destruct (_ =? _); reflexivity. Qed.
Lemma map_setter_id k ss : map s_id (map (fun y => if s_id y =? k then Build_setter (s_id y) (leaf y) (S (pos y)) else y) ss) = map s_id ss.
Proof. rewrite map_map. apply map_ext. intros x. destruct (_ =? _); reflexivity. Qed.
Lemma in_ids {A} (f : A -> nat) l n : In n (map f l) <-> exists x, In x l /\ f x = n.
Proof. rewrite in_map_iff. firstorder. Qed.

Lemma inv_init : inv init.
Proof. constructor; cbn; try constructor; try tauto. intros [|m] e H; discriminate. Qed.
Lemma inv_step s a : inv s -> inv (step s a).
Proof.
  intros V. assert (G : forall m e, nth_error (objs s) m = Some e -> forall l, In l (leaves e) ->
    In m (parents_of (step s a) l)).
  { intros m e H l I. destruct (parents_grow s a l) as [q ->]. apply in_or_app. left. eapply i_reg; eauto. }
  revert G. destruct a; cbn [step]; intros G.
  - destruct (forallb _ _); auto. destruct V. constructor; cbn [objs waiters setters fresh]; auto.
    2:{ intros x I. rewrite app_length. cbn. specialize (i_won0 x I). lia. }
    intros m e H l I. destruct (Nat.lt_ge_cases m (length (objs s))) as [L|L].
    + rewrite nth_error_app1 in H by auto. eapply G; eauto.
    + rewrite nth_error_app2 in H by auto. destruct (m - length (objs s)) as [|z] eqn:Z; [|destruct z; discriminate].
      cbn in H. injection H as <-. replace m with (length (objs s)) by lia. unfold parents_of. cbn [parents].
      destruct (pof_fold (length (objs s)) (leaves (Multi (length (objs s)) k (map (resolve s) subs))) (parents s) l)
        as (q & E & H). unfold pof in E at 1. rewrite E. apply in_or_app. right. auto.
  - destruct (dmem l (parents s)); destruct V; constructor; cbn [objs waiters setters fresh]; auto.
    + rewrite map_app. apply NoDup_snoc; auto. rewrite in_ids. intros (x & I & E). cbn in E. specialize (i_sf0 x I). lia.
    + intros x I. specialize (i_wf0 x I). lia.
    + intros x I. apply in_app_or in I as [I|[<-|[]]]; [specialize (i_sf0 x I)|cbn]; lia.
  - destruct (find _ _) as [x|]; auto. destruct (nth_error _ _) as [m|]; destruct V; constructor;
      cbn [objs waiters setters fresh]; auto.
    + now rewrite map_notify_id.
    + now rewrite map_setter_id.
    + intros y I. apply in_map_iff in I as (z & <- & I). specialize (i_wf0 z I). unfold notify. destruct (_ =? _); auto.
    + intros y I. apply in_map_iff in I as (z & <- & I). specialize (i_sf0 z I). destruct (_ =? _); auto.
    + intros y I. apply in_map_iff in I as (z & <- & I). specialize (i_won0 z I). unfold notify. destruct (_ =? _); auto.
    + now apply NoDup_map_filter.
    + intros y I. apply filter_In in I as [I _]. auto.
  - destruct V; constructor; cbn; auto.
  - destruct (m <? length (objs s)) eqn:M; auto. apply Nat.ltb_lt in M. destruct V; constructor; cbn [objs waiters setters fresh]; auto.
    + rewrite map_app. apply NoDup_snoc; auto. rewrite in_ids. intros (x & I & E). cbn in E. specialize (i_wf0 x I). lia.
    + intros x I. apply in_app_or in I as [I|[<-|[]]]; [specialize (i_wf0 x I)|cbn]; lia.
    + intros x I. specialize (i_sf0 x I). lia.
    + intros x I. apply in_app_or in I as [I|[<-|[]]]; [auto|cbn; auto].
  - destruct (find _ _) as [x|]; auto. destruct (notified x); auto. destruct V; constructor; cbn [objs waiters setters fresh]; auto.
    + now apply NoDup_map_filter.
    + intros y I. apply filter_In in I as [I _]. auto.
    + intros y I. apply filter_In in I as [I _]. auto.
Qed.
Lemma inv_run s ls : inv s -> inv (run s ls).
Proof. revert s. induction ls as [|a r IH]; intros s V; cbn; auto. apply IH. now apply inv_step. Qed.

Lemma find_id {A} (f : A -> nat) l x : NoDup (map f l) -> In x l -> find (fun y => f y =? f x) l = Some x.
Proof.
  induction l as [|y r IH]; cbn; [tauto|]. intros N [->|I].
  - now rewrite Nat.eqb_refl.
  - inversion N; subst. destruct (Nat.eqb_spec (f y) (f x)) as [E|E]; auto.
    exfalso. apply H1. rewrite E. now apply in_map.
Qed.
Lemma same_id {A} (f : A -> nat) l x y : NoDup (map f l) -> In x l -> In y l -> f x = f y -> x = y.
Proof.
  intros N I J E. pose proof (find_id f l x N I) as A1. pose proof (find_id f l y N J) as A2. rewrite E in A1. congruence.
Qed.

(* ---- nobody sets: a sleeping thread sleeps on ---- *)
Definition sets (a : label) : bool := match a with SetBegin _ => true | _ => false end.
Lemma asleep_step s a w : inv s -> setters s = [] -> asleep s w -> sets a = false ->
  asleep (step s a) w /\ setters (step s a) = [].
Proof.
  intros V N (x & I & <- & F) A. destruct a; cbn in *; try discriminate.
  - destruct (forallb _ _); split; auto; exists x; auto.
  - rewrite N. cbn. split; auto. exists x; auto.
  - split; auto. exists x; auto.
  - destruct (_ <? _); split; auto; exists x; cbn; auto using in_or_app.
  - destruct (find _ _) as [y|] eqn:E; [|split; auto; exists x; auto].
    destruct (notified y) eqn:Ny; [|split; auto; exists x; auto]. cbn. split; auto. exists x. split; auto.
    apply filter_In. split; auto. apply negb_true_iff, Nat.eqb_neq. intros C.
    apply find_some in E as [Iy Ey]. apply Nat.eqb_eq in Ey. assert (x = y) by (eapply same_id; eauto using i_w; congruence).
    congruence.
Qed.
Lemma asleep_run ls : forall s w, inv s -> setters s = [] -> asleep s w -> forallb (fun a => negb (sets a)) ls = true ->
  asleep (run s ls) w.
Proof.
  induction ls as [|a r IH]; intros s w V N A F; cbn in *; auto. apply andb_true_iff in F as [F1 F2].
  apply negb_true_iff in F1. destruct (asleep_step a V N A F1). apply IH; auto. now apply inv_step.
Qed.

(* ---- a completed set() has woken every thread that was waiting ---- *)
Definition pending (w k l m : nat) (s : st) : Prop :=
  w < fresh s /\ k < fresh s /\
  ((exists x, In x (setters s) /\ s_id x = k /\ leaf x = l /\
      forall y, In y (waiters s) -> w_id y = w -> notified y = false ->
        on y = m /\ exists j, pos x <= j /\ nth_error (parents_of s l) j = Some m) \/
   ~ asleep s w).
Lemma asleep_again s a w : inv s -> w < fresh s -> asleep (step s a) w -> asleep s w.
Proof.
  intros V L (x & I & E & F). destruct a; cbn in *.
  - destruct (forallb _ _); exists x; auto.
  - destruct (dmem _ _); exists x; auto.
  - destruct (find _ _); [|exists x; auto]. destruct (nth_error _ _); [|exists x; auto]. cbn in I.
    apply in_map_iff in I as (z & <- & I). unfold notify in *. destruct (_ =? _); [discriminate|exists z; auto].
  - exists x; auto.
  - destruct (_ <? _); [|exists x; auto]. cbn in I. apply in_app_or in I as [I|[<-|[]]]; [exists x; auto|cbn in E; lia].
  - destruct (find _ _) as [y|]; [|exists x; auto]. destruct (notified y); [|exists x; auto]. cbn in I.
    apply filter_In in I as [I _]. exists x; auto.
Qed.
Lemma fresh_mono s a : fresh s <= fresh (step s a).
Proof.
  destruct a; cbn; repeat match goal with
    | |- context [if ?b then _ else _] => destruct b; cbn
    | |- context [match ?o with _ => _ end] => destruct o; cbn end; lia.
Qed.
Lemma pending_step w k l m s a : inv s -> pending w k l m s -> pending w k l m (step s a).
Proof.
  intros V (Lw & Lk & C). pose proof (fresh_mono s a) as FM. split; [lia|]. split; [lia|].
  destruct C as [(x & I & Ek & El & H)|C]; [|right; intros A; apply C; eapply asleep_again; eauto].
  assert (G : forall j, nth_error (parents_of s l) j = Some m -> nth_error (parents_of (step s a) l) j = Some m).
  { intros j E. destruct (parents_grow s a l) as [q ->]. rewrite nth_error_app1; auto. apply nth_error_Some. congruence. }
  destruct a; cbn [step] in *.
  - left. exists x. destruct (forallb _ _); cbn [setters waiters]; (split; [auto|]; split; [auto|]; split; [auto|]);
      intros y Iy Ey Fy; destruct (H y Iy Ey Fy) as (O & j & P & Q); eauto.
  - left. exists x. destruct (dmem _ _); cbn [setters waiters]; (split; [auto using in_or_app|]; split; [auto|]; split; [auto|]);
      intros y Iy Ey Fy; destruct (H y Iy Ey Fy) as (O & j & P & Q); eauto.
  - destruct (find (fun x => s_id x =? k0) (setters s)) as [z|] eqn:Fz; [|left; exists x; auto].
    pose proof (find_some _ _ Fz) as [Iz Ez]. apply Nat.eqb_eq in Ez.
    destruct (Nat.eq_dec k0 k) as [->|Nk].
    + assert (z = x) by (eapply same_id; eauto using i_s; congruence). subst z. rewrite El in *.
      destruct (nth_error (parents_of s l) (pos x)) as [m0|] eqn:Np.
      * left. exists (Build_setter (s_id x) (leaf x) (S (pos x))). cbn [setters waiters]. split.
        { apply in_map_iff. exists x. rewrite Ek, Nat.eqb_refl. cbn. auto. }
        split; auto. split; auto. intros y Iy Ey Fy. apply in_map_iff in Iy as (y0 & <- & Iy). unfold notify in *.
        destruct (Nat.eqb_spec (on y0) m0) as [O|O]; cbn in *; [discriminate|].
        destruct (H y0 Iy Ey Fy) as (O' & j & P & Q). split; auto. exists j. split; [|auto].
        assert (j <> pos x) by (intros ->; congruence). lia.
      * right. intros (y & Iy & Ey & Fy). cbn in Iy. destruct (H y Iy Ey Fy) as (_ & j & P & Q).
        apply nth_error_None in Np. assert (j < length (parents_of s l)) by (apply nth_error_Some; congruence). lia.
    + left. exists x. destruct (nth_error (parents_of s (leaf z)) (pos z)) as [m0|]; cbn [setters waiters].
      * split. { apply in_map_iff. exists x. split; auto. destruct (Nat.eqb_spec (s_id x) k0); [congruence|auto]. }
        split; auto. split; auto. intros y Iy Ey Fy. apply in_map_iff in Iy as (y0 & <- & Iy). unfold notify in *.
        destruct (Nat.eqb_spec (on y0) m0) as [O|O]; cbn in *; [discriminate|].
        destruct (H y0 Iy Ey Fy) as (O' & j & P & Q); eauto.
      * split. { apply filter_In. split; auto. apply negb_true_iff, Nat.eqb_neq. congruence. }
        split; [auto|]; split; [auto|]. intros y Iy Ey Fy. destruct (H y Iy Ey Fy) as (O' & j & P & Q); eauto.
  - left. exists x. cbn [setters waiters]. split; [auto|]; split; [auto|]; split; [auto|].
    intros y Iy Ey Fy; destruct (H y Iy Ey Fy) as (O & j & P & Q); eauto.
  - left. exists x. destruct (_ <? _); cbn [setters waiters]; (split; [auto|]; split; [auto|]; split; [auto|]);
      intros y Iy Ey Fy; [apply in_app_or in Iy as [Iy|[<-|[]]]; [|cbn in Ey; lia]|];
      destruct (H y Iy Ey Fy) as (O & j & P & Q); eauto.
  - left. exists x. destruct (find _ (waiters s)) as [z|]; [destruct (notified z)|]; cbn [setters waiters];
      (split; [auto|]; split; [auto|]; split; [auto|]);
      intros y Iy Ey Fy; try (apply filter_In in Iy as [Iy _]); destruct (H y Iy Ey Fy) as (O & j & P & Q); eauto.
Qed.
Lemma pending_run w k l m ls : forall s, inv s -> pending w k l m s -> pending w k l m (run s ls).
Proof. induction ls as [|a r IH]; intros s V P; cbn; auto. apply IH; [now apply inv_step|now apply pending_step]. Qed.

Lemma set_wakes s l w m e ls : inv s -> waits_on s w m -> nth_error (objs s) m = Some e -> In l (leaves e) ->
  ~ setting (run s (SetBegin l :: ls)) (fresh s) -> ~ asleep (run s (SetBegin l :: ls)) w.
Proof.
  intros V (x & Ix & Ew & Eo) E I D.
  assert (P : pending w (fresh s) l m (step s (SetBegin l))).
  { pose proof (i_reg V m E l I) as R. cbn [step]. assert (M : dmem l (parents s) = true).
    { unfold parents_of in R. unfold dmem. destruct (dget l (parents s)); [auto|destruct R]. }
    rewrite M. pose proof (i_wf V x Ix). split; [cbn; lia|]. split; [cbn; lia|]. left.
    exists (Build_setter (fresh s) l 0). cbn [setters waiters]. split; [apply in_or_app; cbn; auto|].
    split; auto. split; auto. intros y Iy Ey Fy.
    assert (x = y) by (eapply same_id; eauto using i_w; congruence). subst y. split; auto.
    apply In_nth_error in R as [j R]. exists j. split; [cbn; lia|]. exact R. }
  eapply pending_run in P; [|now apply inv_step]. destruct P as (_ & _ & [(y & Iy & Ey & _)|P]).
  - exfalso. apply D. exists y. split; auto. exact Iy.
  - exact P.
Qed.

(* ---- what a single set() does, step by step ---- *)
Definition notified_by (q : list nat) (w : waiter) : waiter :=
  if existsb (Nat.eqb (on w)) q then Build_waiter (w_id w) (on w) true else w.
Lemma notify_snoc q m w : notify m (notified_by q w) = notified_by (q ++ [m]) w.
Proof.
  unfold notify, notified_by. rewrite existsb_app. cbn.
  destruct (existsb (Nat.eqb (on w)) q) eqn:E; cbn; destruct (Nat.eqb_spec (on w) m); cbn; auto.
Qed.
Lemma firstn_snoc {A} (l : list A) n x : nth_error l n = Some x -> firstn (S n) l = firstn n l ++ [x].
Proof.
  revert n. induction l as [|y r IH]; intros [|n] H; cbn in *; try discriminate; [congruence|].
  now rewrite (IH n H).
Qed.
Lemma set_steps s l n : inv s -> dmem l (parents s) = true -> n <= length (parents_of s l) ->
  let s' := run s (SetBegin l :: repeat (SetStep (fresh s)) n) in
  objs s' = objs s /\ parents s' = parents s /\ flag s' = flag s /\ returned s' = returned s /\
  waiters s' = map (notified_by (firstn n (parents_of s l))) (waiters s) /\
  In (Build_setter (fresh s) l n) (setters s').
Proof.
  intros V M. induction n as [|n IH]; intros L; cbn zeta.
  - cbn. rewrite M. cbn. repeat split; auto using in_or_app; cbn.
    + symmetry. erewrite map_ext; [apply map_id|]. reflexivity.
    + apply in_or_app. cbn. auto.
  - replace (SetBegin l :: repeat (SetStep (fresh s)) (S n)) with
      ((SetBegin l :: repeat (SetStep (fresh s)) n) ++ [SetStep (fresh s)]).
    2:{ cbn. f_equal. symmetry. apply repeat_cons. }
    unfold run in *. rewrite fold_left_app.
    set (s1 := fold_left step (SetBegin l :: repeat (SetStep (fresh s)) n) s) in *.
    assert (V1 : inv s1) by exact (inv_run (SetBegin l :: repeat (SetStep (fresh s)) n) V). specialize (IH (Nat.lt_le_incl _ _ L)). cbn zeta in IH.
    destruct IH as (A1 & A2 & A3 & A4 & A5 & A6). cbn [fold_left step].
    pose proof (find_id s_id (setters s1) _ (i_s V1) A6) as F. cbn [s_id] in F. rewrite F. cbn [leaf pos].
    assert (PO : parents_of s1 l = parents_of s l) by (unfold parents_of; now rewrite A2). rewrite PO.
    destruct (nth_error (parents_of s l) n) as [m|] eqn:N; [|apply nth_error_None in N; lia]. clearbody s1. cbn [objs parents flag returned waiters setters].
    repeat split; auto.
    + rewrite A5, map_map. apply map_ext. intros w. rewrite notify_snoc, (firstn_snoc _ _ N). reflexivity.
    + apply in_map_iff. exists (Build_setter (fresh s) l n). cbn. rewrite Nat.eqb_refl. auto.
Qed.

(* a thread that wakes up reports the state of the event at that moment *)
Lemma wake s w m e : inv s -> (exists x, In x (waiters s) /\ w_id x = w /\ on x = m /\ notified x = true) ->
  nth_error (objs s) m = Some e ->
  returned (step s (WaitEnd w)) = returned s ++ [(w, is_set (flag s) e)].
Proof.
  intros V (x & I & <- & <- & N) E. cbn. rewrite (find_id w_id _ _ (i_w V) I), N. cbn. rewrite (nth_error_nth _ _ (Leaf 0) E). reflexivity.
Qed.
Lemma wakes_in_time s w m e l : inv s -> waits_on s w m -> nth_error (objs s) m = Some e -> In l (leaves e) ->
  exists n, n <= length (parents_of s l) /\
  returned (run s (SetBegin l :: repeat (SetStep (fresh s)) n ++ [WaitEnd w])) = returned s ++ [(w, is_set (flag s) e)].
Proof.
  intros V (x & I & Ew & Eo) E L. pose proof (i_reg V m E l L) as R.
  assert (M : dmem l (parents s) = true).
  { unfold parents_of in R. unfold dmem. destruct (dget l (parents s)); [auto|destruct R]. }
  exists (length (parents_of s l)). split; auto.
  rewrite app_comm_cons. unfold run. rewrite fold_left_app. cbn [fold_left].
  pose proof (set_steps l V M (Nat.le_refl _)) as (A1 & A2 & A3 & A4 & A5 & A6). unfold run in *.
  rewrite firstn_all in A5. rewrite <- A4, <- A3. eapply wake; [exact (inv_run (SetBegin l :: repeat (SetStep (fresh s)) (length (parents_of s l))) V)| |rewrite A1; exact E].
  exists (notified_by (parents_of s l) x). rewrite A5. split; [now apply in_map|].
  assert (X : existsb (Nat.eqb (on x)) (parents_of s l) = true).
  { apply existsb_exists. exists m. split; auto. now apply Nat.eqb_eq. }
  unfold notified_by. rewrite X. cbn. auto.
Qed.
Lemma wakes_after s w m e l : inv s -> waits_on s w m -> nth_error (objs s) m = Some e -> In l (leaves e) ->
  exists n, ~ setting (run s (SetBegin l :: repeat (SetStep (fresh s)) n)) (fresh s) /\
  returned (run s (SetBegin l :: repeat (SetStep (fresh s)) n ++ [WaitEnd w])) =
    returned s ++ [(w, is_set (set_flag (flag s) l true) e)].
Proof.
  intros V (x & I & Ew & Eo) E L. pose proof (i_reg V m E l L) as R.
  assert (M : dmem l (parents s) = true).
  { unfold parents_of in R. unfold dmem. destruct (dget l (parents s)); [auto|destruct R]. }
  exists (S (length (parents_of s l))). 
  replace (repeat (SetStep (fresh s)) (S (length (parents_of s l)))) with
    (repeat (SetStep (fresh s)) (length (parents_of s l)) ++ [SetStep (fresh s)]) by (symmetry; apply repeat_cons).
  rewrite !app_comm_cons. unfold run. rewrite !fold_left_app.
  pose proof (set_steps l V M (Nat.le_refl _)) as (A1 & A2 & A3 & A4 & A5 & A6). unfold run in *.
  rewrite firstn_all in A5. set (s1 := fold_left step (SetBegin l :: repeat (SetStep (fresh s)) (length (parents_of s l))) s) in *.
  cbn [fold_left].
  assert (V1 : inv s1) by exact (inv_run (SetBegin l :: repeat (SetStep (fresh s)) (length (parents_of s l))) V).
  assert (S2 : step s1 (SetStep (fresh s)) = Build_st (objs s1) (parents s1) (set_flag (flag s1) l true) (waiters s1)
                (filter (fun y => negb (s_id y =? fresh s)) (setters s1)) (fresh s1) (returned s1)).
  { cbn [step]. pose proof (find_id s_id (setters s1) _ (i_s V1) A6) as F. cbn [s_id] in F. rewrite F. cbn [leaf pos].
    assert (PO : parents_of s1 l = parents_of s l) by (unfold parents_of; now rewrite A2). rewrite PO.
    destruct (nth_error (parents_of s l) (length (parents_of s l))) eqn:N; auto.
    assert (length (parents_of s l) < length (parents_of s l)) by (apply nth_error_Some; congruence). lia. }
  split.
  - rewrite S2. intros (y & Iy & Ey). cbn in Iy. apply filter_In in Iy as [_ Iy]. rewrite Ey, Nat.eqb_refl in Iy. discriminate.
  - assert (V2 : inv (step s1 (SetStep (fresh s)))) by now apply inv_step.
    transitivity (returned (step s1 (SetStep (fresh s))) ++ [(w, is_set (flag (step s1 (SetStep (fresh s)))) e)]).
    + eapply wake; auto; rewrite S2; cbn [waiters objs]; [|rewrite A1; exact E].
      exists (notified_by (parents_of s l) x). rewrite A5. split; [now apply in_map|].
      assert (X : existsb (Nat.eqb (on x)) (parents_of s l) = true).
      { apply existsb_exists. exists m. split; auto. now apply Nat.eqb_eq. }
      unfold notified_by. rewrite X. cbn. auto.
    + rewrite S2. cbn [returned flag]. now rewrite A3, A4.
Qed.
