(* C172 - C174: queues shared by several processes. *)
From Verif Require Import Lib.Base Model.SimpleQueue.
Set Implicit Arguments.

(* who writes and who reads: everybody through put / get (None), or the single process p through quick_put /
   quick_get (Some p), as the pool does *)
Definition allowed (wq rq : option nat) (l : label) : Prop :=
  match l with
  | LPut _ _ => wq = None
  | LQPut p _ => wq = Some p
  | LGet _ _ => rq = None
  | LQGet p _ => rq = Some p
  | _ => True
  end.
Definition crash (l : label) : Prop := match l with LCrash _ => True | _ => False end.
(* everything that begins to be sent, in that order *)
Definition frames (l : list message) : list nat := concat (map frame l).

Lemma frames_app a b : frames (a ++ b) = frames a ++ frames b.
Proof. unfold frames. now rewrite map_app, concat_app. Qed.
(* the framing can be decoded *)
Lemma frames_prefix : forall a b x, frames b = frames a ++ x -> exists r, b = a ++ r /\ x = frames r.
Proof.
  induction a as [|m a IH]; intros b x E; [exists b; auto|].
  destruct b as [|n b]; [discriminate|]. unfold frames in E. cbn in E. injection E as L E.
  rewrite <- app_assoc in E. assert (n = m /\ concat (map frame b) = concat (map frame a) ++ x) as [-> E'].
  { revert m L E. clear IH. induction n as [|u n IHn]; intros [|v m] L E; try discriminate; [auto|].
    cbn in *. injection E as -> E. injection L as L. destruct (IHn m L E) as [-> ->]. auto. }
  destruct (IH b x E') as (r & -> & ->). exists r. auto.
Qed.

Lemma proc_set p x s q : proc_of (set_proc p x s) q = if p =? q then x else proc_of s q.
Proof.
  unfold proc_of, set_proc. cbn [procs]. destruct (Nat.eqb_spec p q) as [->|N].
  - now rewrite dget_dset_same.
  - now rewrite dget_dset_other.
Qed.

Section Inv.
  Variables wq rq : option nat.
  (* w: what the current writer has not written yet; c: what the current reader has taken out of the pipe *)
  Definition local (s : st) (w c : list nat) (p : nat) : Prop :=
    match proc_of s p with
    | PutWait _ => wq = None
    | Putting r => wq = None /\ wlock s = Some p /\ r = w
    | QPutting r => wq = Some p /\ r = w
    | GetWait _ => rq = None
    | Polling _ => rq = None /\ rlock s = Some p /\ c = []
    | Reading n acc => rq = None /\ rlock s = Some p /\ c = n + length acc :: acc
    | QPolling _ => rq = Some p /\ c = []
    | QReading n acc => rq = Some p /\ c = n + length acc :: acc
    | Idle | Dead => True
    end.
  Definition wclean (s : st) (w : list nat) : Prop :=
    match wq with None => wlock s = None -> w = []
             | Some p => match proc_of s p with QPutting _ | Dead => True | _ => w = [] end end.
  Definition rclean (s : st) (c : list nat) : Prop :=
    match rq with None => rlock s = None -> c = []
             | Some p => match proc_of s p with QReading _ _ | Dead => True | _ => c = [] end end.
  Definition inv (s : st) : Prop := exists w c,
    frames (sent s) = frames (got s) ++ c ++ pipe s ++ w /\ (forall p, local s w c p) /\ wclean s w /\ rclean s c.

  (* the state of one process changes, and with it the pipe and the lock it holds *)
  Lemma inv_change s s' p x w c w' c' : (forall q, proc_of s' q = if p =? q then x else proc_of s q) ->
    (forall q, local s w c q) -> frames (sent s') = frames (got s') ++ c' ++ pipe s' ++ w' ->
    (w' = w \/ (wlock s = None /\ wq = None) \/ (wlock s = Some p /\ wq = None) \/ wq = Some p) ->
    (c' = c \/ (rlock s = None /\ rq = None) \/ (rlock s = Some p /\ rq = None) \/ rq = Some p) ->
    (wlock s' = wlock s \/ wlock s = None \/ wlock s = Some p) ->
    (rlock s' = rlock s \/ rlock s = None \/ rlock s = Some p) ->
    local s' w' c' p -> wclean s' w' -> rclean s' c' -> inv s'.
  Proof.
    intros P L E Hw Hc Kw Kr Lp W R. exists w', c'. split; [exact E|]. split; [|auto].
    intros q. destruct (Nat.eq_dec p q) as [<-|N]; [exact Lp|]. specialize (L q). unfold local in *. rewrite P.
    replace (p =? q) with false by (symmetry; now apply Nat.eqb_neq).
    destruct (proc_of s q); auto.
    - destruct L as (a & b & ->). split; [auto|]. assert (wlock s' = Some q) by (destruct Kw as [->|[|]]; congruence).
      split; auto. destruct Hw as [->|[[? _]|[[? _]|?]]]; congruence.
    - destruct L as (a & ->). split; [auto|]. destruct Hw as [->|[[_ ?]|[[_ ?]|?]]]; congruence.
    - destruct L as (a & b & ->). split; [auto|]. assert (rlock s' = Some q) by (destruct Kr as [->|[|]]; congruence).
      split; auto. destruct Hc as [->|[[? _]|[[? _]|?]]]; congruence.
    - destruct L as (a & b & ->). split; [auto|]. assert (rlock s' = Some q) by (destruct Kr as [->|[|]]; congruence).
      split; auto. destruct Hc as [->|[[? _]|[[? _]|?]]]; congruence.
    - destruct L as (a & ->). split; [auto|]. destruct Hc as [->|[[_ ?]|[[_ ?]|?]]]; congruence.
    - destruct L as (a & ->). split; [auto|]. destruct Hc as [->|[[_ ?]|[[_ ?]|?]]]; congruence.
  Qed.

  Ltac cleans P :=
    unfold wclean, rclean in *; try match goal with |- context [match ?o with Some _ => _ | None => _ end] =>
      match o with wq => destruct wq as [u|] | rq => destruct rq as [u|] end end;
    rewrite ?proc_set; cbn [set_proc set_pipe set_wlock set_rlock add_sent add_got add_late wlock rlock];
    try match goal with |- context [?p =? ?u] => destruct (Nat.eqb_spec p u) as [<-|]; rewrite ?P in * end; auto; try congruence.

  Lemma inv_go s p : inv s -> inv (go p s).
  Proof.
    intros I. pose proof I as (w & c & E & L & W & R). pose proof (L p) as Lp. unfold local in Lp. unfold go.
    destruct (proc_of s p) eqn:P.
    - exact I.
    - destruct (wlock s) as [u|] eqn:K; [exact I|].
      assert (w = []) by (unfold wclean in W; rewrite Lp in W; auto). subst w.
      eapply inv_change with (p := p) (x := Putting (frame m)) (s := s) (w' := frame m) (c' := c); eauto;
        try (intros q; rewrite proc_set; reflexivity); cbn [set_proc add_sent set_wlock sent got pipe wlock rlock]; auto.
      + rewrite frames_app, E. unfold frames at 2. cbn [map concat]. rewrite !app_nil_r, <- !app_assoc. reflexivity.
      + unfold local. rewrite proc_set, Nat.eqb_refl. auto.
      + cleans P.
      + cleans P.
    - destruct Lp as (Q & K & ->). destruct w as [|x w].
      + eapply inv_change with (p := p) (x := Idle) (s := s) (w' := []) (c' := c); eauto;
          try (intros q; rewrite proc_set; reflexivity); cbn [set_proc set_wlock sent got pipe wlock rlock]; auto.
        * unfold local. rewrite proc_set, Nat.eqb_refl. auto.
        * cleans P.
        * cleans P.
      + eapply inv_change with (p := p) (x := Putting w) (s := s) (w' := w) (c' := c); eauto;
          try (intros q; rewrite proc_set; reflexivity); cbn [set_proc set_pipe sent got pipe wlock rlock]; auto.
        * rewrite E, <- !app_assoc. reflexivity.
        * unfold local. rewrite proc_set, Nat.eqb_refl. auto.
        * cleans P.
        * cleans P.
    - destruct Lp as (Q & ->). destruct w as [|x w].
      + eapply inv_change with (p := p) (x := Idle) (s := s) (w' := []) (c' := c); eauto; try (intros q; rewrite proc_set; reflexivity).
        * unfold local. rewrite proc_set, Nat.eqb_refl. auto.
        * cleans P.
        * cleans P.
      + eapply inv_change with (p := p) (x := QPutting w) (s := s) (w' := w) (c' := c); eauto;
          try (intros q; rewrite proc_set; reflexivity); cbn [set_proc set_pipe sent got pipe wlock rlock]; auto.
        * rewrite E, <- !app_assoc. reflexivity.
        * unfold local. rewrite proc_set, Nat.eqb_refl. auto.
        * cleans P.
        * cleans P.
    - destruct (rlock s) as [u|] eqn:K; [exact I|].
      assert (c = []) by (unfold rclean in R; rewrite Lp in R; auto). subst c.
      eapply inv_change with (p := p) (x := Polling timed) (s := s) (w' := w) (c' := []); eauto;
        try (intros q; rewrite proc_set; reflexivity); cbn [set_proc set_rlock sent got pipe wlock rlock]; auto.
      + unfold local. rewrite proc_set, Nat.eqb_refl. auto.
      + cleans P.
      + cleans P.
    - destruct (pipe s) as [|x r] eqn:Pi; [exact I|]. destruct Lp as (Q & K & ->).
      eapply inv_change with (p := p) (x := Reading x []) (s := s) (w' := w) (c' := [x]); eauto;
        try (intros q; rewrite proc_set; reflexivity); cbn [set_proc set_pipe sent got pipe wlock rlock]; auto.
      + unfold local. rewrite proc_set, Nat.eqb_refl. cbn [set_proc set_pipe rlock length]. rewrite Nat.add_0_r. auto.
      + cleans P.
      + cleans P.
    - destruct Lp as (Q & K & ->). destruct n as [|n].
      + eapply inv_change with (p := p) (x := Idle) (s := s) (w' := w) (c' := []); eauto;
          try (intros q; rewrite proc_set; reflexivity); cbn [set_proc add_got set_rlock sent got pipe wlock rlock]; auto.
        * rewrite frames_app, E. unfold frames at 3. cbn [map concat frame Nat.add]. rewrite app_nil_r, <- !app_assoc. reflexivity.
        * unfold local. rewrite proc_set, Nat.eqb_refl. auto.
        * cleans P.
        * cleans P.
      + destruct (pipe s) as [|x r] eqn:Pi; [exact I|].
        eapply inv_change with (p := p) (x := Reading n (acc ++ [x])) (s := s) (w' := w) (c' := S n + length acc :: acc ++ [x]); eauto;
          try (intros q; rewrite proc_set; reflexivity); cbn [set_proc set_pipe sent got pipe wlock rlock]; auto.
        * rewrite E. cbn [app]. rewrite <- !app_assoc. reflexivity.
        * unfold local. rewrite proc_set, Nat.eqb_refl. cbn [set_proc set_pipe rlock]. rewrite app_length. cbn [length].
          replace (n + (length acc + 1)) with (S n + length acc) by lia. auto.
        * cleans P.
        * cleans P.
    - destruct (pipe s) as [|x r] eqn:Pi; [exact I|]. destruct Lp as (Q & ->).
      eapply inv_change with (p := p) (x := QReading x []) (s := s) (w' := w) (c' := [x]); eauto;
        try (intros q; rewrite proc_set; reflexivity); cbn [set_proc set_pipe sent got pipe wlock rlock]; auto.
      + unfold local. rewrite proc_set, Nat.eqb_refl. cbn [length]. rewrite Nat.add_0_r. auto.
      + cleans P.
      + cleans P.
    - destruct Lp as (Q & ->). destruct n as [|n].
      + eapply inv_change with (p := p) (x := Idle) (s := s) (w' := w) (c' := []); eauto;
          try (intros q; rewrite proc_set; reflexivity); cbn [set_proc add_got sent got pipe wlock rlock]; auto.
        * rewrite frames_app, E. unfold frames at 3. cbn [map concat frame Nat.add]. rewrite app_nil_r, <- !app_assoc. reflexivity.
        * unfold local. rewrite proc_set, Nat.eqb_refl. auto.
        * cleans P.
        * cleans P.
      + destruct (pipe s) as [|x r] eqn:Pi; [exact I|].
        eapply inv_change with (p := p) (x := QReading n (acc ++ [x])) (s := s) (w' := w) (c' := S n + length acc :: acc ++ [x]); eauto;
          try (intros q; rewrite proc_set; reflexivity); cbn [set_proc set_pipe sent got pipe wlock rlock]; auto.
        * rewrite E. cbn [app]. rewrite <- !app_assoc. reflexivity.
        * unfold local. rewrite proc_set, Nat.eqb_refl. rewrite app_length. cbn [length].
          replace (n + (length acc + 1)) with (S n + length acc) by lia. auto.
        * cleans P.
        * cleans P.
    - exact I.
  Qed.

  Lemma inv_step s l : inv s -> allowed wq rq l -> inv (step s l).
  Proof.
    intros I A. destruct l as [p m|p m|p t|p t|p|p|p]; cbn [step allowed] in *; [| | | |now apply inv_go| |];
      pose proof I as (w & c & E & L & W & R); pose proof (L p) as Lp; unfold local in Lp.
    - unfold begin. destruct (proc_of s p) eqn:P; try exact I.
      eapply inv_change with (p := p) (x := PutWait m) (s := s) (w' := w) (c' := c); eauto; try (intros q; rewrite proc_set; reflexivity).
      + unfold local. rewrite proc_set, Nat.eqb_refl. auto.
      + cleans P.
      + cleans P.
    - destruct (proc_of s p) eqn:P; try exact I.
      assert (w = []) by (unfold wclean in W; rewrite A, P in W; auto). subst w.
      eapply inv_change with (p := p) (x := QPutting (frame m)) (s := s) (w' := frame m) (c' := c); eauto;
        try (intros q; rewrite proc_set; reflexivity); cbn [set_proc add_sent sent got pipe wlock rlock]; auto.
      + rewrite frames_app, E. unfold frames at 2. cbn [map concat]. rewrite !app_nil_r, <- !app_assoc. reflexivity.
      + unfold local. rewrite proc_set, Nat.eqb_refl. auto.
      + cleans P.
      + cleans P.
    - unfold begin. destruct (proc_of s p) eqn:P; try exact I.
      eapply inv_change with (p := p) (x := GetWait t) (s := s) (w' := w) (c' := c); eauto; try (intros q; rewrite proc_set; reflexivity).
      + unfold local. rewrite proc_set, Nat.eqb_refl. auto.
      + cleans P.
      + cleans P.
    - unfold begin. destruct (proc_of s p) eqn:P; try exact I.
      assert (c = []) by (unfold rclean in R; rewrite A, P in R; auto). subst c.
      eapply inv_change with (p := p) (x := QPolling t) (s := s) (w' := w) (c' := []); eauto; try (intros q; rewrite proc_set; reflexivity).
      + unfold local. rewrite proc_set, Nat.eqb_refl. auto.
      + cleans P.
      + cleans P.
    - destruct (proc_of s p) eqn:P; try exact I.
      + destruct timed; [|exact I]. destruct (pipe s) eqn:Pi; [|exact I]. destruct Lp as (Q & K & ->).
        eapply inv_change with (p := p) (x := Idle) (s := s) (w' := w) (c' := []); eauto;
          try (intros q; rewrite proc_set; reflexivity); cbn [set_proc add_late set_rlock sent got pipe wlock rlock]; rewrite ?Pi; auto.
        * unfold local. rewrite proc_set, Nat.eqb_refl. auto.
        * cleans P.
        * cleans P.
      + destruct timed; [|exact I]. destruct (pipe s) eqn:Pi; [|exact I]. destruct Lp as (Q & ->).
        eapply inv_change with (p := p) (x := Idle) (s := s) (w' := w) (c' := []); eauto;
          try (intros q; rewrite proc_set; reflexivity); cbn [set_proc add_late sent got pipe wlock rlock]; rewrite ?Pi; auto.
        * unfold local. rewrite proc_set, Nat.eqb_refl. auto.
        * cleans P.
        * cleans P.
    - eapply inv_change with (p := p) (x := Dead) (s := s) (w' := w) (c' := c); eauto; try (intros q; rewrite proc_set; reflexivity).
      + unfold local. rewrite proc_set, Nat.eqb_refl. auto.
      + cleans Dead.
      + cleans Dead.
  Qed.
  Lemma inv_init : inv init.
  Proof.
    exists [], []. split; [reflexivity|]. split; [intros p; exact I|].
    unfold wclean, rclean. destruct wq, rq; cbn; auto.
  Qed.
  Lemma inv_run ls : Forall (allowed wq rq) ls -> inv (run ls).
  Proof.
    unfold run, steps. assert (G : forall s, inv s -> Forall (allowed wq rq) ls -> inv (fold_left step ls s)).
    { induction ls as [|l r IH]; intros s I F; [exact I|]. inversion F; subst. cbn. apply IH; auto. now apply inv_step. }
    apply G, inv_init.
  Qed.
End Inv.

(* ---- C172: every object once, intact, in order ---- *)
(* Whatever processes do, and even if some die in the middle of a call: with one kind of call on each side
   (put by anybody, or quick_put by one process; get by anybody, or quick_get by one process) the received objects are
   the first ones of those sent. *)
Theorem C172_in_order : forall wq rq ls, Forall (allowed wq rq) ls ->
  exists rest, sent (run ls) = got (run ls) ++ rest.
Proof.
  intros wq rq ls F. destruct (inv_run F) as (w & c & E & _).
  apply frames_prefix in E as (r & E & _). eauto.
Qed.
Print Assumptions C172_in_order.

Definition busy_w (x : proc) : bool := match x with Putting _ => true | _ => false end.
Definition busy_r (x : proc) : bool := match x with Polling _ | Reading _ _ => true | _ => false end.
Definition held (s : st) : Prop :=
  (forall p, wlock s = Some p -> busy_w (proc_of s p) = true) /\ (forall p, rlock s = Some p -> busy_r (proc_of s p) = true).
Lemma held_change s s' p x : (forall q, proc_of s' q = if p =? q then x else proc_of s q) -> held s ->
  (wlock s' = None \/ wlock s' = Some p /\ busy_w x = true \/ wlock s' = wlock s /\ busy_w x = busy_w (proc_of s p)) ->
  (rlock s' = None \/ rlock s' = Some p /\ busy_r x = true \/ rlock s' = rlock s /\ busy_r x = busy_r (proc_of s p)) -> held s'.
Proof.
  intros P [Hw Hr] Cw Cr. split; intros q K; rewrite P; destruct (Nat.eqb_spec p q) as [<-|N].
  - destruct Cw as [?|[[? ?]|[? ->]]]; try congruence. apply Hw. congruence.
  - apply Hw. destruct Cw as [?|[[? ?]|[? ?]]]; congruence.
  - destruct Cr as [?|[[? ?]|[? ->]]]; try congruence. apply Hr. congruence.
  - apply Hr. destruct Cr as [?|[[? ?]|[? ?]]]; congruence.
Qed.
Lemma held_step s l : held s -> ~ crash l -> held (step s l).
Proof.
  intros H N. destruct l as [p m|p m|p t|p t|p|p|p]; cbn [step]; [| | | | | |elim N; exact I].
  - unfold begin. destruct (proc_of s p) eqn:P; auto.
    eapply held_change with (p := p) (s := s); [intros q; rewrite proc_set; reflexivity|exact H| |]; rewrite ?P; cbn; auto.
  - destruct (proc_of s p) eqn:P; auto.
    eapply held_change with (p := p) (s := s); [intros q; rewrite proc_set; reflexivity|exact H| |]; rewrite ?P; cbn; auto.
  - unfold begin. destruct (proc_of s p) eqn:P; auto.
    eapply held_change with (p := p) (s := s); [intros q; rewrite proc_set; reflexivity|exact H| |]; rewrite ?P; cbn; auto.
  - unfold begin. destruct (proc_of s p) eqn:P; auto.
    eapply held_change with (p := p) (s := s); [intros q; rewrite proc_set; reflexivity|exact H| |]; rewrite ?P; cbn; auto.
  - unfold go. destruct (proc_of s p) eqn:P; auto;
      repeat match goal with
             | |- context [match wlock s with _ => _ end] => destruct (wlock s) eqn:?; auto
             | |- context [match rlock s with _ => _ end] => destruct (rlock s) eqn:?; auto
             | |- context [match pipe s with _ => _ end] => destruct (pipe s) eqn:?; auto
             | |- context [match ?y with [] => _ | _ :: _ => _ end] => is_var y; destruct y
             | |- context [match ?y with 0 => _ | S _ => _ end] => is_var y; destruct y
             end; try exact H;
      (eapply held_change with (p := p) (s := s); [intros q; rewrite proc_set; reflexivity|exact H| |]; rewrite ?P; cbn; auto).
  - destruct (proc_of s p) eqn:P; auto; destruct timed; auto; destruct (pipe s) eqn:?; auto;
      (eapply held_change with (p := p) (s := s); [intros q; rewrite proc_set; reflexivity|exact H| |]; rewrite ?P; cbn; auto).
Qed.
Lemma held_run ls : Forall (fun l => ~ crash l) ls -> held (run ls).
Proof.
  unfold run, steps. assert (G : forall s, held s -> Forall (fun l => ~ crash l) ls -> held (fold_left step ls s)).
  { induction ls as [|l r IH]; intros s I F; [exact I|]. inversion F; subst. cbn. apply IH; auto. now apply held_step. }
  apply G. split; discriminate.
Qed.

(* Nothing is lost: if nobody died, then, when nobody is inside a call, exactly the objects not received yet are
   in the pipe. *)
Definition quiet (s : st) : Prop := forall p, proc_of s p = Idle.
Theorem C172_nothing_lost : forall wq rq ls, Forall (allowed wq rq) ls -> Forall (fun l => ~ crash l) ls -> quiet (run ls) ->
  exists rest, sent (run ls) = got (run ls) ++ rest /\ pipe (run ls) = frames rest.
Proof.
  intros wq rq ls F N Q. destruct (inv_run F) as (w & c & E & _ & W & R). destruct (held_run N) as [Hw Hr].
  set (s := run ls) in *.
  assert (w = []).
  { unfold wclean in W. destruct wq as [p|]; [now rewrite (Q p) in W|]. apply W. destruct (wlock s) as [p|]; auto.
    specialize (Hw p eq_refl). rewrite Q in Hw. discriminate. }
  assert (c = []).
  { unfold rclean in R. destruct rq as [p|]; [now rewrite (Q p) in R|]. apply R. destruct (rlock s) as [p|]; auto.
    specialize (Hr p eq_refl). rewrite Q in Hr. discriminate. }
  subst w c. cbn in E. rewrite app_nil_r in E. apply frames_prefix in E as (r & E & P). eauto.
Qed.
Print Assumptions C172_nothing_lost.

(* reading n symbols *)
Lemma read_steps p : forall m s acc rest, proc_of s p = Reading (length m) acc -> pipe s = m ++ rest ->
  got (steps s (repeat (LStep p) (S (length m)))) = got s ++ [acc ++ m].
Proof.
  induction m as [|x m IH]; intros s acc rest P Pi.
  - cbn. unfold go. rewrite P. cbn. now rewrite app_nil_r.
  - cbn [length repeat steps fold_left step]. unfold go at 2. rewrite P. cbn [length]. rewrite Pi. cbn [app].
    set (s' := set_proc p (Reading (length m) (acc ++ [x])) (set_pipe (m ++ rest) s)).
    specialize (IH s' (acc ++ [x]) rest). unfold steps in IH. cbn [repeat fold_left step] in IH. rewrite IH.
    + now rewrite <- app_assoc.
    + unfold s'. now rewrite proc_set, Nat.eqb_refl.
    + reflexivity.
Qed.
Lemma qread_steps p : forall m s acc rest, proc_of s p = QReading (length m) acc -> pipe s = m ++ rest ->
  got (steps s (repeat (LStep p) (S (length m)))) = got s ++ [acc ++ m].
Proof.
  induction m as [|x m IH]; intros s acc rest P Pi.
  - cbn. unfold go. rewrite P. cbn. now rewrite app_nil_r.
  - cbn [length repeat steps fold_left step]. unfold go at 2. rewrite P. cbn [length]. rewrite Pi. cbn [app].
    set (s' := set_proc p (QReading (length m) (acc ++ [x])) (set_pipe (m ++ rest) s)).
    specialize (IH s' (acc ++ [x]) rest). unfold steps in IH. cbn [repeat fold_left step] in IH. rewrite IH.
    + now rewrite <- app_assoc.
    + unfold s'. now rewrite proc_set, Nat.eqb_refl.
    + reflexivity.
Qed.
Lemma get_one s p t m rest : proc_of s p = Idle -> rlock s = None -> pipe s = frame m ++ rest ->
  got (steps s (LGet p t :: repeat (LStep p) (length m + 3))) = got s ++ [m].
Proof.
  intros Q K P. replace (length m + 3) with (2 + S (length m)) by lia. cbn [Nat.add repeat steps fold_left step].
  unfold begin. rewrite Q.
  assert (G1 : go p (set_proc p (GetWait t) s) = set_proc p (Polling t) (set_rlock (Some p) (set_proc p (GetWait t) s))).
  { unfold go. rewrite proc_set, Nat.eqb_refl. cbn [set_proc rlock]. now rewrite K. }
  rewrite G1. set (s1 := set_proc p (Polling t) (set_rlock (Some p) (set_proc p (GetWait t) s))).
  assert (G2 : go p s1 = set_proc p (Reading (length m) []) (set_pipe (m ++ rest) s1)).
  { unfold go. unfold s1 at 1. rewrite proc_set, Nat.eqb_refl. change (pipe s1) with (pipe s). now rewrite P. }
  rewrite G2. refine (@read_steps p m (set_proc p (Reading (length m) []) (set_pipe (m ++ rest) s1)) [] rest _ eq_refl).
  now rewrite proc_set, Nat.eqb_refl.
Qed.
(* and a call of get (or quick_get) returns the next one, if it is left alone *)
Theorem C172_delivered : forall wq rq ls m rest p t, Forall (allowed wq rq) ls -> Forall (fun l => ~ crash l) ls -> quiet (run ls) ->
  sent (run ls) = got (run ls) ++ m :: rest ->
  got (steps (run ls) (LGet p t :: repeat (LStep p) (length m + 3))) = got (run ls) ++ [m] /\
  got (steps (run ls) (LQGet p t :: repeat (LStep p) (length m + 2))) = got (run ls) ++ [m].
Proof.
  intros wq rq ls m rest p t F N Q Sn. destruct (C172_nothing_lost F N Q) as (r & S' & P). rewrite Sn in S'.
  apply app_inv_head in S'. subst r. change (frames (m :: rest)) with (frame m ++ frames rest) in P.
  assert (K : rlock (run ls) = None).
  { destruct (rlock (run ls)) as [q|] eqn:K; auto. destruct (held_run N) as [_ Hr]. specialize (Hr q K). rewrite Q in Hr. discriminate. }
  set (s := run ls) in *. split; [now apply get_one with (rest := frames rest)|].
  replace (length m + 2) with (1 + S (length m)) by lia. cbn [Nat.add repeat steps fold_left step].
  unfold begin. rewrite (Q p). set (s1 := set_proc p (QPolling t) s).
  assert (G2 : go p s1 = set_proc p (QReading (length m) []) (set_pipe (m ++ frames rest) s1)).
  { unfold go. unfold s1 at 1. rewrite proc_set, Nat.eqb_refl. change (pipe s1) with (pipe s). now rewrite P. }
  rewrite G2. refine (@qread_steps p m (set_proc p (QReading (length m) []) (set_pipe (m ++ frames rest) s1)) [] (frames rest) _ eq_refl).
  now rewrite proc_set, Nat.eqb_refl.
Qed.
Print Assumptions C172_delivered.

(* Two processes using quick_put at the same time: an object arrives which nobody has sent. *)
Lemma qwrite_steps p : forall m s, proc_of s p = QPutting m ->
  let s' := steps s (repeat (LStep p) (length m)) in
  pipe s' = pipe s ++ m /\ sent s' = sent s /\ got s' = got s /\ forall q, q <> p -> proc_of s' q = proc_of s q.
Proof.
  induction m as [|x m IH]; intros s P; [cbn; rewrite app_nil_r; auto|].
  cbn [length repeat steps fold_left step]. assert (G : go p s = set_proc p (QPutting m) (set_pipe (pipe s ++ [x]) s)) by (unfold go; now rewrite P).
  rewrite G. destruct (IH (set_proc p (QPutting m) (set_pipe (pipe s ++ [x]) s))) as (a & b & c & d); [now rewrite proc_set, Nat.eqb_refl|].
  unfold steps in *. rewrite a, b, c. cbn [set_proc set_pipe pipe sent got]. rewrite <- app_assoc. repeat split; auto.
  intros q N. rewrite d by auto. rewrite proc_set. replace (p =? q) with false by (symmetry; apply Nat.eqb_neq; auto). reflexivity.
Qed.
Lemma proc_pipe l s q : proc_of (set_pipe l s) q = proc_of s q. Proof. reflexivity. Qed.
Lemma proc_sent m s q : proc_of (add_sent m s) q = proc_of s q. Proof. reflexivity. Qed.
Lemma step_qput s p m : proc_of s p = Idle -> step s (LQPut p m) = set_proc p (QPutting (frame m)) (add_sent m s).
Proof. intros P. cbn [step]. now rewrite P. Qed.
Lemma step_qwrite s p x r : proc_of s p = QPutting (x :: r) -> step s (LStep p) = set_proc p (QPutting r) (set_pipe (pipe s ++ [x]) s).
Proof. intros P. cbn [step]. unfold go. now rewrite P. Qed.
Theorem C172_discipline_needed : forall a m1 m2 p q r t, p <> q -> p <> r -> q <> r -> a <> length m2 ->
  let s := run ([LQPut p (a :: m1); LQPut q m2; LStep p; LStep q] ++ repeat (LStep p) (S (length m1)) ++
                LQGet r t :: repeat (LStep r) (length m1 + 3)) in
  sent s = [a :: m1; m2] /\ exists x, got s = [x] /\ x <> a :: m1.
Proof.
  intros a m1 m2 p q r t Npq Npr Nqr Na. cbv zeta. unfold run, steps. rewrite !fold_left_app.
  set (s0 := fold_left step [LQPut p (a :: m1); LQPut q m2; LStep p; LStep q] init).
  assert (Fqp : (q =? p) = false) by (apply Nat.eqb_neq; auto). assert (Fpq : (p =? q) = false) by (apply Nat.eqb_neq; auto).
  assert (Fpr : (p =? r) = false) by (apply Nat.eqb_neq; auto). assert (Fqr : (q =? r) = false) by (apply Nat.eqb_neq; auto).
  assert (E0 : s0 = set_proc q (QPutting m2) (set_pipe [length (a :: m1); length m2]
                     (set_proc p (QPutting (a :: m1)) (set_pipe [length (a :: m1)]
                       (set_proc q (QPutting (frame m2)) (add_sent m2 (set_proc p (QPutting (frame (a :: m1))) (add_sent (a :: m1) init)))))))).
  { unfold s0. cbn [fold_left]. rewrite (step_qput init p (a :: m1)) by reflexivity.
    rewrite step_qput by (rewrite proc_set, Fpq; reflexivity).
    rewrite (@step_qwrite _ p (length (a :: m1)) (a :: m1)) by (rewrite proc_set, Fqp, proc_sent, proc_set, Nat.eqb_refl; reflexivity).
    rewrite (@step_qwrite _ q (length m2) m2) by (rewrite proc_set, Fpq, proc_pipe, proc_set, Nat.eqb_refl; reflexivity).
    reflexivity. }
  assert (P0 : proc_of s0 p = QPutting (a :: m1)) by (rewrite E0, proc_set, Fqp, proc_pipe, proc_set, Nat.eqb_refl; reflexivity).
  assert (R0 : proc_of s0 r = Idle).
  { rewrite E0, proc_set, Fqr, proc_pipe, proc_set, Fpr, proc_pipe, proc_set, Fqr, proc_sent, proc_set, Fpr. reflexivity. }
  destruct (@qwrite_steps p (a :: m1) s0 P0) as (A & B & C & D). cbn [length] in A, B, C, D. unfold steps in A, B, C, D.
  set (s1 := fold_left step (repeat (LStep p) (S (length m1))) s0) in *. clearbody s1. rewrite E0 in A, B, C.
  cbn [set_proc set_pipe add_sent init pipe sent got app] in A, B, C.
  assert (R1 : proc_of s1 r = Idle) by (rewrite D by auto; exact R0).
  assert (exists y m', length m2 :: a :: m1 = y :: m' ++ [last (a :: m1) 0] /\ y = length m2 /\ length (y :: m') = S (length m1)) as (y & m' & E & Ey & Ly).
  { exists (length m2), (removelast (a :: m1)). pose proof (app_removelast_last 0 (l := a :: m1) ltac:(discriminate)) as X.
    split; [now rewrite <- X|]. split; auto. assert (Y : length (a :: m1) = length (removelast (a :: m1) ++ [last (a :: m1) 0])) by (now rewrite <- X).
    rewrite app_length in Y. cbn [length] in Y |- *. lia. }
  cbn [fold_left]. change (step s1 (LQGet r t)) with (begin r (QPolling t) s1). unfold begin. rewrite R1.
  replace (length m1 + 3) with (1 + S (length (y :: m'))) by (rewrite Ly; lia). cbn [Nat.add repeat fold_left].
  set (s2 := set_proc r (QPolling t) s1).
  assert (G2 : go r s2 = set_proc r (QReading (length (y :: m')) []) (set_pipe ((y :: m') ++ [last (a :: m1) 0]) s2)).
  { unfold go. unfold s2 at 1. rewrite proc_set, Nat.eqb_refl. change (pipe s2) with (pipe s1). rewrite A, Ly. cbn [app length]. rewrite E. reflexivity. }
  match goal with |- context [step ?s (LStep r)] => change (step s (LStep r)) with (go r s2) end.
  rewrite G2. set (s3 := set_proc r (QReading (length (y :: m')) []) (set_pipe ((y :: m') ++ [last (a :: m1) 0]) s2)).
  assert (Se : forall n s, (exists k acc, proc_of s r = QReading k acc) \/ proc_of s r = Idle -> sent (fold_left step (repeat (LStep r) n) s) = sent s).
  { clear. induction n as [|n IH]; intros s H; [reflexivity|]. cbn [repeat fold_left step].
    assert (sent (go r s) = sent s /\ ((exists k acc, proc_of (go r s) r = QReading k acc) \/ proc_of (go r s) r = Idle)) as [X Y].
    { unfold go. destruct H as [(k & acc & P)|P]; rewrite P; [|auto]. destruct k as [|k].
      - split; [reflexivity|]. right. now rewrite proc_set, Nat.eqb_refl.
      - destruct (pipe s); [split; eauto|]. split; [reflexivity|]. left. rewrite proc_set, Nat.eqb_refl. eauto. }
    rewrite IH by exact Y. exact X. }
  change (fold_left step (repeat (LStep r) (length (y :: m'))) (step s3 (LStep r)))
    with (fold_left step (repeat (LStep r) (S (length (y :: m')))) s3).
  split.
  - rewrite Se; [exact B|]. left. exists (length (y :: m')), []. unfold s3. now rewrite proc_set, Nat.eqb_refl.
  - pose proof (@qread_steps r (y :: m') s3 [] [last (a :: m1) 0]) as G. unfold steps in G. rewrite G.
    + exists (y :: m'). change (got s3) with (got s1). rewrite C. cbn [app]. split; [reflexivity|]. congruence.
    + unfold s3. now rewrite proc_set, Nat.eqb_refl.
    + reflexivity.
Qed.
Print Assumptions C172_discipline_needed.

(* ---- C173: the death of a process ---- *)
(* q is dead, or these steps do not include one of q going on *)
Definition passive (q : nat) (s : st) (l : label) : Prop := proc_of s q = Dead \/ (l <> LStep q /\ l <> LTimeout q).

Ltac closeB B1 B2 := split; [assumption|split; [reflexivity|split; [reflexivity|split;
  [let H := fresh in intros ? ? H; left; rewrite proc_set; exact (B1 _ _ H)|let H := fresh in intros ? H; rewrite proc_set; exact (B2 _ H)]]]].
Lemma blocked_step wq s q l : inv wq None s -> allowed wq None l -> rlock s = Some q -> passive q s l ->
  rlock (step s l) = Some q /\ got (step s l) = got s /\ late (step s l) = late s /\
  (forall p t, proc_of s p = GetWait t -> proc_of (step s l) p = GetWait t \/ l = LCrash p) /\
  (forall p, proc_of s p = Dead -> proc_of (step s l) p = Dead).
Proof.
  intros (w & c & _ & L & _) A K Pq.
  assert (B : forall p x, (forall t, proc_of s p = GetWait t -> False) -> proc_of s p <> Dead ->
     (forall p' t, proc_of s p' = GetWait t -> (if p =? p' then x else proc_of s p') = GetWait t) /\
     (forall p', proc_of s p' = Dead -> (if p =? p' then x else proc_of s p') = Dead)).
  { intros p x N D. split; intros p'; [intros t|]; intros P'; destruct (Nat.eqb_spec p p') as [<-|]; auto; [destruct (N _ P')|contradiction]. }
  destruct l as [p m|p m|p t|p t|p|p|p]; cbn [step]; cbn [allowed] in A.
  - unfold begin. destruct (proc_of s p) eqn:P; try (repeat split; auto; fail).
    destruct (B p (PutWait m)) as [B1 B2]; [congruence..|]. closeB B1 B2.
  - destruct (proc_of s p) eqn:P; try (repeat split; auto; fail).
    destruct (B p (QPutting (frame m))) as [B1 B2]; [congruence..|]. closeB B1 B2.
  - unfold begin. destruct (proc_of s p) eqn:P; try (repeat split; auto; fail).
    destruct (B p (GetWait t)) as [B1 B2]; [congruence..|]. closeB B1 B2.
  - discriminate.
  - pose proof (L p) as Lp. unfold local in Lp. unfold go.
    assert (Np : proc_of s p = Dead \/ p <> q) by (destruct Pq as [D|[N _]]; [destruct (Nat.eq_dec p q) as [->|]; auto|right; congruence]).
    destruct (proc_of s p) eqn:P; try (repeat split; auto; fail).
    + destruct (wlock s) eqn:Kw; [repeat split; auto|].
      destruct (B p (Putting (frame m))) as [B1 B2]; [congruence..|]. closeB B1 B2.
    + destruct rest as [|x rest].
      * destruct (B p Idle) as [B1 B2]; [congruence..|]. closeB B1 B2.
      * destruct (B p (Putting rest)) as [B1 B2]; [congruence..|]. closeB B1 B2.
    + destruct rest as [|x rest].
      * destruct (B p Idle) as [B1 B2]; [congruence..|]. closeB B1 B2.
      * destruct (B p (QPutting rest)) as [B1 B2]; [congruence..|]. closeB B1 B2.
    + rewrite K. repeat split; auto.
    + destruct Lp as (_ & Kp & _). destruct Np; congruence.
    + destruct Lp as (_ & Kp & _). destruct Np; congruence.
    + destruct Lp. discriminate.
    + destruct Lp. discriminate.
  - pose proof (L p) as Lp. unfold local in Lp.
    assert (Np : proc_of s p = Dead \/ p <> q) by (destruct Pq as [D|[_ N]]; [destruct (Nat.eq_dec p q) as [->|]; auto|right; congruence]).
    destruct (proc_of s p) eqn:P; try (repeat split; auto; fail).
    + destruct Lp as (_ & Kp & _). destruct Np; congruence.
    + destruct Lp. discriminate.
  - repeat split; auto; intros p'; [intros t|]; intros P'; rewrite proc_set; destruct (Nat.eqb_spec p p') as [<-|]; auto.
Qed.
Lemma blocked_steps wq q ls : forall s, inv wq None s -> Forall (allowed wq None) ls -> rlock s = Some q ->
  (proc_of s q = Dead \/ Forall (fun l => l <> LStep q /\ l <> LTimeout q) ls) ->
  rlock (steps s ls) = Some q /\ got (steps s ls) = got s /\ late (steps s ls) = late s /\
  (forall p t, proc_of s p = GetWait t -> proc_of (steps s ls) p = GetWait t \/ In (LCrash p) ls).
Proof.
  induction ls as [|l ls IH]; intros s I F K Pq; [cbn; repeat split; auto|]. inversion F; subst.
  assert (Pl : passive q s l) by (destruct Pq as [|Pq]; [now left|inversion Pq; subst; now right]).
  destruct (blocked_step I H1 K Pl) as (a & b & c & d & e).
  assert (Pq' : proc_of (step s l) q = Dead \/ Forall (fun l => l <> LStep q /\ l <> LTimeout q) ls).
  { destruct Pq as [|Pq]; [left; auto|inversion Pq; subst; now right]. }
  destruct (IH (step s l) (inv_step _ I H1) H2 a Pq') as (a' & b' & c' & d'). cbn [steps fold_left]. unfold steps in *.
  rewrite a', b', c'. repeat split; auto. intros p t P. destruct (d p t P) as [P'| ->]; [|right; now left].
  destruct (d' p t P') as [|]; [auto|right; now right].
Qed.

(* A process that dies inside get, for instance a worker waiting for a task, takes the lock along: nothing is received
   any more, and every other call of get, with or without a time limit, waits until its process dies too. *)
Definition inside_get (x : proc) : Prop := match x with Polling _ | Reading _ _ => True | _ => False end.
Theorem C173_refuted : forall wq ls q ls', Forall (allowed wq None) ls -> Forall (allowed wq None) ls' ->
  inside_get (proc_of (run ls) q) ->
  let s := step (run ls) (LCrash q) in
  got (steps s ls') = got s /\ late (steps s ls') = late s /\
  forall p t, proc_of s p = GetWait t -> proc_of (steps s ls') p = GetWait t \/ In (LCrash p) ls'.
Proof.
  intros wq ls q ls' F F' G s. pose proof (inv_run F) as I.
  assert (K : rlock (run ls) = Some q).
  { destruct I as (w & c & _ & L & _). specialize (L q). unfold local in L. destruct (proc_of (run ls) q); try contradiction; tauto. }
  assert (Is : inv wq None s) by (apply inv_step; [exact I|exact Logic.I]).
  destruct (@blocked_steps wq q ls' s Is F') as (_ & b & c & d); [exact K| |auto].
  left. unfold s. cbn [step]. now rewrite proc_set, Nat.eqb_refl.
Qed.
Print Assumptions C173_refuted.

(* The same on the other side: a process that dies inside put, for instance a worker killed while it returns a result,
   leaves every other call of put waiting. *)
Lemma blocked_put_step rq s q l : inv None rq s -> allowed None rq l -> wlock s = Some q -> proc_of s q = Dead ->
  wlock (step s l) = Some q /\ sent (step s l) = sent s /\
  (forall p m, proc_of s p = PutWait m -> proc_of (step s l) p = PutWait m \/ l = LCrash p) /\
  (forall p, proc_of s p = Dead -> proc_of (step s l) p = Dead).
Proof.
  intros (w & c & _ & L & _) A K D.
  assert (B : forall s' p x, (forall q, proc_of s' q = if p =? q then x else proc_of s q) ->
     (forall m, proc_of s p = PutWait m -> False) -> proc_of s p <> Dead -> wlock s' = wlock s -> sent s' = sent s ->
     wlock s' = Some q /\ sent s' = sent s /\ (forall p' m, proc_of s p' = PutWait m -> proc_of s' p' = PutWait m \/ l = LCrash p') /\
     (forall p', proc_of s p' = Dead -> proc_of s' p' = Dead)).
  { intros s' p x P N Dp Kw Sn. split; [congruence|]. split; [exact Sn|].
    split; intros p'; [intros m|]; intros P'; rewrite P; destruct (Nat.eqb_spec p p') as [<-|]; auto; [destruct (N _ P')|contradiction]. }
  destruct l as [p m|p m|p t|p t|p|p|p]; cbn [step]; cbn [allowed] in A.
  - unfold begin. destruct (proc_of s p) eqn:P; try (repeat split; auto; fail).
    eapply B with (p := p); [intros; apply proc_set|congruence..|reflexivity|reflexivity].
  - discriminate.
  - unfold begin. destruct (proc_of s p) eqn:P; try (repeat split; auto; fail).
    eapply B with (p := p); [intros; apply proc_set|congruence..|reflexivity|reflexivity].
  - unfold begin. destruct (proc_of s p) eqn:P; try (repeat split; auto; fail).
    eapply B with (p := p); [intros; apply proc_set|congruence..|reflexivity|reflexivity].
  - pose proof (L p) as Lp. unfold local in Lp. unfold go.
    destruct (proc_of s p) eqn:P; try (repeat split; auto; fail).
    + rewrite K. repeat split; auto.
    + destruct Lp as (_ & Kp & _). congruence.
    + destruct Lp. discriminate.
    + destruct (rlock s); [repeat split; auto|]. eapply B with (p := p); [intros; rewrite proc_set; reflexivity|congruence..|reflexivity|reflexivity].
    + destruct (pipe s); [repeat split; auto|]. eapply B with (p := p); [intros; rewrite proc_set; reflexivity|congruence..|reflexivity|reflexivity].
    + destruct n; [|destruct (pipe s); [repeat split; auto|]];
        (eapply B with (p := p); [intros; rewrite proc_set; reflexivity|congruence..|reflexivity|reflexivity]).
    + destruct (pipe s); [repeat split; auto|]. eapply B with (p := p); [intros; rewrite proc_set; reflexivity|congruence..|reflexivity|reflexivity].
    + destruct n; [|destruct (pipe s); [repeat split; auto|]];
        (eapply B with (p := p); [intros; rewrite proc_set; reflexivity|congruence..|reflexivity|reflexivity]).
  - destruct (proc_of s p) eqn:P; try (repeat split; auto; fail); destruct timed, (pipe s); try (repeat split; auto; fail);
      (eapply B with (p := p); [intros; rewrite proc_set; reflexivity|congruence..|reflexivity|reflexivity]).
  - repeat split; auto; intros p'; [intros m|]; intros P'; rewrite proc_set; destruct (Nat.eqb_spec p p') as [<-|]; auto.
Qed.
Theorem C173_put_refuted : forall rq ls q ls' r, Forall (allowed None rq) ls -> Forall (allowed None rq) ls' ->
  proc_of (run ls) q = Putting r ->
  let s := step (run ls) (LCrash q) in
  sent (steps s ls') = sent s /\
  forall p m, proc_of s p = PutWait m -> proc_of (steps s ls') p = PutWait m \/ In (LCrash p) ls'.
Proof.
  intros rq ls q ls' r F F' G s. pose proof (inv_run F) as I.
  assert (K : wlock s = Some q).
  { destruct I as (w & c & _ & L & _). specialize (L q). unfold local in L. rewrite G in L. unfold s. cbn [step set_proc wlock]. tauto. }
  assert (Is : inv None rq s) by (apply inv_step; [exact I|exact Logic.I]).
  assert (D : proc_of s q = Dead) by (unfold s; cbn [step]; now rewrite proc_set, Nat.eqb_refl).
  clearbody s. clear G I F ls. revert s Is K D. induction F' as [|l ls A F' IH]; intros s Is K D; [cbn; auto|].
  destruct (blocked_put_step _ Is A K D) as (a & b & c & d). destruct (IH (step s l) (inv_step _ Is A) a (d q D)) as (b' & c').
  cbn [steps fold_left]. unfold steps in *. rewrite b'. split; [exact b|].
  intros p m P. destruct (c p m P) as [P'| ->]; [|right; now left]. destruct (c' p m P') as [|]; [auto|right; now right].
Qed.
Print Assumptions C173_put_refuted.

(* If no process dies while it holds a lock, that is, inside put or get (other than waiting for the lock there), then
   nothing is lost and the others can still receive everything. *)
Definition outside (x : proc) : Prop := match x with Idle | PutWait _ | GetWait _ | Dead => True | _ => False end.
Fixpoint harmless (s : st) (ls : list label) : Prop :=
  match ls with
  | [] => True
  | l :: r => match l with LCrash p => outside (proc_of s p) | _ => True end /\ harmless (step s l) r
  end.
Lemma held_harmless ls : forall s, held s -> harmless s ls -> held (steps s ls).
Proof.
  induction ls as [|l ls IH]; intros s H C; [exact H|]. destruct C as [C0 C]. cbn [steps fold_left]. apply IH; [|exact C].
  destruct l; try (apply held_step; [exact H|intros []]; fail).
  cbn [step]. eapply held_change with (p := p) (s := s); [intros q; rewrite proc_set; reflexivity|exact H| |];
    right; right; (split; [reflexivity|]); destruct (proc_of s p); try contradiction; reflexivity.
Qed.
Theorem C173_partial : forall ls, Forall (allowed None None) ls -> harmless init ls ->
  (forall p, proc_of (run ls) p = Idle \/ proc_of (run ls) p = Dead) ->
  exists rest, sent (run ls) = got (run ls) ++ rest /\ pipe (run ls) = frames rest /\
    forall m rest' p t, rest = m :: rest' -> proc_of (run ls) p = Idle ->
      got (steps (run ls) (LGet p t :: repeat (LStep p) (length m + 3))) = got (run ls) ++ [m].
Proof.
  intros ls F C Q. destruct (inv_run F) as (w & c & E & _ & W & R).
  assert (H : held (run ls)) by (apply held_harmless; [split; discriminate|exact C]). destruct H as [Hw Hr].
  set (s := run ls) in *.
  assert (Kw : wlock s = None). { destruct (wlock s) as [p|]; auto. specialize (Hw p eq_refl). destruct (Q p) as [X|X]; rewrite X in Hw; discriminate. }
  assert (Kr : rlock s = None). { destruct (rlock s) as [p|]; auto. specialize (Hr p eq_refl). destruct (Q p) as [X|X]; rewrite X in Hr; discriminate. }
  cbn [wclean rclean] in W, R. rewrite (W Kw), (R Kr) in E. cbn in E. rewrite app_nil_r in E.
  apply frames_prefix in E as (r & E & P). exists r. split; [exact E|]. split; [exact P|].
  intros m rest p t -> I. now apply get_one with (rest := frames rest).
Qed.
Print Assumptions C173_partial.

(* ---- C174: the time limit of get ---- *)
(* The time limit does not cover the wait for the lock: as long as another process stays inside get, the call neither
   returns nor raises TimeoutError. *)
Theorem C174_refuted : forall wq ls p q ls', Forall (allowed wq None) ls -> Forall (allowed wq None) ls' ->
  inside_get (proc_of (run ls) q) -> proc_of (run ls) p = GetWait true ->
  Forall (fun l => l <> LStep q /\ l <> LTimeout q) ls' -> ~ In (LCrash p) ls' ->
  proc_of (steps (run ls) ls') p = GetWait true /\ late (steps (run ls) ls') = late (run ls).
Proof.
  intros wq ls p q ls' F F' G P N C. pose proof (inv_run F) as I.
  assert (K : rlock (run ls) = Some q).
  { destruct I as (w & c & _ & L & _). specialize (L q). unfold local in L. destruct (proc_of (run ls) q); try contradiction; tauto. }
  destruct (@blocked_steps wq q ls' (run ls) I F' K (or_intror N)) as (_ & _ & c & d).
  split; [|exact c]. destruct (d p true P); [auto|contradiction].
Qed.
Print Assumptions C174_refuted.
(* Otherwise it does what it should: the lock being free and the queue staying empty, the call ends with TimeoutError,
   takes nothing and gives the lock back. quick_get always does. *)
Theorem C174_partial : forall s p, pipe s = [] ->
  (proc_of s p = Idle -> rlock s = None ->
     let s' := steps s [LGet p true; LStep p; LTimeout p] in
     late s' = late s ++ [p] /\ rlock s' = None /\ proc_of s' p = Idle /\ got s' = got s /\ pipe s' = []) /\
  (proc_of s p = Idle ->
     let s' := steps s [LQGet p true; LTimeout p] in
     late s' = late s ++ [p] /\ rlock s' = rlock s /\ proc_of s' p = Idle /\ got s' = got s /\ pipe s' = []).
Proof.
  intros s p E. split.
  - intros P K. cbn [steps fold_left step]. unfold begin. rewrite P.
    assert (G1 : go p (set_proc p (GetWait true) s) = set_proc p (Polling true) (set_rlock (Some p) (set_proc p (GetWait true) s))).
    { unfold go. rewrite proc_set, Nat.eqb_refl. cbn [set_proc rlock]. now rewrite K. }
    rewrite G1, proc_set, Nat.eqb_refl. set (s1 := set_proc p (Polling true) _). change (pipe s1) with (pipe s). rewrite E.
    split; [reflexivity|]. split; [reflexivity|]. split; [now rewrite proc_set, Nat.eqb_refl|]. split; [reflexivity|exact E].
  - intros P. cbn [steps fold_left step]. unfold begin. rewrite P, proc_set, Nat.eqb_refl. set (s1 := set_proc p (QPolling true) s).
    change (pipe s1) with (pipe s). rewrite E.
    split; [reflexivity|]. split; [reflexivity|]. split; [now rewrite proc_set, Nat.eqb_refl|]. split; [reflexivity|exact E].
Qed.
Print Assumptions C174_partial.

(* two workers and two senders; the messages of the senders are written symbol by symbol in between *)
Example C172_nonvacuous :
  let ls := [LGet 3 true; LPut 1 [7; 8]; LPut 2 [9]; LStep 1; LStep 3; LStep 1; LStep 2; LStep 3; LStep 1; LStep 1; LStep 3; LStep 3;
             LStep 1; LStep 2; LStep 3; LStep 2; LStep 2; LStep 2] in
  Forall (allowed None None) ls /\ sent (run ls) = [[7; 8]; [9]] /\ got (run ls) = [[7; 8]] /\ pipe (run ls) = [1; 9].
Proof. cbv zeta. split; [repeat constructor|]. vm_compute. auto. Qed.
(* worker 3 dies while it waits for a task, worker 4 never gets the one that comes *)
Example C173_nonvacuous :
  let s := run [LGet 3 false; LGet 4 true; LStep 3; LCrash 3; LPut 1 [5]; LStep 1; LStep 1; LStep 1; LStep 1; LStep 4; LTimeout 4; LStep 3] in
  pipe s = [1; 5] /\ got s = [] /\ proc_of s 4 = GetWait true /\ rlock s = Some 3.
Proof. vm_compute. auto. Qed.
Example C174_nonvacuous :
  let s := run [LGet 3 false; LGet 4 true; LStep 3; LTimeout 3; LStep 4; LTimeout 4; LStep 4] in
  proc_of s 4 = GetWait true /\ late s = [] /\ late (run [LGet 4 true; LStep 4; LTimeout 4]) = [4].
Proof. vm_compute. auto. Qed.
