(* C214 waiting for a video that is made by a process, C215 leaving the program without waiting. *)
From Verif Require Import Lib.Base Model.MediaProc.

(* the video is there: all frames of the call, and the file is closed *)
Definition complete {T} (frames : list T) (s : @mst T) : Prop := file s = frames /\ closed s = true.
Definition after_call {T} (bad : T -> bool) daemon frames ls : @mst T := mprun bad daemon (video_subproc frames) ls.

(* what is in the file, by the state of the child *)
Definition MI {T} (bad : T -> bool) (daemon : bool) (frames : list T) (s : @mst T) : Prop :=
  (forall y, In y (file s) -> bad y = false) /\
  match child s with
  | NoChild => frames = [] /\ file s = [] /\ closed s = false
  | Running todo => frames = file s ++ todo /\ frames <> [] /\ closed s = false /\ waited s = false /\ par s <> PExited
  | Done => frames = file s /\ frames <> [] /\ closed s = true
  | Failed => (exists x post, frames = file s ++ x :: post /\ bad x = true) /\ closed s = false
  | Killed => daemon = true /\ par s = PExited /\ waited s = false /\ closed s = false
  end.
Lemma MI_step {T} bad daemon frames (s : @mst T) l : MI bad daemon frames s -> MI bad daemon frames (mpstep bad daemon s l).
Proof.
  intros [G I]. destruct s as [m c f cl p w]. cbn in G. destruct l as [|i x| | |]; cbn [mpstep child par].
  - destruct c as [|[|x r]| | |]; cbn in *; try (split; [exact G|exact I]).
    + rewrite app_nil_r in I. split; cbn; auto. destruct I as (-> & N & _). auto.
    + destruct (bad x) eqn:B; split; cbn; auto.
      * destruct I as (-> & _ & -> & _). split; auto. exists x, r. auto.
      * intros y Y. apply in_app_or in Y as [Y|[<-|[]]]; auto.
      * rewrite <- app_assoc. exact I.
  - destruct p; try (split; [exact G|exact I]).
  - destruct p, c; cbn in *; split; cbn; intuition congruence.
  - destruct p, c; cbn in *; split; cbn; intuition congruence.
  - destruct p, c, daemon; cbn in *; split; cbn; intuition congruence.
Qed.
Lemma MI_run {T} bad daemon frames ls : forall s : @mst T, MI bad daemon frames s -> MI bad daemon frames (mprun bad daemon s ls).
Proof. induction ls as [|l ls IH]; cbn; intros s H; auto. apply IH, MI_step, H. Qed.
Lemma MI_call {T} bad daemon (frames : list T) : MI bad daemon frames (video_subproc frames).
Proof. destruct frames; split; cbn; auto; [intros y []|intros y []|]. repeat split; auto; discriminate. Qed.

(* When wait() has returned after a call with frames that can be encoded, the video is there, with the frames as they were
   at the call, whatever the caller has done with its list. *)
Theorem C214_partial : forall T (bad : T -> bool) daemon frames ls, frames <> [] -> (forall y, In y frames -> bad y = false) ->
  waited (after_call bad daemon frames ls) = true -> complete frames (after_call bad daemon frames ls).
Proof.
  intros T bad daemon frames ls N B W. unfold after_call in *. destruct (MI_run bad daemon frames ls _ (MI_call bad daemon frames)) as [G I].
  unfold complete. destruct (child _) as [|todo| | |].
  - destruct I as [I _]. contradiction.
  - destruct I as (_ & _ & _ & I & _). congruence.
  - destruct I as (I & _ & C). auto.
  - destruct I as [(x & post & E & X) _]. exfalso. rewrite (B x) in X; [discriminate|]. rewrite E. apply in_or_app. right. left. auto.
  - destruct I as (_ & _ & I & _). congruence.
Qed.
Print Assumptions C214_partial.

Lemma join_able {T} bad daemon todo : forall s : @mst T, child s = Running todo -> par s = PWaiting ->
  exists n, waited (mprun bad daemon s (repeat LChild n ++ [LJoin])) = true.
Proof.
  induction todo as [|x r IH]; intros [m c f cl p w] E P; cbn in E, P; subst c p.
  - exists 1. reflexivity.
  - destruct (bad x) eqn:B.
    + exists 1. cbn. rewrite B. reflexivity.
    + destruct (IH (MkMs m (Running r) (f ++ [x]) cl PWaiting w) eq_refl eq_refl) as [n E]. exists (S n).
      cbn. rewrite B. exact E.
Qed.
(* wait() can always return: it is not blocked by anything but the work of the child *)
Theorem C214_returns : forall T (bad : T -> bool) daemon frames ls,
  par (after_call bad daemon frames ls) = PWaiting ->
  exists ls', waited (after_call bad daemon frames (ls ++ ls')) = true.
Proof.
  intros T bad daemon frames ls P. unfold after_call, mprun in *. setoid_rewrite fold_left_app. fold (@mprun T bad daemon) in *.
  set (s := fold_left _ ls _) in *. destruct (child s) as [|todo| | |] eqn:C.
  2: destruct (join_able bad daemon todo s C P) as [n E]; exists (repeat LChild n ++ [LJoin]); exact E.
  all: exists [LJoin]; cbn; unfold mpstep; rewrite P, C; reflexivity.
Qed.
Print Assumptions C214_returns.

(* With a frame that cannot be encoded wait() returns in the same way, and what is there is the part before the frame, not
   closed: nothing tells the caller. With no frames it returns, and there is nothing. *)
Theorem C214_refuted : forall T (bad : T -> bool) daemon frames ls,
  (frames = [] \/ exists y, In y frames /\ bad y = true) ->
  let s := after_call bad daemon frames ls in
  ~ (complete frames s) /\
  (waited s = true -> frames = [] \/ exists x post, frames = file s ++ x :: post /\ bad x = true).
Proof.
  intros T bad daemon frames ls H s. unfold s, after_call. clear s. destruct (MI_run bad daemon frames ls _ (MI_call bad daemon frames)) as [G I].
  unfold complete. destruct (child _) as [|todo| | |].
  - destruct I as (I & _ & C). split; auto. intros [_ Q]. congruence.
  - destruct I as (_ & _ & C & W & _). split; [intros [_ Q]; congruence|]. intros Q. congruence.
  - exfalso. destruct I as (I & N & _). destruct H as [H|(y & Y & B)]; [contradiction|]. rewrite I in Y. rewrite (G y Y) in B. discriminate.
  - destruct I as [I C]. split; auto. intros [_ Q]. congruence.
  - destruct I as (_ & _ & W & C). split; [intros [_ Q]; congruence|]. intros Q. congruence.
Qed.
Print Assumptions C214_refuted.
Example C214_nonvacuous :
  let bad n := n =? 7 in
  let s := after_call bad true [1; 2; 3] [LChild; LSet 2 9; LChild; LWait; LJoin; LChild; LChild; LJoin] in
  let s' := after_call bad true [1; 7; 3] [LWait; LChild; LChild; LJoin] in
  (waited s = true /\ file s = [1; 2; 3] /\ mine s = [1; 2; 9] /\ closed s = true) /\
  (waited s' = true /\ par s' = PRun /\ file s' = [1] /\ closed s' = false).
Proof. vm_compute. auto 10. Qed.

(* a process that is not daemonic: the program ends after the video is there *)
Theorem C215_partial : forall T (bad : T -> bool) frames ls, frames <> [] -> (forall y, In y frames -> bad y = false) ->
  par (after_call bad false frames ls) = PExited -> complete frames (after_call bad false frames ls).
Proof.
  intros T bad frames ls N B P. unfold after_call in *. destruct (MI_run bad false frames ls _ (MI_call bad false frames)) as [G I].
  unfold complete. destruct (child _) as [|todo| | |].
  - destruct I as [I _]. contradiction.
  - destruct I as (_ & _ & _ & _ & I). contradiction.
  - destruct I as (I & _ & C). auto.
  - destruct I as [(x & post & E & X) _]. exfalso. rewrite (B x) in X; [discriminate|]. rewrite E. apply in_or_app. right. left. auto.
  - destruct I as (I & _). discriminate.
Qed.
Print Assumptions C215_partial.

Lemma mprun_app {T} bad d (s : @mst T) a b : mprun bad d s (a ++ b) = mprun bad d (mprun bad d s a) b.
Proof. apply fold_left_app. Qed.
Lemma write_k {T} (bad : T -> bool) k : forall m todo f cl p w, k <= length todo -> (forall y, In y todo -> bad y = false) ->
  mprun bad true (MkMs m (Running todo) f cl p w) (repeat LChild k) = MkMs m (Running (skipn k todo)) (f ++ firstn k todo) cl p w.
Proof.
  induction k as [|k IH]; intros m todo f cl p w L B; [cbn; now rewrite app_nil_r|].
  destruct todo as [|x r]; [cbn in L; lia|]. cbn [repeat mprun fold_left mpstep child set_child]. rewrite (B x (or_introl eq_refl)).
  cbn [mine file closed par waited]. fold (@mprun T bad true). etransitivity; [apply (IH m r (f ++ [x]) cl p w); [cbn in L; lia|intros y Y; apply B; right; auto]|].
  cbn. now rewrite <- app_assoc.
Qed.
Lemma killed_stays {T} bad (ls : list (@mlabel T)) : forall s, child s = Killed -> par s = PExited -> mprun bad true s ls = s.
Proof.
  induction ls as [|l ls IH]; cbn; intros s C P; auto. assert (E : mpstep bad true s l = s).
  { destruct l; unfold mpstep; rewrite ?C, ?P; reflexivity. }
  rewrite E. exact (IH s C P).
Qed.
(* the default is a daemonic process: for every number of frames there is an execution in which the program ends and
   exactly these frames are in a file that is never closed *)
Theorem C215_refuted : forall T (bad : T -> bool) frames k, frames <> [] -> (forall y, In y frames -> bad y = false) -> k <= length frames ->
  exists ls, par (after_call bad true frames ls) = PExited /\
    forall ls', file (after_call bad true frames (ls ++ ls')) = firstn k frames /\ closed (after_call bad true frames (ls ++ ls')) = false.
Proof.
  intros T bad frames k N B L. exists (repeat LChild k ++ [LExit; LExit]).
  assert (E : after_call bad true frames (repeat LChild k ++ [LExit; LExit]) = MkMs frames Killed (firstn k frames) false PExited false).
  { unfold after_call, video_subproc. destruct frames as [|x r]; [contradiction|]. rewrite mprun_app, write_k by auto. reflexivity. }
  split; [now rewrite E|]. intros ls'. unfold after_call in *. rewrite mprun_app, E, killed_stays by reflexivity. auto.
Qed.
Print Assumptions C215_refuted.
Example C215_nonvacuous :
  let run d := after_call (fun n => n =? 7) d [1; 2; 3] [LChild; LExit; LExit; LChild; LChild; LChild; LExit] in
  (par (run true) = PExited /\ file (run true) = [1] /\ closed (run true) = false) /\
  (par (run false) = PExited /\ file (run false) = [1; 2; 3] /\ closed (run false) = true).
Proof. vm_compute. auto 10. Qed.
