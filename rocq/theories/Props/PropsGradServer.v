(* C196 publication of the managed model by the gradient server; C197 stopping and restarting it. *)
From Verif Require Import Lib.Rat Model.Servers Spec.ServerSpec Proofs.ServerProofs Model.GradServer.
Open Scope nat_scope.
Set Implicit Arguments.

Section GradServer.
  Variables (P : Type) (opt : P -> gdict -> option P).
  Variables (m : rmethod) (bsz maxq primary depth : nat).
  Notation gx := (gx P).
  Notation xstep := (xstep opt m bsz maxq primary depth).
  Notation xrun := (xrun opt m bsz maxq primary depth).
  Notation redm s := (r_redm (x_g s primary)).

  (* the optimizer steps with one reduced gradient after the other *)
  Fixpoint steps (p : P) (l : list gdict) : option P :=
    match l with [] => Some p | d :: r => match opt p d with Some p' => steps p' r | None => None end end.
  Lemma steps_snoc l d : forall p, steps p (l ++ [d]) = match steps p l with Some q => opt q d | None => None end.
  Proof. induction l as [|x l IH]; intros p; cbn; [destruct (opt p d); auto|]. destruct (opt p x); auto. Qed.

  Lemma r_step_redm (g : gsys) i st j :
    r_redm (r_step m bsz maxq primary g i st j) = r_redm (g j) \/ (j = i /\ exists x, r_redm (r_step m bsz maxq primary g i st j) = r_redm (g j) ++ [x]).
  Proof.
    assert (S1 : forall r, r_redm r = r_redm (g i) -> r_redm (setr g i r j) = r_redm (g j)).
    { intros r E. unfold setr. destruct (Nat.eqb_spec j i); subst; auto. }
    unfold r_step. destruct (r_pc (g i)) eqn:Epc.
    - destruct (_ && _); [destruct st|]; left; try apply S1; reflexivity.
    - destruct (_ <? _); left; apply S1; reflexivity.
    - destruct (_ <? _); left; apply S1; reflexivity.
    - left; apply S1; reflexivity.
    - destruct (_ <? _).
      + destruct (q_items _); left; try apply S1; reflexivity.
      + destruct (reduce_batch m b) as [d|]; [|left; apply S1; reflexivity]. unfold setr. destruct (Nat.eqb_spec j i) as [->|]; [|auto].
        right. split; auto. eexists. reflexivity.
    - left; apply S1; reflexivity.
    - destruct (_ <? _).
      + destruct (q_items _); left; try apply S1; reflexivity.
      + destruct (reduce_batch m b) as [d|]; left; apply S1; reflexivity.
    - left. unfold setr at 1. destruct (Nat.eqb_spec j primary) as [->|]; [cbn [r_redm]|]; apply S1; reflexivity.
    - auto.
  Qed.

  Definition NoManage (l : xlabel P) : Prop := match l with XManage _ => False | _ => True end.

  (* how a step which is no manage_model changes what is published *)
  Inductive moved (s s' : gx) : Prop :=
  | MvSame : x_pub s' = x_pub s -> x_srv s' = x_srv s -> x_mod s' = x_mod s -> redm s' = redm s -> moved s s'
  | MvRed x : x_pub s' = x_pub s -> x_srv s' = x_srv s -> x_mod s' = x_mod s -> redm s' = redm s ++ [x] -> length (redm s) <= x_pub s -> moved s s'
  | MvPub b d p v p' : nth_error (redm s) (x_pub s) = Some (b, d) -> x_mod s = Some (p, v) -> opt p d = Some p' ->
      x_pub s' = S (x_pub s) -> x_srv s' = fst (os_push depth (x_srv s) 0 p' (v + 1) v) -> x_mod s' = Some (p', v + 1) -> redm s' = redm s -> moved s s'
  | MvNone : x_mod s = None -> x_pub s < length (redm s) -> x_pub s' = S (x_pub s) -> x_srv s' = x_srv s -> x_mod s' = None -> redm s' = redm s -> moved s s'.
  Lemma xstep_moved s l : NoManage l -> moved s (xstep s l).
  Proof.
    intros N. destruct l as [i g|i|p|i|i|i]; cbn [GradServer.xstep]; try contradiction.
    - apply MvSame; try reflexivity. cbn. unfold c_push, setr. destruct (Nat.eqb_spec primary i); subst; reflexivity.
    - unfold thread. destruct (_ || _); [apply MvSame; reflexivity|]. destruct (unpublished primary s i) eqn:U.
      + unfold unpublished in U. apply andb_prop in U as [U1 U2]. apply Nat.eqb_eq in U1. apply Nat.ltb_lt in U2.
        unfold publish. destruct (nth_error (redm s) (x_pub s)) as [[b d]|] eqn:E; [|apply nth_error_None in E; lia].
        destruct (x_mod s) as [[p v]|] eqn:M; [|apply MvNone; auto].
        destruct (opt p d) as [p'|] eqn:O.
        * destruct (os_push depth (x_srv s) 0 p' (v + 1) v) as [srv a] eqn:Q. eapply MvPub; eauto. cbn. now rewrite Q.
        * apply MvSame; auto. cbn. unfold setr. now rewrite Nat.eqb_refl.
      + destruct (r_step_redm (x_g s) i (x_stop s i) primary) as [E|[Ei (x & E)]]; [apply MvSame; auto|].
        eapply MvRed; [reflexivity..|exact E|]. unfold unpublished in U. rewrite <- Ei, Nat.eqb_refl in U. cbn in U. apply Nat.ltb_ge in U. exact U.
    - apply MvSame; reflexivity.
    - destruct (x_on s i); apply MvSame; reflexivity.
    - destruct (dead _); apply MvSame; reflexivity.
  Qed.

  Definition Pub (p0 : P) (s : gx) : Prop :=
    x_pub s <= length (redm s) <= S (x_pub s) /\
    exists p log, steps p0 (map snd (firstn (x_pub s) (redm s))) = Some p /\ x_mod s = Some (p, x_pub s) /\
      OInv depth (x_srv s) (oneL log) /\ map fst log = seq 1 (length log) /\ length log = x_pub s /\
      (forall w q, newest_of log = Some (w, q) -> q = p).
  Lemma Pub_step p0 s s' : Pub p0 s -> moved s s' -> Pub p0 s'.
  Proof.
    intros (B & p & log & St & Mo & O & V & L & Nw) Mv.
    destruct Mv as [E1 E2 E3 E4|x E1 E2 E3 E4 Le|b d q v p' En Em Eo E1 E2 E3 E4|Em Lt E1 E2 E3 E4].
    - split; [rewrite E1, E4; exact B|]. exists p, log. rewrite E1, E2, E3, E4. auto 10.
    - split; [rewrite E1, E4, app_length; cbn; lia|]. exists p, log. rewrite E1, E2, E3, E4.
      rewrite firstn_app. replace (x_pub s - length (redm s)) with 0 by lia. cbn [firstn]. rewrite app_nil_r. auto 10.
    - rewrite Em in Mo. injection Mo as -> ->. assert (Lt : x_pub s < length (redm s)) by (apply nth_error_Some; congruence).
      split; [rewrite E1, E4; lia|]. exists p', (log ++ [(x_pub s + 1, p')]). rewrite E1, E2, E3, E4.
      assert (Fs : firstn (S (x_pub s)) (redm s) = firstn (x_pub s) (redm s) ++ [(b, d)]).
      { clear -En. revert En. generalize (x_pub s). induction (redm s) as [|y l IH]; intros [|k] E; cbn in *; try discriminate; [now injection E as ->|]. now rewrite IH. }
      rewrite Fs, map_app. cbn [map snd]. rewrite steps_snoc, St. split; [exact Eo|]. split; [f_equal; f_equal; lia|].
      destruct (@os_push_one _ depth (x_srv s) log p' (x_pub s) O V) as (srv' & [(Q & Q1 & _)|(Z & Z')]).
      + rewrite Q. cbn [fst]. split; [apply Q1; auto|]. split.
        * rewrite map_app, app_length, V. cbn. rewrite seq_app. cbn. repeat f_equal. lia.
        * split; [rewrite app_length; cbn; lia|]. intros w x. rewrite newest_snoc. congruence.
      + subst log. cbn in L. lia.
    - congruence.
  Qed.
  Lemma Pub_run p0 ls : forall s, Pub p0 s -> Forall NoManage ls -> Pub p0 (xrun s ls).
  Proof.
    induction ls as [|l ls IH]; intros s I N; cbn [GradServer.xrun fold_left]; auto. inversion N; subst. apply IH; auto.
    eapply Pub_step; [exact I|]. now apply xstep_moved.
  Qed.
  Lemma Pub_init p0 : Pub p0 (xstep (xinit P) (XManage p0)).
  Proof.
    split; [cbn; lia|]. exists p0, []. cbn. split; [reflexivity|]. split; [reflexivity|]. split.
    - intros k. split; [unfold oneL; destruct (k =? 0); constructor|]. cbn. unfold oneL. now destruct (k =? 0).
    - repeat split; auto. discriminate.
  Qed.

  (* A model managed from the beginning: whatever is pushed and in whatever order the threads run, a client's pull
     gives the parameters after all optimizer steps made so far, one for each reduction of the primary in order, with
     their number as version; the primary does not reduce again before it has published. *)
  Theorem C196_published : forall p0 ls, Forall NoManage ls ->
    let s := xrun (xinit P) (XManage p0 :: ls) in
    (exists p, steps p0 (map snd (firstn (x_pub s) (redm s))) = Some p /\
       pull s = Ok (if x_pub s =? 0 then None else Some (p, x_pub s))) /\
    x_pub s <= length (redm s) <= S (x_pub s).
  Proof.
    intros p0 ls N s. assert (I : Pub p0 s) by (exact (Pub_run (Pub_init p0) N)).
    destruct I as (B & p & log & St & Mo & O & V & L & Nw). split; [|exact B]. exists p. split; [exact St|].
    unfold pull. rewrite (os_pull_one O V). pose proof (versions_newest _ V) as VN. destruct (newest_of log) as [[w q]|] eqn:E.
    - destruct VN as [-> NL]. rewrite (Nw _ _ eq_refl), L. destruct (Nat.eqb_spec (x_pub s) 0) as [Z|]; [|reflexivity].
      exfalso. rewrite Z in L. destruct log; [congruence|discriminate].
    - subst log. cbn [length] in L. rewrite <- L. reflexivity.
  Qed.
  (* what is published is never taken back *)
  Theorem C196_monotone : forall s ls, Forall NoManage ls -> x_pub s <= x_pub (xrun s ls).
  Proof.
    intros s ls N. revert s. induction N as [|l ls Nl N IH]; intros s; cbn [GradServer.xrun fold_left]; auto.
    etransitivity; [|apply IH]. destruct (xstep_moved s l Nl); lia.
  Qed.
  (* Managing another model after n publications: its first n steps are refused by the server, unnoticed, and clients
     keep getting the old parameters. *)
  Theorem C196_remanaged : forall p0 ls p ls', Forall NoManage ls -> Forall NoManage ls' ->
    let s := xrun (xinit P) (XManage p0 :: ls) in let s' := xrun s (XManage p :: ls') in
    x_pub s' <= x_pub s + x_pub s -> pull s' = pull s.
  Proof.
    intros p0 ls p ls' N N' s s' Le. assert (I : Pub p0 s) by (exact (Pub_run (Pub_init p0) N)).
    destruct I as (B & q & log & St & Mo & O & V & L & Nw).
    assert (G : forall t, (exists q', x_mod t = Some (q', x_pub t - x_pub s)) /\ x_pub s <= x_pub t /\ x_srv t = x_srv s ->
       forall l, Forall NoManage l -> x_pub (xrun t l) <= x_pub s + x_pub s -> x_srv (xrun t l) = x_srv s).
    { intros t I l Nl. revert t I. induction Nl as [|a l Na Nl IH]; intros t ((q' & E1) & E2 & E3) Hl; cbn [GradServer.xrun fold_left] in *; [exact E3|].
      assert (Mn : x_pub (xstep t a) <= x_pub s + x_pub s) by (etransitivity; [apply (C196_monotone _ Nl)|exact Hl]).
      apply IH; auto. destruct (xstep_moved t a Na) as [M1 M2 M3 M4|x M1 M2 M3 M4 _|b d q0 v q1 En Em Eo M1 M2 M3 M4|Em Lt M1 M2 M3 M4].
      - rewrite M1, M2, M3. eauto.
      - rewrite M1, M2, M3. eauto.
      - rewrite E1 in Em. injection Em as -> <-. rewrite M1, M2, M3, E3. split; [exists q1; f_equal; f_equal; lia|]. split; [lia|].
        destruct (@os_push_one _ depth (x_srv s) log q1 (x_pub t - x_pub s) O V) as (srv' & [(Q & _ & Q1)|(Z & Z')]).
        + rewrite Q. cbn [fst]. apply Q1; [lia|]. intros ->. cbn in L. lia.
        + subst log. cbn in L. lia.
      - congruence. }
    unfold pull. unfold s'. cbn [GradServer.xrun fold_left]. fold (xrun (xstep s (XManage p)) ls'). rewrite (G _) with (l := ls'); auto.
    cbn. split; [exists p; f_equal; f_equal; lia|auto].
  Qed.

  (* ---------------- stopping ---------------- *)
  Definition ssz (r : reducer) := length (q_items (r_s r)).
  Definition msz (r : reducer) := length (q_items (r_m r)).
  (* a batch is only begun when all of it is there *)
  Definition GI (r : reducer) : Prop :=
    match r_pc r with PGetM b => bsz <= length b + msz r | PGetS b => bsz <= length b + ssz r | _ => True end.
  Lemma GI_more r r' : GI r -> r_pc r' = r_pc r -> msz r <= msz r' -> ssz r <= ssz r' -> GI r'.
  Proof. unfold GI. intros G -> A B. destruct (r_pc r); auto; lia. Qed.
  Lemma GI_setr (g : gsys) i r : (forall j, GI (g j)) -> GI r -> forall j, GI (setr g i r j).
  Proof. intros G R j. unfold setr. destruct (j =? i); auto. Qed.
  Lemma GI_rstep (g : gsys) i st : (forall j, GI (g j)) -> forall j, GI (r_step m bsz maxq primary g i st j).
  Proof.
    intros G. pose proof (G i) as Gi. unfold r_step. unfold GI in Gi.
    destruct (r_pc (g i)) eqn:Epc.
    - destruct (_ && _); [destruct st|]; auto; apply GI_setr; auto; exact I.
    - destruct (_ <? _); apply GI_setr; auto; exact I.
    - destruct (_ <? _); apply GI_setr; auto; exact I.
    - apply GI_setr; auto. destruct (bsz <=? qsize (r_m (g i))) eqn:Q; cbn; [|exact I]. apply Nat.leb_le in Q. exact Q.
    - destruct (length b <? bsz) eqn:Lb.
      + destruct (q_items (r_m (g i))) as [|x q] eqn:Q; auto. apply GI_setr; auto. unfold GI, msz, q_take in *. cbn. rewrite Q in *. cbn in *. rewrite app_length. cbn. lia.
      + destruct (reduce_batch m b); apply GI_setr; auto; exact I.
    - apply GI_setr; auto. destruct (bsz <=? qsize (r_s (g i))) eqn:Q; cbn; [|exact I]. apply Nat.leb_le in Q. exact Q.
    - destruct (length b <? bsz) eqn:Lb.
      + destruct (q_items (r_s (g i))) as [|x q] eqn:Q; auto. apply GI_setr; auto. unfold GI, ssz, q_take in *. cbn. rewrite Q in *. cbn in *. rewrite app_length. cbn. lia.
      + destruct (reduce_batch m b); apply GI_setr; auto; exact I.
    - set (r0 := MkR (r_m (g i)) (r_s (g i)) PWait (r_redm (g i)) (r_reds (g i))).
      assert (G0 : forall j, GI (setr g i r0 j)) by (apply GI_setr; auto; exact I).
      apply GI_setr; [exact G0|]. eapply GI_more; [apply (G0 primary)|reflexivity| |reflexivity].
      unfold msz. cbn. rewrite app_length. lia.
    - auto.
  Qed.
  Lemma GI_xstep s l : (forall j, GI (x_g s j)) -> forall j, GI (x_g (xstep s l) j).
  Proof.
    intros G. destruct l as [i g|i|p|i|i|i]; cbn [GradServer.xstep]; auto.
    - cbn. unfold c_push. apply GI_setr; auto. eapply GI_more; [apply (G i)|reflexivity|reflexivity|]. unfold ssz. cbn. rewrite app_length. lia.
    - unfold thread. destruct (_ || _); auto. destruct (unpublished primary s i).
      + unfold publish. destruct (nth_error _ _) as [[b d]|]; auto. destruct (x_mod s) as [[p v]|]; auto.
        destruct (opt p d) as [p'|]; [destruct (os_push _ _ _ _ _ _); auto|]. cbn. apply GI_setr; auto. exact I.
      + cbn. apply GI_rstep; auto.
    - destruct (x_on s i); auto.
    - destruct (dead _); auto.
  Qed.
  Lemma GI_run ls : forall s, (forall j, GI (x_g s j)) -> forall j, GI (x_g (xrun s ls) j).
  Proof. induction ls as [|l ls IH]; intros s G; cbn [GradServer.xrun fold_left]; auto. apply IH. now apply GI_xstep. Qed.

  Definition total (r : reducer) : nat :=
    2 * ssz r + msz r + match r_pc r with PGetS b => 2 * length b | PGetM b => length b | PSend _ => 2 | _ => 0 end.
  Definition bonus (r : reducer) : nat :=
    match r_pc r with
    | PDiscM | PDiscS | PChkM => if (msz r <? bsz) && (ssz r <? bsz) then 1 else 0
    | PChkS => if ssz r <? bsz then 1 else 0
    | _ => 0 end.
  Definition rank (r : reducer) : nat :=
    match r_pc r with
    | PWait => 6 + bsz | PDiscM => 5 + bsz | PDiscS => 4 + bsz | PChkM => 3 + bsz | PChkS => 2 + bsz
    | PGetM b | PGetS b => 1 + (bsz - length b) | _ => 0 end.
  Definition cost (r : reducer) : nat := (2 * total r + bonus r) * (2 * bsz + 14) + 2 * rank r.
  Definition effort (s : gx) (i : nat) : nat := cost (x_g s i) + (length (redm s) - x_pub s).

  Lemma lex a b k x y : a < b -> x < k -> a * k + x < b * k + y.
  Proof. intros A X. assert (S a * k <= b * k) by (apply Nat.mul_le_mono_r; lia). cbn in *. lia. Qed.
  Lemma lexe a b k x y : a <= b -> x < y -> a * k + x < b * k + y.
  Proof. intros A X. assert (a * k <= b * k) by (apply Nat.mul_le_mono_r; lia). lia. Qed.
  Lemma bonus_le r : bonus r <= 1.
  Proof. unfold bonus. destruct (r_pc r); try destruct (_ <? _); try destruct (_ <? _); cbn; lia. Qed.
  Lemma rank_le r : rank r <= 6 + bsz.
  Proof. unfold rank. destruct (r_pc r); lia. Qed.
  Lemma cost_less r r' : total r' < total r -> cost r' + 1 < cost r \/ cost r' + 1 = cost r /\ False.
  Proof.
    intros Lt. left. unfold cost. pose proof (bonus_le r'). pose proof (rank_le r').
    assert (2 * total r' + bonus r' < 2 * total r + bonus r) by lia.
    pose proof (@lex (2 * total r' + bonus r') (2 * total r + bonus r) (2 * bsz + 14) (2 * rank r' + 1) (2 * rank r)). lia.
  Qed.
  Lemma cost_rank r r' : total r' <= total r -> bonus r' <= bonus r -> rank r' < rank r -> cost r' < cost r.
  Proof.
    intros A B C. unfold cost. apply lexe; lia.
  Qed.

  Lemma len_redm_other (g : gsys) i st : i <> primary -> length (r_redm (r_step m bsz maxq primary g i st primary)) = length (r_redm (g primary)).
  Proof. intros N. destruct (r_step_redm g i st primary) as [->|[E _]]; congruence. Qed.

  (* one step of a running thread which has been told to stop: it ends, or there is less left to do *)
  Lemma rstep_less (g : gsys) i : 0 < bsz -> GI (g i) -> dead (g i) = false ->
    let g' := r_step m bsz maxq primary g i true in
    dead (g' i) = true \/ cost (g' i) + (length (r_redm (g' primary)) - length (r_redm (g primary))) < cost (g i).
  Proof.
    intros B G D g'.
    assert (Same : forall r, g' = setr g i r -> r_redm r = r_redm (g i) -> (dead r = true \/ cost r < cost (g i)) ->
      dead (g' i) = true \/ cost (g' i) + (length (r_redm (g' primary)) - length (r_redm (g primary))) < cost (g i)).
    { intros r -> E [H|H]; [left|right]; unfold setr at 1; rewrite Nat.eqb_refl; auto.
      unfold setr. destruct (Nat.eqb_spec primary i) as [Ei|]; [rewrite E, Ei|]; lia. }
    subst g'. unfold r_step in *. unfold GI in G. unfold dead in D. unfold qsize in *.
    destruct (r_pc (g i)) eqn:Epc; try discriminate D.
    - destruct ((length (q_items (r_m (g i))) <? bsz) && (length (q_items (r_s (g i))) <? bsz)) eqn:Q.
      + eapply Same; [reflexivity|reflexivity|]. left. reflexivity.
      + eapply Same; [reflexivity|reflexivity|]. right. apply cost_rank; unfold total, bonus, rank, msz, ssz; cbn [r_pc r_m r_s]; rewrite Epc; [lia| |lia]. rewrite Q. lia.
    - destruct (Nat.ltb_spec maxq (length (q_items (r_m (g i))))) as [Q|Q].
      + eapply Same; [reflexivity|reflexivity|]. right. destruct (@cost_less (g i) (MkR (q_take (r_m (g i)) FDiscard) (r_s (g i)) PDiscM (r_redm (g i)) (r_reds (g i)))) as [|[_ []]]; [|lia].
        unfold total, msz, ssz, q_take. rewrite Epc. cbn. destruct (q_items (r_m (g i))) eqn:E; cbn in *; [lia|]. rewrite ?E. cbn. lia.
      + eapply Same; [reflexivity|reflexivity|]. right. apply cost_rank; unfold total, bonus, rank, msz, ssz; cbn [r_pc r_m r_s]; rewrite Epc; lia.
    - destruct (Nat.ltb_spec maxq (length (q_items (r_s (g i))))) as [Q|Q].
      + eapply Same; [reflexivity|reflexivity|]. right. destruct (@cost_less (g i) (MkR (r_m (g i)) (q_take (r_s (g i)) FDiscard) PDiscS (r_redm (g i)) (r_reds (g i)))) as [|[_ []]]; [|lia].
        unfold total, msz, ssz, q_take. rewrite Epc. cbn. destruct (q_items (r_s (g i))) eqn:E; cbn in *; [lia|]. rewrite ?E. cbn. lia.
      + eapply Same; [reflexivity|reflexivity|]. right. apply cost_rank; unfold total, bonus, rank, msz, ssz; cbn [r_pc r_m r_s]; rewrite Epc; lia.
    - destruct (Nat.leb_spec bsz (length (q_items (r_m (g i))))) as [Q|Q]; (eapply Same; [reflexivity|reflexivity|]); right;
        apply cost_rank; unfold total, bonus, rank, msz, ssz; cbn [r_pc r_m r_s length]; rewrite Epc;
        repeat match goal with |- context [?a <? ?b] => destruct (Nat.ltb_spec a b) end; cbn [andb]; lia.
    - destruct (Nat.ltb_spec (length b) bsz) as [Lb|Lb].
      + unfold msz in G. destruct (q_items (r_m (g i))) as [|x q] eqn:Q; [cbn in G; lia|].
        eapply Same; [reflexivity|reflexivity|]. right. apply cost_rank; unfold total, bonus, rank, msz, ssz, q_take; cbn; rewrite Epc, ?Q; cbn; rewrite ?app_length; cbn; lia.
      + destruct (reduce_batch m b) as [d|]; [|eapply Same; [reflexivity|reflexivity|]; left; reflexivity].
        right. set (r' := MkR (q_next (r_m (g i))) (r_s (g i)) PChkS (r_redm (g i) ++ [(b, d)]) (r_reds (g i))).
        assert (C : cost r' + 1 < cost (g i)).
        { destruct (@cost_less (g i) r') as [|[_ []]]; auto. unfold total, msz, ssz, r'. rewrite Epc. cbn. lia. }
        assert (L : length (r_redm (setr g i r' primary)) <= length (r_redm (g primary)) + 1).
        { unfold setr. destruct (Nat.eqb_spec primary i) as [Ei|]; [|lia]. unfold r'. cbn. rewrite app_length, Ei. cbn. lia. }
        unfold setr at 1. rewrite Nat.eqb_refl. lia.
    - destruct (Nat.leb_spec bsz (length (q_items (r_s (g i))))) as [Q|Q]; (eapply Same; [reflexivity|reflexivity|]); right.
      + apply cost_rank; unfold total, bonus, rank, msz, ssz; cbn [r_pc r_m r_s length]; rewrite Epc; lia.
      + unfold cost. replace (total _) with (total (g i)) by (unfold total, msz, ssz; cbn; now rewrite Epc).
        replace (bonus (g i)) with 1 by (unfold bonus, ssz; rewrite Epc; destruct (Nat.ltb_spec (length (q_items (r_s (g i)))) bsz); lia).
        apply lex; [cbn; lia|cbn; lia].
    - destruct (Nat.ltb_spec (length b) bsz) as [Lb|Lb].
      + unfold ssz in G. destruct (q_items (r_s (g i))) as [|x q] eqn:Q; [cbn in G; lia|].
        eapply Same; [reflexivity|reflexivity|]. right. apply cost_rank; unfold total, bonus, rank, msz, ssz, q_take; cbn; rewrite Epc, ?Q; cbn; rewrite ?app_length; cbn; lia.
      + destruct (reduce_batch m b) as [d|]; (eapply Same; [reflexivity|reflexivity|]); [right|left; reflexivity].
        apply cost_rank; unfold total, bonus, rank, msz, ssz, q_next; cbn [r_pc r_m r_s q_items]; rewrite Epc; lia.
    - right. set (r0 := MkR (r_m (g i)) (r_s (g i)) PWait (r_redm (g i)) (r_reds (g i))).
      set (p0 := setr g i r0 primary). set (r1 := MkR (q_put (r_m p0) r) (r_s p0) (r_pc p0) (r_redm p0) (r_reds p0)).
      assert (L : r_redm (setr (setr g i r0) primary r1 primary) = r_redm (g primary)).
      { unfold setr at 1. rewrite Nat.eqb_refl. unfold r1, p0. cbn. unfold setr. destruct (Nat.eqb_spec primary i) as [<-|]; reflexivity. }
      rewrite L, Nat.sub_diag, Nat.add_0_r.
      destruct (@cost_less (g i) (setr (setr g i r0) primary r1 i)) as [|[_ []]]; [|lia].
      unfold setr at 1. destruct (Nat.eqb_spec i primary) as [Ei|Ei].
      + assert (E0 : p0 = r0) by (unfold p0, setr; now rewrite Ei, Nat.eqb_refl). unfold r1. rewrite E0. unfold r0, total, msz, ssz. cbn. rewrite Epc, app_length. cbn. lia.
      + unfold setr. rewrite Nat.eqb_refl. unfold r0, total, msz, ssz. cbn. rewrite Epc. lia.
  Qed.

  Lemma thread_less (s : gx) i : 0 < bsz -> (forall j, GI (x_g s j)) -> x_on s i = true -> x_stop s i = true -> dead (x_g s i) = false ->
    let s' := xstep s (XThread P i) in
    x_on s' i = true /\ x_stop s' i = true /\ (dead (x_g s' i) = true \/ effort s' i < effort s i).
  Proof.
    intros B G On St D s'. subst s'. cbn [GradServer.xstep]. unfold thread. rewrite On, D. cbn [negb orb].
    destruct (unpublished primary s i) eqn:U.
    - unfold unpublished in U. apply andb_prop in U as [U1 U2]. apply Nat.eqb_eq in U1. apply Nat.ltb_lt in U2.
      unfold publish. destruct (nth_error (redm s) (x_pub s)) as [[b d]|] eqn:E.
      2: { cbn. repeat split; auto. right. unfold effort. cbn. lia. }
      destruct (x_mod s) as [[p v]|].
      2: { cbn. repeat split; auto. right. unfold effort. cbn. lia. }
      destruct (opt p d) as [p'|].
      + destruct (os_push _ _ _ _ _ _). cbn. repeat split; auto. right. unfold effort. cbn. lia.
      + cbn. repeat split; auto. left. unfold setr. rewrite U1, Nat.eqb_refl. reflexivity.
    - split; [exact On|]. split; [exact St|]. rewrite St. destruct (@rstep_less (x_g s) i B (G i) D) as [H|H]; [left; exact H|right].
      unfold effort. cbn [x_g x_pub set_g].
      assert (length (redm s) <= x_pub s \/ i <> primary).
      { unfold unpublished in U. destruct (Nat.eqb_spec i primary); [left|right; auto]. cbn in U. apply Nat.ltb_ge in U. exact U. }
      cbn zeta in H. destruct H0 as [H0|H0]; [lia|]. pose proof (len_redm_other (x_g s) true H0). lia.
  Qed.

  (* A stopped process gets to the end of its thread, by its own steps alone, from every state that can be reached. *)
  Theorem C197_partial : forall ls i, 0 < bsz -> let s := xrun (xinit P) ls in x_on s i = true -> x_stop s i = true ->
    exists k, let s' := xrun s (repeat (XThread P i) k) in
      dead (x_g s' i) = true /\ x_stop (xstep s' (XJoined P i)) i = false.
  Proof.
    intros ls i B s On St. assert (G : forall j, GI (x_g s j)) by (apply GI_run; intros j; exact I).
    clearbody s. remember (effort s i) as n eqn:En. revert s G On St En.
    induction n as [n IH] using lt_wf_ind. intros s G On St ->.
    destruct (dead (x_g s i)) eqn:D.
    - exists 0. cbn. rewrite D. split; auto. cbn. unfold fset. now rewrite Nat.eqb_refl.
    - destruct (@thread_less s i B G On St D) as (On' & St' & [D'|Lt]).
      + exists 1. cbn [repeat GradServer.xrun fold_left]. split; auto. cbn [GradServer.xstep] in *. rewrite D'. cbn. unfold fset. now rewrite Nat.eqb_refl.
      + destruct (IH _ Lt _ (GI_xstep _ _ G) On' St' eq_refl) as (k & H). exists (S k). exact H.
  Qed.

  (* ---------------- starting again ---------------- *)
  (* the gradients pushed to process i *)
  Fixpoint sent (i : nat) (ls : list (xlabel P)) : list gdict :=
    match ls with [] => [] | @XPush _ j g :: r => if j =? i then g :: sent i r else sent i r | _ :: r => sent i r end.
  Lemma rstep_other (g : gsys) i st j : i <> j -> let r := r_step m bsz maxq primary g i st j in
    r_pc r = r_pc (g j) /\ r_s r = r_s (g j) /\ r_redm r = r_redm (g j) /\ r_reds r = r_reds (g j) /\ q_out (r_m r) = q_out (r_m (g j)).
  Proof.
    intros N. assert (S1 : forall r, setr g i r j = g j) by (intros r; unfold setr; destruct (Nat.eqb_spec j i); congruence).
    unfold r_step. destruct (r_pc (g i)) eqn:Epc;
      [destruct (_ && _)|destruct (_ <? _)|destruct (_ <? _)| |destruct (_ <? _); [destruct (q_items _)|destruct (reduce_batch _ _)]| |
       destruct (_ <? _); [destruct (q_items _)|destruct (reduce_batch _ _)]| |]; [destruct st|..]; cbn zeta; rewrite ?S1; auto 10.
    set (g1 := setr g i _). assert (J : g1 j = g j) by apply S1. clearbody g1.
    unfold setr; destruct (Nat.eqb_spec j primary) as [Ej|]; rewrite <- ?Ej; cbn; rewrite ?J; auto 10.
  Qed.
  (* Once the thread of a process has ended (this is when stop() returns), nothing brings it back: whatever is called
     afterwards, start() included, gradients pushed to the process stay in its queue and are never reduced. *)
  Theorem C197_refuted : forall ls s i, dead (x_g s i) = true ->
    let r := x_g s i in let r' := x_g (xrun s ls) i in
    dead r' = true /\ q_items (r_s r') = q_items (r_s r) ++ sent i ls /\
    r_reds r' = r_reds r /\ r_redm r' = r_redm r /\ q_out (r_s r') = q_out (r_s r) /\ q_out (r_m r') = q_out (r_m r).
  Proof.
    induction ls as [|l ls IH]; intros s i D; [cbn; rewrite app_nil_r; auto 10|].
    cbn zeta. change (xrun s (l :: ls)) with (xrun (xstep s l) ls).
    assert (H : dead (x_g (xstep s l) i) = true /\ q_items (r_s (x_g (xstep s l) i)) ++ sent i ls = q_items (r_s (x_g s i)) ++ sent i (l :: ls) /\
      r_reds (x_g (xstep s l) i) = r_reds (x_g s i) /\ r_redm (x_g (xstep s l) i) = r_redm (x_g s i) /\
      q_out (r_s (x_g (xstep s l) i)) = q_out (r_s (x_g s i)) /\ q_out (r_m (x_g (xstep s l) i)) = q_out (r_m (x_g s i))).
    { destruct l as [j g|j|p|j|j|j]; cbn [GradServer.xstep sent].
      - cbn. unfold c_push, setr. rewrite (Nat.eqb_sym j i). destruct (Nat.eqb_spec i j) as [<-|]; [|auto 10]. cbn. rewrite <- app_assoc. auto 10.
      - unfold thread. destruct (Nat.eq_dec j i) as [->|N]; [rewrite D, orb_true_r; auto 10|]. destruct (_ || _); [auto 10|].
        destruct (unpublished primary s j) eqn:U.
        + unfold publish. destruct (nth_error _ _) as [[b d]|]; [|auto 10]. destruct (x_mod s) as [[p v]|]; [|auto 10].
          destruct (opt p d) as [p'|]; [destruct (os_push _ _ _ _ _ _); auto 10|]. cbn. unfold setr.
          apply andb_prop in U as [U _]. apply Nat.eqb_eq in U. destruct (Nat.eqb_spec i primary); [congruence|auto 10].
        + cbn [x_g set_g]. destruct (@rstep_other (x_g s) j (x_stop s j) i N) as (E1 & E2 & E3 & E4 & E5). unfold dead in *. rewrite E1, E2, E3, E4, E5. auto 10.
      - auto 10.
      - auto 10.
      - destruct (x_on s j); auto 10.
      - destruct (dead (x_g s j)); auto 10. }
    destruct H as (H1 & H2 & H3 & H4 & H5 & H6). destruct (IH _ _ H1) as (K1 & K2 & K3 & K4 & K5 & K6). rewrite K2, K3, K4, K5, K6. auto 10.
  Qed.
End GradServer.
Print Assumptions C196_published.
Print Assumptions C196_monotone.
Print Assumptions C196_remanaged.
Print Assumptions C197_partial.
Print Assumptions C197_refuted.

(* the parameters are one tensor; a step adds the reduced gradient of parameter 0 to it *)
Definition add_step (p : tensor) (d : gdict) : option tensor :=
  match d with (0, t) :: _ => Some (tadd p t) | _ => None end.
Example C196_nonvacuous :
  let g x : gdict := [(0, [nq x; nq 1])] in
  let T i n := repeat (XThread tensor i) n in
  let push l := map (fun x => XPush tensor 1 (g x)) l in
  let run := xrun add_step RSum 2 4 0 3 in
  let s := run (xinit tensor) ([XManage [nq 0; nq 0]; XStart _ 0; XStart _ 1] ++ push [1; 2; 3; 4] ++ T 1 40 ++ T 0 40) in
  let s2 := run s (push [5; 6; 7; 8] ++ T 1 40 ++ T 0 40) in
  let s3 := run s ([XManage [nq 0; nq 0]] ++ push [5; 6; 7; 8] ++ T 1 40 ++ T 0 40) in
  pull (xinit tensor) = Ok None /\
  pull s = Ok (Some ([nq 10; nq 4], 1)) /\ pull s2 = Ok (Some ([nq 36; nq 8], 2)) /\
  pull s3 = pull s /\ x_mod s3 = Some ([nq 26; nq 4], 1).
Proof. vm_compute. auto 10. Qed.
Example C197_nonvacuous :
  let g x : gdict := [(0, [nq x; nq 1])] in
  let T i n := repeat (XThread tensor i) n in
  let push l := map (fun x => XPush tensor 1 (g x)) l in
  let run := xrun add_step RSum 2 4 0 3 in
  let s := run (xinit tensor) ([XManage [nq 0; nq 0]; XStart _ 0; XStart _ 1] ++ push [1; 2; 3] ++ [XStop _ 1]) in
  let s1 := run s (T 1 9) in let s2 := run s1 (T 1 1 ++ [XJoined _ 1]) in
  let s3 := run s2 ([XStart _ 1] ++ push [4; 5; 6] ++ T 1 50 ++ T 0 50) in
  dead (x_g s1 1) = false /\ dead (x_g s2 1) = true /\ map snd (r_reds (x_g s2 1)) = [[(0, [nq 3; nq 2])]] /\
  q_items (r_s (x_g s3 1)) = [g 3; g 4; g 5; g 6] /\ r_reds (x_g s3 1) = r_reds (x_g s2 1).
Proof. vm_compute. auto 10. Qed.
