(* C31 n-step returns, C32 A2C returns and advantages, C33 V-trace targets. *)
From Coq Require Import QArith.
From Verif Require Import Lib.Rat Model.Returns Spec.ReturnsSpec Proofs.ReturnsProofs Proofs.VtraceProofs.
Close Scope Q_scope.
Open Scope nat_scope.

Definition q (n : Z) : Qc := Q2Qc (inject_Z n).
(* a step of the examples: states are numbers *)
Definition ex (s n : nat) (r : Z) (t : bool) : tr nat := MkTr s n (q r) t 0%Qc 0%Qc 7.

(* C31: whatever the episode and n, step i is stored with the discounted sum of the next
   min(n, remaining) rewards; nothing but "value" changes. *)
Theorem C31_nstep : forall (S : Type) (t0 : tr S) n g ep,
  ep <> [] ->
  exists ep', rb_store n g ep = Ok ep' /\ length ep' = length ep /\
    forall i, i < length ep ->
      same_but_value (nth i ep t0) (nth i ep' t0) /\
      tr_value (nth i ep' t0) = disc_sum t0 g ep i (Nat.min n (length ep - i)).
Proof.
  intros S t0 n g ep N. destruct (rb_store n g ep) as [ep'|] eqn:E.
  - exists ep'. split; auto. exact (@rb_store_spec _ t0 _ _ _ _ E).
  - destruct ep; [congruence|discriminate].
Qed.
Print Assumptions C31_nstep.

Example C31_nonvacuous :
  let ep := [ex 0 1 1 false; ex 1 2 2 false; ex 2 3 4 false; ex 3 4 8 true] in
  match rb_store 3 (q 10) ep with
  | Ok e => map (@tr_value nat) e = [q 421; q 842; q 84; q 8]
  | Err _ => False
  end.
Proof. vm_compute. repeat f_equal; apply Qc_is_canon; reflexivity. Qed.

(* C32, returns: for every episode (terminal flags are ignored), critic and lambda. *)
Theorem C32_returns : forall (S : Type) (t0 : tr S) g l V ep,
  ep <> [] ->
  exists ep', ac_store g l V ep = Ok ep' /\ length ep' = length ep /\
    forall i, i < length ep ->
      same_but_value_gae (nth i ep t0) (nth i ep' t0) /\
      tr_value (nth i ep' t0) = disc_sum t0 g ep i (length ep - i).
Proof.
  intros S t0 g l V ep N. destruct (ac_store g l V ep) as [ep'|] eqn:E.
  - exists ep'. split; auto. exact (@ac_store_frame _ t0 _ _ _ _ _ E).
  - destruct ep; [congruence|discriminate].
Qed.
Print Assumptions C32_returns.

(* C32, advantages: an episode whose steps follow one another and whose last step, and no
   earlier one, is terminal gets the generalized advantages for every lambda, by
   whichever of the three branches.  Missing: episodes that are cut off before a terminal
   state, for which the statement is false (C32_truncated_refuted). *)
Theorem C32_gae_partial : forall (S : Type) (t0 : tr S) g l V ep ep',
  chained t0 V ep -> no_early_end t0 ep -> ends_terminal t0 ep ->
  ac_store g l V ep = Ok ep' ->
  forall i, i < length ep -> tr_gae (nth i ep' t0) = gae t0 g l V ep i.
Proof. intros. eapply ac_store_wf; eauto. Qed.
Print Assumptions C32_gae_partial.

(* For lambda = 0 nothing is required of the episode. *)
Theorem C32_gae_zero : forall (S : Type) (t0 : tr S) g V ep ep',
  ac_store g 0 V ep = Ok ep' ->
  forall i, i < length ep -> tr_gae (nth i ep' t0) = gae t0 g 0 V ep i.
Proof. intros. eapply ac_store_zero; eauto. Qed.
Print Assumptions C32_gae_zero.

(* For any other lambda the advantages are those of the episode with its last step taken
   to be terminal: the value of the last next_state is never used. *)
Theorem C32_gae_cut : forall (S : Type) (t0 : tr S) g l V ep ep',
  l <> 0%Qc -> chained t0 V ep -> no_early_end t0 ep ->
  ac_store g l V ep = Ok ep' ->
  forall i, i < length ep -> tr_gae (nth i ep' t0) = gae t0 g l V (cut t0 ep) i.
Proof. intros. eapply ac_store_cut; eauto. Qed.
Print Assumptions C32_gae_cut.

(* The special branches against the general recursion. *)
Theorem C32_branch_one : forall (S : Type) (t0 : tr S) g V ep i,
  ep <> [] -> no_early_end t0 ep -> i < length ep ->
  tr_gae (nth i (ac_gae1 V (ac_values g ep)) t0) =
  tr_gae (nth i (ac_gae_general g 1 V (ac_values g ep)) t0).
Proof.
  intros S t0 g V ep i N NE Hi. destruct (@ac_values_spec _ t0 g ep N) as [SR B]. pose proof SR as [L _].
  rewrite gen_eq, gl_nth by lia. unfold ac_gae1. rewrite nth_map_tr by lia. cbn [set_gae tr_gae].
  rewrite (@gg_one _ t0); [|eapply same_rew_noend; eauto|lia]. rewrite B by auto. f_equal. rewrite L. unfold disc_sum.
  apply sumn_ext. intros k Hk. destruct (same_rew_s SR (i := i + k)) as (_ & _ & -> & _); [lia|]. reflexivity.
Qed.
Print Assumptions C32_branch_one.
Theorem C32_branch_zero_partial : forall (S : Type) (t0 : tr S) g V ep i,
  ep <> [] -> chained t0 V ep -> ends_terminal t0 ep -> i < length ep ->
  tr_gae (nth i (ac_gae0 g V (ac_values g ep)) t0) =
  tr_gae (nth i (ac_gae_general g 0 V (ac_values g ep)) t0).
Proof.
  intros S t0 g V ep i N C E Hi. destruct (@ac_values_spec _ t0 g ep N) as [SR B]. pose proof SR as [L _].
  rewrite gen_eq, gl_nth by lia. unfold ac_gae0. rewrite nth_map_tr by lia. cbn [set_gae tr_gae].
  rewrite (@gg_zero _ t0); [|eapply same_rew_chained; eauto|eapply same_rew_ends; eauto; lia|lia].
  unfold td. destruct (tr_t (nth i (ac_values g ep) t0)); cbn; ring.
Qed.
Print Assumptions C32_branch_zero_partial.

(* A truncated episode: for every lambda <> 0 the last advantage is off by
   discount * V(next_state), and the branch for lambda = 0 disagrees with the general one. *)
Theorem C32_truncated_refuted : forall (S : Type) (t0 : tr S) g l V ep ep' i,
  l <> 0%Qc -> chained t0 V ep -> no_early_end t0 ep ->
  i + 1 = length ep -> tr_t (nth i ep t0) = false -> (g * V (tr_n (nth i ep t0)))%Qc <> 0%Qc ->
  ac_store g l V ep = Ok ep' ->
  tr_gae (nth i ep' t0) <> gae t0 g l V ep i /\
  (tr_gae (nth i ep' t0) + g * V (tr_n (nth i ep t0)))%Qc = gae t0 g l V ep i.
Proof.
  intros S t0 g l V ep ep' i L0 C NE Hi T Z H.
  rewrite (@ac_store_cut _ t0 g l V ep ep') by (auto; lia).
  assert (E : (gae t0 g l V (cut t0 ep) i + g * V (tr_n (nth i ep t0)))%Qc = gae t0 g l V ep i).
  { rewrite (@gae_S _ t0 g l V ep) by lia. rewrite (@gae_S _ t0 g l V (cut t0 ep)) by (rewrite cut_length; lia).
    replace (Datatypes.S i) with (length ep) by lia. rewrite gae_end.
    pose proof (@gae_end _ t0 g l V (cut t0 ep)) as Ze. rewrite cut_length in Ze. rewrite Ze. rewrite cut_nth by lia. cbv zeta. unfold td.
    cbn [tr_r tr_t tr_n tr_s]. rewrite T, (proj2 (Nat.eqb_eq _ _) Hi). cbn [orb]. ring. }
  split; auto. intros Q. apply Z. rewrite <- E in Q. clear - Q.
  replace (g * V (tr_n (nth i ep t0)))%Qc with
    ((gae t0 g l V (cut t0 ep) i + g * V (tr_n (nth i ep t0))) - gae t0 g l V (cut t0 ep) i)%Qc by ring.
  rewrite <- Q. ring.
Qed.
Print Assumptions C32_truncated_refuted.

Definition exV (s : nat) : Qc := q (Z.of_nat s).
Example C32_nonvacuous :
  let ep := [ex 5 3 1 false; ex 3 2 2 false; ex 2 9 4 true] in
  chained (ex 0 0 0 false) exV ep /\ no_early_end (ex 0 0 0 false) ep /\ ends_terminal (ex 0 0 0 false) ep /\
  match ac_store (q 2) (q 3) exV ep with
  | Ok e => map (@tr_gae nat) e = [q 92; q 15; q 2] /\ map (@tr_value nat) e = [q 21; q 10; q 4]
  | Err _ => False
  end.
Proof.
  cbv zeta. split; [|split; [|split]].
  - intros i Hi. cbn in Hi. destruct i as [|[|i]]; [reflexivity|reflexivity|lia].
  - intros i Hi. cbn in Hi. destruct i as [|[|i]]; [reflexivity|reflexivity|lia].
  - reflexivity.
  - vm_compute. split; repeat f_equal; apply Qc_is_canon; reflexivity.
Qed.
(* the same truncated *)
Example C32_truncated_nonvacuous :
  let ep := [ex 5 3 1 false; ex 3 2 2 false; ex 2 9 4 false] in
  match ac_store (q 2) (q 3) exV ep with
  | Ok e => tr_gae (nth 2 e (ex 0 0 0 false)) = q 2
  | Err _ => False
  end /\ gae (ex 0 0 0 false) (q 2) (q 3) exV ep 2 = q 20.
Proof. vm_compute. split; repeat f_equal; apply Qc_is_canon; reflexivity. Qed.

(* C33: a batch is the concatenation of stored episodes.  Every step s of every episode gets
   the V-trace target of its own episode minus a correction which only vanishes when
   V + delta of the last step is 0, because the code uses 0 as the last target.
   Missing: the correction should not be there (C33_last_target_refuted). *)
Theorem C33_targets_partial : forall (S : Type) (t0 : tr S) g bc br V sim sts,
  (forall st, In st sts -> exists ep, im_store ep = Ok st) ->
  exists vs vss, im_targets g bc br V sim (concat sts) = Ok (vs, vss) /\
    length vs = length (concat sts) /\ length vss = length (concat sts) /\
    forall j st, nth_error sts j = Some st -> forall s, s < length st ->
      let m := length st - 1 in
      nth (start sts j + s) vs 0%Qc =
        (vtrace_of t0 g bc br V sim st s
         - Qcpower g (m - s) * prodn (fun k => clipped bc (sim (nth k st t0))) s (m - s)
           * (V (tr_s (nth m st t0)) + wtd g (clipped br (sim (nth m st t0))) V (nth m st t0)))%Qc /\
      nth (start sts j + s) vss 0%Qc =
        (if s + 1 <? length st then nth (start sts j + s + 1) vs 0%Qc else 0%Qc).
Proof.
  intros S t0 g bc br V sim sts H. destruct (@targets_spec _ t0 g bc br V sim sts H) as (vs & vss & E & L1 & L2 & F).
  exists vs, vss. repeat split; auto.
  - apply (F j st); auto.
  - destruct (F j st H0 s H1) as [_ ->]. rewrite Nat.add_1_r. rewrite <- Nat.add_assoc, Nat.add_1_r. reflexivity.
Qed.
Print Assumptions C33_targets_partial.

(* The targets of an episode do not depend on the rest of the batch. *)
Theorem C33_independent : forall (S : Type) (t0 : tr S) g bc br V sim (sts sts' : list (list (tr S))) vs vss vs' vss' j j' st,
  (forall st, In st sts -> exists ep, im_store ep = Ok st) ->
  (forall st, In st sts' -> exists ep, im_store ep = Ok st) ->
  nth_error sts j = Some st -> nth_error sts' j' = Some st ->
  im_targets g bc br V sim (concat sts) = Ok (vs, vss) ->
  im_targets g bc br V sim (concat sts') = Ok (vs', vss') ->
  forall s, s < length st ->
    nth (start sts j + s) vs 0%Qc = nth (start sts' j' + s) vs' 0%Qc /\
    nth (start sts j + s) vss 0%Qc = nth (start sts' j' + s) vss' 0%Qc.
Proof.
  intros S t0 g bc br V sim sts sts' vs vss vs' vss' j j' st H H' N N' E E' s Hs.
  destruct (@targets_spec _ t0 g bc br V sim sts H) as (ws & wss & A & _ & _ & F).
  destruct (@targets_spec _ t0 g bc br V sim sts' H') as (ws' & wss' & A' & _ & _ & F').
  rewrite E in A. injection A as <- <-. rewrite E' in A'. injection A' as <- <-.
  assert (G : forall s, s < length st -> nth (start sts j + s) vs 0%Qc = nth (start sts' j' + s) vs' 0%Qc).
  { intros k Hk. destruct (F j st N k Hk) as [-> _]. destruct (F' j' st N' k Hk) as [-> _]. reflexivity. }
  split; [auto|]. destruct (F j st N s Hs) as [_ ->]. destruct (F' j' st N' s Hs) as [_ ->].
  destruct (Nat.ltb_spec (Datatypes.S s) (length st)); auto.
Qed.
Print Assumptions C33_independent.

(* The target of the last step of every episode is 0, hence wrong unless V + delta = 0. *)
Theorem C33_last_target_refuted : forall (S : Type) (t0 : tr S) g bc br V sim (sts : list (list (tr S))) vs vss j st,
  (forall st, In st sts -> exists ep, im_store ep = Ok st) ->
  im_targets g bc br V sim (concat sts) = Ok (vs, vss) ->
  nth_error sts j = Some st ->
  let m := length st - 1 in
  nth (start sts j + m) vs 0%Qc = 0%Qc /\
  vtrace_of t0 g bc br V sim st m =
    (V (tr_s (nth m st t0)) + wtd g (clipped br (sim (nth m st t0))) V (nth m st t0))%Qc /\
  ((V (tr_s (nth m st t0)) + wtd g (clipped br (sim (nth m st t0))) V (nth m st t0))%Qc <> 0%Qc ->
   nth (start sts j + m) vs 0%Qc <> vtrace_of t0 g bc br V sim st m).
Proof.
  intros S t0 g bc br V sim sts vs vss j st H E N m.
  destruct (@targets_spec _ t0 g bc br V sim sts H) as (ws & wss & A & _ & _ & F).
  rewrite E in A. injection A as <- <-.
  assert (P : 0 < length st) by (apply (@stored_pos S); apply H; eapply nth_error_In; eauto).
  assert (W : vtrace_of t0 g bc br V sim st m =
    (V (tr_s (nth m st t0)) + wtd g (clipped br (sim (nth m st t0))) V (nth m st t0))%Qc).
  { unfold vtrace_of, vtrace. replace (length st - m) with 1 by lia. cbn [sumn].
    change (Qcpower g 0) with 1%Qc. cbn [prodn]. rewrite Nat.add_0_r. ring. }
  assert (Z : nth (start sts j + m) vs 0%Qc = 0%Qc).
  { destruct (F j st N m ltac:(lia)) as [-> _]. rewrite W. fold m. rewrite Nat.sub_diag.
    cbn [prodn]. change (Qcpower g 0) with 1%Qc. ring. }
  split; [exact Z|]. split; [exact W|]. rewrite Z, W. congruence.
Qed.
Print Assumptions C33_last_target_refuted.

(* store_episode only sets episode_length and refuses an empty episode *)
Theorem C33_store : forall (S : Type) (t0 : tr S) ep,
  match im_store ep with
  | Err _ => ep = []
  | Ok st => length st = length ep /\
             forall i, i < length ep -> exists n, nth i st t0 = set_len n (nth i ep t0)
  end.
Proof.
  intros S t0 [|t r]; cbn; auto. rewrite map_length. split; auto. intros [|i] Hi; [eexists; reflexivity|].
  exists 0. rewrite (@nth_indep _ _ i t0 (set_len 0 t0)) by (rewrite map_length; lia). apply map_nth.
Qed.
Print Assumptions C33_store.

(* two on-policy episodes: the reward 5 of the last step of the first is lost *)
Definition vep (l : list (tr nat)) : list (tr nat) := match im_store l with Ok s => s | Err _ => [] end.
Example C33_nonvacuous :
  let e1 := vep [ex 1 2 1 false; ex 2 3 5 true] in
  let e2 := vep [ex 4 0 3 false; ex 0 1 1 false; ex 1 1 2 true] in
  match im_targets (q 2) 1 1 exV (fun _ => 1%Qc) (concat [e1; e2]) with
  | Ok (vs, vss) => vs = [q 1; q 0; q 5; q 1; q 0] /\ vss = [q 0; q 0; q 1; q 0; q 0]
  | Err _ => False
  end /\ vtrace_of (ex 0 0 0 false) (q 2) 1 1 exV (fun _ => 1%Qc) e1 0 = q 11
      /\ vtrace_of (ex 0 0 0 false) (q 2) 1 1 exV (fun _ => 1%Qc) e1 1 = q 5.
Proof. vm_compute. repeat split; repeat f_equal; apply Qc_is_canon; reflexivity. Qed.
