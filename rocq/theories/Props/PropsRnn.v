(* C15, C16: recurrent replay buffers return windows of single episodes. *)
From Verif Require Import Lib.Rat Model.Buffer Model.WeightTree Model.PrioritizedBuffer Model.RnnBuffer
  Spec.BufferSpec Spec.PrioritizedSpec Spec.RnnSpec Proofs.PrioritizedProofs Proofs.RnnProofs Proofs.RnnPrioProofs.
Open Scope nat_scope.

(* [chunks L] is the grouping applied to every attribute of the batch by post_process_attribute. *)
Theorem C15_random_windows : forall T (ok : T -> bool) cap eps L n pick start,
  0 < cap -> (forall e, In e eps -> length e <= cap) -> 1 <= L -> pick_ok pick -> start_ok start ->
  let b := b_run ok (b_new cap) (map (@BStore T) eps) in
  let V := long_enough L (retained cap (accepted ok eps)) in
  let m := Nat.min (length V) n in
  exists batch, rnn_sample L b n pick start = Ok (m, batch) /\ length (chunks L batch) = m /\
    forall j w, nth_error (chunks L batch) j = Some w ->
      exists e, nth_error V (pick j (length V)) = Some e /\ In e (retained cap (accepted ok eps)) /\
        L <= length e /\ is_window L e w /\ w = window L (start j (length e - L)) e.
Proof.
  intros T ok cap eps L n pick start C H L1 PO SO b V m.
  destruct (rnn_sample_ok L b (retained cap (accepted ok eps)) n pick start (run_good ok L cap eps C H) PO SO) as (ws & E & LW & P).
  fold V in E, LW, P. fold m in E, LW, P.
  assert (Q : forall j w, nth_error ws j = Some w ->
      exists e, nth_error V (pick j (length V)) = Some e /\ In e (retained cap (accepted ok eps)) /\
        L <= length e /\ is_window L e w /\ w = window L (start j (length e - L)) e).
  { intros j w J. assert (JL : j < m) by (rewrite <- LW; apply nth_error_Some; congruence).
    destruct (P j JL) as (e & A & B). exists e. split; auto.
    pose proof (nth_error_In _ _ A) as I. unfold V, long_enough in I. apply filter_In in I as [I LE].
    apply Nat.leb_le in LE. split; auto. split; auto.
    assert (w = window L (start j (length e - L)) e) by congruence. split; auto. subst w. apply window_is.
    pose proof (SO j (length e - L)). lia. }
  exists (concat ws). split; auto.
  rewrite chunks_concat; auto. intros w I. apply In_nth_error in I as (j & J).
  destruct (Q j w J) as (e & _ & _ & _ & (a & z & _ & X) & _). exact X.
Qed.
Print Assumptions C15_random_windows.

(* random_unique: the windows come from pairwise different episodes *)
Theorem C15_unique_windows_distinct_episodes : forall T (ok : T -> bool) cap eps L n pick start,
  0 < cap -> (forall e, In e eps -> length e <= cap) -> 1 <= L ->
  pick_ok pick -> pick_unique pick -> start_ok start ->
  let b := b_run ok (b_new cap) (map (@BStore T) eps) in
  let V := long_enough L (retained cap (accepted ok eps)) in
  exists batch src, rnn_sample L b n pick start = Ok (length src, batch) /\ NoDup src /\
    length (chunks L batch) = length src /\
    forall j w i, nth_error (chunks L batch) j = Some w -> nth_error src j = Some i ->
      exists e, nth_error V i = Some e /\ is_window L e w.
Proof.
  intros T ok cap eps L n pick start C H L1 PO PU SO b V.
  destruct (C15_random_windows T ok cap eps L n pick start C H L1 PO SO) as (batch & E & LC & P).
  fold b in E. fold V in E, LC, P. set (m := Nat.min (length V) n) in *.
  exists batch, (map (fun j => pick j (length V)) (seq 0 m)). rewrite map_length, seq_length. split; auto. split.
  - apply NoDup_nth_error. intros i j I Q. rewrite map_length, seq_length in I.
    rewrite !nth_error_map in Q. rewrite (nth_error_nth' _ 0), seq_nth in Q by (rewrite ?seq_length; auto). cbn in Q.
    destruct (nth_error (seq 0 m) j) as [y|] eqn:EJ; [|discriminate]. cbn in Q.
    assert (j < m) by (rewrite <- (seq_length m 0); apply nth_error_Some; congruence).
    rewrite (nth_error_nth' _ 0), seq_nth in EJ by (rewrite ?seq_length; auto). injection EJ as <-. injection Q as Q.
    apply (PU (length V)); auto; lia.
  - split; auto. intros j w i J I. destruct (P j w J) as (e & A & _ & _ & W & _). exists e. split; auto.
    rewrite nth_error_map in I. destruct (nth_error (seq 0 m) j) as [y|] eqn:EJ; [|discriminate].
    assert (j < m) by (rewrite <- (seq_length m 0); apply nth_error_Some; congruence).
    rewrite (nth_error_nth' _ 0), seq_nth in EJ by (rewrite ?seq_length; auto). injection EJ as <-.
    cbn in I. injection I as <-. exact A.
Qed.
Print Assumptions C15_unique_windows_distinct_episodes.

(* sample_method "all": every window of every retained episode, exactly once, in order *)
Theorem C15_all_windows : forall T (ok : T -> bool) cap eps L,
  0 < cap -> (forall e, In e eps -> length e <= cap) -> 1 <= L ->
  let b := b_run ok (b_new cap) (map (@BStore T) eps) in
  let ws := all_windows L (retained cap (accepted ok eps)) in
  exists batch, rnn_all L b = Ok (length ws, batch) /\ chunks L batch = ws /\ 
    forall w, In w ws -> exists e, In e (retained cap (accepted ok eps)) /\ is_window L e w.
Proof.
  intros T ok cap eps L C H L1 b ws.
  destruct (all_sel_ok L b _ _ L1 (run_good ok L cap eps C H)) as (sel & ws' & E1 & E2 & LW & EW).
  fold b in E1. assert (ws' = ws) by exact EW. subst ws'. unfold rnn_all. rewrite E1. cbn [bind]. rewrite E2. cbn [bind].
  exists (concat ws). rewrite LW. split; auto.
  assert (Q : forall w, In w ws -> exists e, In e (retained cap (accepted ok eps)) /\ is_window L e w).
  { intros w I. unfold ws, all_windows in I. apply in_flat_map in I as (e & I1 & I2).
    unfold long_enough in I1. apply filter_In in I1 as [I1 LE]. apply Nat.leb_le in LE.
    apply in_map_iff in I2 as (pos & <- & PP). apply in_seq in PP. exists e. split; auto. apply window_is. lia. }
  split; auto. apply chunks_concat; auto. intros w I. destruct (Q w I) as (e & _ & (a & z & _ & X)). exact X.
Qed.
Print Assumptions C15_all_windows.

Definition okn (_ : nat) := true.
(* the last episode wraps around the end of the ring and evicts the first one *)
Example C15_nonvacuous :
  let b := b_run okn (b_new 7) (map (@BStore nat) [[1;2;3]; [4]; [5;6;7;8]]) in
  b_eth b = [(1, [3]); (2, [4;5;6;0])] /\
  rnn_sample 2 b 5 (fun _ _ => 0) (fun _ m => m) = Ok (1, [7; 8]) /\
  rnn_all 2 b = Ok (3, [5;6;6;7;7;8]) /\ chunks 2 [5;6;6;7;7;8] = [[5;6];[6;7];[7;8]].
Proof. vm_compute. auto. Qed.

(* after clear() the episode table is stale and sampling raises (the defect of C04) *)
Theorem C15_after_clear_refuted :
  let b := b_run okn (b_new 7) [BStore [1;2;3]; BClear] in
  rnn_sample 2 b 1 (fun _ _ => 0) (fun _ m => 0) = Err EIndex.
Proof. reflexivity. Qed.
Print Assumptions C15_after_clear_refuted.

(* ---- C16 ---- *)
Definition nrm (x : Qc) : Qc := (Qcabs x + 1)%Qc.
Definition ipw (x _ : Qc) : Qc := (/ x)%Qc.
Definition hf : Qc := (1 / (1 + 1))%Qc.
Definition rp_stores L cap (eps : list (list nat)) : pbuf nat :=
  fold_left (fun p e => fst (rp_store okn nrm L p e PNone)) eps (pb_new hf cap).

(* an episode that crosses the end of the ring keeps its priorities, but its window is read
   past the end of the storage: IndexError *)
Theorem C16_wrapped_episode_refuted :
  let p := rp_stores 2 4 [[1;2;3]; [4;5;6]] in
  b_eth (pb_b p) = [(1, [3;0;1])] /\ sample_all (pb_b p) = Ok (3, [4;5;6]) /\
  exists us, unit_draws us /\ snd (rp_sample ipw hf 2 p us) = Err EIndex.
Proof.
  split; [vm_compute; reflexivity|]. split; [vm_compute; reflexivity|]. exists [hf; hf]. split; [|vm_compute; reflexivity].
  intros u Hu. assert (u = hf) as -> by (cbn in Hu; intuition congruence). split; [discriminate|reflexivity].
Qed.
Print Assumptions C16_wrapped_episode_refuted.

(* when no stored episode is long enough all priorities are 0 and the window at slot 0 is
   returned, which spans two episodes *)
Theorem C16_short_episodes_refuted :
  let p := rp_stores 3 8 [[1;2]; [3;4]] in
  exists us n batch idx ws, unit_draws us /\ snd (rp_sample ipw hf 3 p us) = Ok (n, batch, idx, ws) /\
    chunks 3 batch = [[1;2;3]; [1;2;3]] /\ retained 8 [[1;2];[3;4]] = [[1;2];[3;4]] /\
    forall e, In e [[1;2];[3;4]] -> ~ is_window 3 e [1;2;3].
Proof.
  exists [hf; hf]. do 4 eexists. split.
  { intros u Hu. assert (u = hf) as -> by (cbn in Hu; intuition congruence). split; [discriminate|reflexivity]. }
  split; [vm_compute; reflexivity|]. split; [vm_compute; reflexivity|]. split; [reflexivity|].
  intros e I (a & z & E & _). apply (f_equal (@length _)) in E. rewrite !app_length in E. cbn in E.
  destruct I as [<-|[<-|[]]]; cbn in E; lia.
Qed.
Print Assumptions C16_short_episodes_refuted.

(* positions of evicted episodes are still sampled *)
Theorem C16_evicted_episode_refuted :
  let p := rp_stores 2 6 [[1;2;3;4;5;6]; [7;8;9]] in
  exists us n batch idx ws, unit_draws us /\ snd (rp_sample ipw hf 2 p us) = Ok (n, batch, idx, ws) /\
    retained 6 [[1;2;3;4;5;6]; [7;8;9]] = [[7;8;9]] /\ In [5;6] (chunks 2 batch).
Proof.
  exists [hf; hf; hf; hf]. do 4 eexists. split.
  { intros u Hu. assert (u = hf) as -> by (cbn in Hu; intuition congruence). split; [discriminate|reflexivity]. }
  split; [vm_compute; reflexivity|]. split; [reflexivity|]. vm_compute. auto 10.
Qed.
Print Assumptions C16_evicted_episode_refuted.

(* priorities given as a list (the documented type) for a short episode: TypeError, with the
   episode already stored *)
Theorem C16_short_list_priorities_refuted :
  let r := rp_store okn nrm 3 (pb_new hf 8) [1;2] (PList [hf; hf]) in
  snd r = Err EType /\ sample_all (pb_b (fst r)) = Ok (2, [1;2]).
Proof. vm_compute. auto. Qed.
Print Assumptions C16_short_list_priorities_refuted.

(* what holds: if no episode crosses the end of the ring, priorities are only updated where
   they are positive (as for indexes that were just sampled), the draws are positive and the
   total priority exceeds 1e-6, every returned window consists of L consecutive steps of one
   stored episode, which is a retained one as long as nothing was evicted.
   Missing: episodes that wrap, eviction by whole episodes. *)
Theorem C16_no_wrap_partial : forall T (ok : T -> bool) norm pw beta inc L cap p H us,
  (forall x, (0 < norm x)%Qc) -> 1 <= L -> 1 <= cap ->
  rreach ok norm pw beta inc L cap p H ->
  2 <= length us -> (forall u, In u us -> (0 < u)%Qc /\ (u < 1)%Qc) ->
  (Q2Qc (QArith_base.Qmake 1 1000000) < wt_sum (pb_t p))%Qc ->
  exists batch idx ws,
    snd (rp_sample pw inc L p us) = Ok (length us, batch, idx, ws) /\
    length (chunks L batch) = length us /\ length idx = length us /\
    forall j w i, nth_error (chunks L batch) j = Some w -> nth_error idx j = Some i ->
      (0 < leaf p i)%Qc /\ nth_error w 0 = stored p i /\
      exists e, In e H /\ is_window L e w /\ (total H <= cap -> In e (retained cap H)).
Proof.
  intros T ok norm pw beta inc L cap p H us N L1 C R LU U TT.
  destruct (rp_sample_ok ok norm pw beta inc N L L1 cap p H us C R LU U TT) as (batch & idx & ws & wins & E & EB & LW & LI & P).
  assert (CH : chunks L batch = wins).
  { rewrite EB. apply chunks_concat; auto. intros w I. apply In_nth_error in I as (j & J).
    assert (JL : j < length idx) by (rewrite LI, <- LW; apply nth_error_Some; congruence).
    destruct (nth_error idx j) as [i|] eqn:EI; [|apply nth_error_None in EI; lia].
    destruct (P j w i J EI) as (_ & _ & e & pos & _ & PL & ->).
    destruct (window_is L pos e PL) as (a & z & _ & X). exact X. }
  exists batch, idx, ws. rewrite CH. split; auto. split; auto. split; auto.
  intros j w i J EI. destruct (P j w i J EI) as (A & B & e & pos & IN & PL & ->). split; auto. split; auto.
  exists e. split; auto. split; [now apply window_is|]. intros F. now rewrite retained_all.
Qed.
Print Assumptions C16_no_wrap_partial.
(* a single window raises TypeError, as in C12 *)
Theorem C16_single_refuted : forall T (ok : T -> bool) norm pw beta inc L cap p H us,
  (forall x, (0 < norm x)%Qc) -> 1 <= L -> 1 <= cap ->
  rreach ok norm pw beta inc L cap p H ->
  length us = 1 -> (forall u, In u us -> (0 < u)%Qc /\ (u < 1)%Qc) ->
  (Q2Qc (QArith_base.Qmake 1 1000000) < wt_sum (pb_t p))%Qc ->
  snd (rp_sample pw inc L p us) = Err EType.
Proof.
  intros T ok norm pw beta inc L cap p H us N L1 C R LU U TT.
  apply (rp_sample_cases ok norm pw beta inc N L L1 cap p H us C R); auto. lia.
Qed.
Print Assumptions C16_single_refuted.
(* nothing is asked for or nothing is there: an empty sample *)
Theorem C16_nothing : forall T pw inc L (p : pbuf T) us, us = [] \/ b_size (pb_b p) = 0 ->
  rp_sample pw inc L p us = (p, Ok (0, [], [], [])).
Proof.
  intros T pw inc L p us H. unfold rp_sample. destruct H as [-> | ->]; [reflexivity|]. now rewrite orb_true_r.
Qed.
Print Assumptions C16_nothing.
Example C16_nonvacuous :
  let p := rp_stores 2 8 [[1;2;3]; [4]; [5;6]] in
  rreach okn nrm ipw hf hf 2 8 p [[1;2;3]; [4]; [5;6]] /\
  (Q2Qc (QArith_base.Qmake 1 1000000) < wt_sum (pb_t p))%Qc /\
  match snd (rp_sample ipw hf 2 p [hf; hf; hf]) with
  | Ok (n, batch, idx, _) => n = 3 /\ idx = [0; 1; 4] /\ chunks 2 batch = [[1;2];[2;3];[5;6]]
  | Err _ => False
  end.
Proof.
  split; [|vm_compute; auto]. unfold rp_stores, fold_left.
  apply (rr_store okn nrm ipw hf hf 2 8 _ [[1;2;3];[4]]); auto; try discriminate; try (cbn; lia).
  apply (rr_store okn nrm ipw hf hf 2 8 _ [[1;2;3]]); auto; try discriminate; try (cbn; lia).
  apply (rr_store okn nrm ipw hf hf 2 8 _ []); auto; try discriminate; try (cbn; lia).
  apply rr_new.
Qed.

(* sampling after clear() fails for every buffer with an episode that is long enough *)
Theorem C15_after_clear_always_refuted : forall T L (b : buffer T) n pick start,
  1 <= L -> 1 <= n -> NoDup (dkeys (b_eth b)) ->
  (exists ep hs, In (ep, hs) (b_eth b) /\ L <= length hs) -> pick_ok pick -> start_ok start ->
  rnn_sample L (b_clear b) n pick start = Err EIndex.
Proof.
  intros T L b n pick start L1 N1 ND (ep & hs & Iep & Lep) PO SO. unfold rnn_sample.
  set (b' := b_clear b). set (V := valid_eps L b').
  assert (NE : V <> []).
  { unfold V, valid_eps. intros Q. assert (In ep (map fst (filter (fun it => L <=? length (snd it)) (b_eth b')))); [|rewrite Q in H; destruct H].
    apply (in_map fst _ (ep, hs)). apply filter_In. split; [exact Iep|]. now apply Nat.leb_le. }
  assert (HV : forall e, In e V -> exists hs, handles b' e = Ok hs /\ L <= length hs).
  { intros e I. unfold V, valid_eps in I. apply in_map_iff in I as ([e' h] & <- & I). apply filter_In in I as [I Q].
    exists h. unfold handles. cbn [fst snd] in *. rewrite (dget_In _ _ _ ND I). split; auto. now apply Nat.leb_le. }
  assert (LV : 1 <= length V) by (destruct V; [congruence|cbn; lia]).
  clearbody V. destruct (Nat.min (length V) n) as [|k] eqn:K; [lia|].
  assert (IA : forall is, (forall i, In i is -> i < length V) -> exists eps, index_all V is = Ok eps /\ length eps = length is /\ incl eps V).
  { induction is as [|i is IH]; intros H; cbn; [exists []; repeat split; intros ? []|].
    destruct (nth_error V i) as [x|] eqn:E; [|apply nth_error_None in E; specialize (H i (or_introl eq_refl)); lia].
    destruct IH as (eps & -> & LE & IN); [intros; apply H; right; auto|]. cbn. exists (x :: eps). split; auto. split; [cbn; lia|].
    intros y [<-|Y]; [eapply nth_error_In; eauto|auto]. }
  destruct (IA (map (fun j => pick j (length V)) (seq 0 (S k)))) as (eps & -> & LE & IN).
  { intros i I. apply in_map_iff in I as (j & <- & _). apply PO. lia. }
  cbn [bind]. rewrite map_length, seq_length in LE. destruct eps as [|e eps]; [discriminate|].
  assert (ST : forall es c, incl es V -> exists sel, starts L start b' c es = Ok sel).
  { induction es as [|x es IH]; intros c H; cbn; [eauto|]. destruct (HV x (H x (or_introl eq_refl))) as (h & -> & _). cbn.
    destruct (IH (S c)) as (q & ->); [intros y Y; apply H; right; auto|]. cbn. eauto. }
  cbn [starts]. destruct (HV e (IN e (or_introl eq_refl))) as (h & Eh & Lh). rewrite Eh. cbn [bind].
  destruct (ST eps 1) as (q & ->); [intros y Y; apply IN; right; auto|]. cbn [bind gather]. rewrite Eh. cbn [bind].
  assert (SL : exists x r, slice L (start 0 (length h - L)) h = x :: r).
  { unfold slice. pose proof (SO 0 (length h - L)) as B. destruct (skipn (start 0 (length h - L)) h) as [|x r] eqn:Q.
    - apply (f_equal (@length nat)) in Q. rewrite skipn_length in Q. cbn in Q. lia.
    - destruct L; [lia|]. cbn. eauto. }
  destruct SL as (x & r & ->). unfold b', b_clear, st_clear. cbn. destruct x; reflexivity.
Qed.
Print Assumptions C15_after_clear_always_refuted.

(* in general: the error comes after the episode was stored *)
Theorem C16_any_short_list_priorities_refuted : forall T (ok : T -> bool) norm L (p : pbuf T) ep xs b1,
  b_store_episode ok (pb_b p) ep = (b1, Ok tt) -> length ep < L ->
  let r := rp_store ok norm L p ep (PList xs) in
  snd r = Err EType /\ pb_b (fst r) = b1 /\ pb_t (fst r) = pb_t p.
Proof.
  intros T ok norm L p ep xs b1 E LL r. unfold r, rp_store. rewrite E.
  assert (G : exists hs, dget (b_cnt b1 - 1) (b_eth b1) = Some hs).
  { revert E. unfold b_store_episode. destruct ep as [|x ep]; [discriminate|]. destruct (negb _); [discriminate|].
    destruct (st_store_episode _ _) as [s1 [hs|e]]; [|discriminate].
    destruct (claim _ _ _ _) as [[ten1 eth1]|e]; [|discriminate]. intros Q. injection Q as <-. exists hs.
    cbn [b_cnt b_eth]. rewrite Nat.sub_succ, Nat.sub_0_r. apply dget_dset_same. }
  destruct G as (hs & ->). unfold rp_prios. apply Nat.ltb_lt in LL. rewrite LL. auto.
Qed.
Print Assumptions C16_any_short_list_priorities_refuted.
