(* C165: IMPALA's buffer draws whole episodes, machin/frame/algorithms/impala.py 47-66. *)
From Verif Require Import Lib.Rat Lib.Base Model.Buffer Model.EpisodeSample Model.Returns Spec.BufferSpec
  Proofs.BufferProofs Proofs.BufferDict Props.PropsBuffer Props.PropsReturns.
Set Implicit Arguments.

(* episode numbers are pairwise different *)
Lemma claim_nodup ep hs : forall ten eth ten' eth', NoDup (dkeys eth) ->
  claim ep hs ten eth = Ok (ten', eth') -> NoDup (dkeys eth').
Proof.
  induction hs as [|h r IH]; cbn [claim]; intros ten eth ten' eth' N E; [injection E as <- <-; auto|].
  unfold claim1 in E. destruct (dget h ten); cbn [bind] in E; [|eapply IH; eauto].
  destruct (dget n eth); [|discriminate]. destruct (pop_all l ten); cbn [bind] in E; [|discriminate].
  unfold dpop in E. destruct (dmem n eth); cbn [bind fst snd] in E; [|discriminate].
  eapply IH; [|exact E]. now apply NoDup_ddel.
Qed.

Lemma step_nodup T ok (b : buffer T) o : NoDup (dkeys (b_eth b)) -> NoDup (dkeys (b_eth (b_step ok b o))).
Proof.
  intros N. destruct o as [ep|]; [|exact N]. cbn. unfold b_store_episode. destruct ep as [|t0 r]; [exact N|].
  destruct (negb _); [exact N|]. destruct (st_store_episode _ _) as [s1 [hs|e]]; [|exact N].
  destruct (claim _ _ _ _) as [[ten eth]|] eqn:E; [|exact N]. cbn. apply NoDup_dset. eapply claim_nodup; eauto.
Qed.

Lemma run_nodup T ok os : forall (b : buffer T), NoDup (dkeys (b_eth b)) -> NoDup (dkeys (b_eth (b_run ok b os))).
Proof. induction os as [|o r IH]; intros b N; [exact N|]. cbn. apply IH. now apply step_nodup. Qed.

Lemma slice_read T (data W : list T) c a l :
  (forall n, a <= n < a + l -> nth_error data (n mod c) = nth_error W n) -> a + l <= length W ->
  index_all data (modseq c a l) = Ok (firstn l (skipn a W)).
Proof.
  revert a. induction l as [|l IH]; intros a H E; [reflexivity|].
  rewrite modseq_S. cbn [index_all]. rewrite H by lia.
  destruct (nth_error W a) as [x|] eqn:NE; [|apply nth_error_None in NE; lia].
  rewrite IH; try lia; [|intros; apply H; lia]. cbn [bind].
  replace (skipn a W) with (x :: skipn (S a) W); [reflexivity|].
  clear - NE. revert a NE. induction W as [|w W IH]; intros [|a] NE; cbn in *; try discriminate.
  - now injection NE as ->.
  - rewrite <- (IH a NE). reflexivity.
Qed.

(* the j-th recorded episode is read back as the j-th retained episode *)
Lemma chain_read T (data W : list T) c : forall ret (k : list (list T)) s e d,
  chain s ret e -> lens ret k -> W = d ++ concat k -> length d = s ->
  (forall n, s <= n < e -> nth_error data (n mod c) = nth_error W n) -> e = length W ->
  forall j x, nth_error ret j = Some x ->
  exists ep, nth_error k j = Some ep /\ index_all data (modseq c (snd (fst x)) (snd x)) = Ok ep.
Proof.
  induction ret as [|[[k0 s0] l0] r IH]; intros k s e d CH LN EW LD RD EE j x EX; [destruct j; discriminate|].
  destruct k as [|ep k]; [discriminate|]. unfold lens in LN. cbn in LN. injection LN as L1 L2.
  unfold eplen in L1. cbn in L1.
  cbn [chain] in CH. destruct CH as (-> & P & CH).
  assert (LE := chain_le _ _ _ CH).
  destruct j as [|j]; cbn in EX.
  - injection EX as <-. exists ep. split; [reflexivity|]. cbn [fst snd].
    rewrite (@slice_read _ data W) by (try (intros; apply RD); lia). f_equal.
    rewrite EW. cbn [concat]. rewrite <- LD, skipn_app, skipn_all, Nat.sub_diag, L1. cbn.
    rewrite firstn_app, firstn_all, Nat.sub_diag. cbn. apply app_nil_r.
  - destruct (IH k (s + l0) e (d ++ ep) CH L2) with (j := j) (x := x) as (ep' & E1 & E2); auto.
    + rewrite EW. cbn. now rewrite app_assoc.
    + rewrite app_length. lia.
    + intros n Hn. apply RD. lia.
    + exists ep'. auto.
Qed.

(* After any history of stores, a draw returns min(number of retained episodes, n) episodes; each of
   them is one whole retained episode, with its steps in order, and nothing else is in the batch. *)
Theorem C165_whole_episodes : forall T (ok : T -> bool) cap eps n pick,
  0 < cap -> (forall e, In e eps -> length e <= cap) ->
  let kept := retained cap (accepted ok eps) in
  length pick = Nat.min (length kept) n -> (forall i, In i pick -> i < length kept) ->
  exists sts, sample_episode (after ok cap eps) n pick = Ok (length sts, concat sts) /\
    length sts = Nat.min (length kept) n /\
    (forall j i, nth_error pick j = Some i -> nth_error sts j = nth_error kept i).
Proof.
  intros T ok cap eps n pick C L kept LP P.
  pose proof (run_inv ok eps C L) as I.
  pose proof (@run_nodup T ok (map BStore eps) (b_new cap) (NoDup_nil _)) as ND.
  set (b := after ok cap eps) in *.
  destruct (Inv_retained I) as (d & ret & EH & LN & DI & LE). fold kept in EH, LN, LE.
  assert (LR : length ret = length kept).
  { unfold lens in LN. apply (f_equal (@length nat)) in LN. now rewrite !map_length in LN. }
  assert (EN : length (b_eth b) = length kept) by (rewrite (di_eth DI); unfold eth_of; now rewrite map_length).
  assert (RD : forall j x, nth_error ret j = Some x ->
            exists ep, nth_error kept j = Some ep /\ episode_steps b (epno x) = Ok ep).
  { intros j x EX.
    destruct (@chain_read T (st_data (b_st b)) (concat (accepted ok eps)) cap ret kept (total d) (total (accepted ok eps)) (concat d)) with (j := j) (x := x)
      as (ep & E1 & E2); auto.
    - apply DI.
    - rewrite EH at 1. now rewrite concat_app.
    - intros m Hm. rewrite <- (iv_cap I). pose proof (di_win DI) as Wn.
      apply (si_dat (iv_st I)); unfold total in *; rewrite ?(iv_cap I); lia.
    - exists ep. split; auto. unfold episode_steps.
      rewrite (dget_In (epno x) (modseq cap (snd (fst x)) (snd x)) _ ND); auto.
      rewrite (di_eth DI). unfold eth_of. apply in_map_iff. exists x.
      destruct x as [[k0 s0] l0]. cbn. split; [reflexivity|]. eapply nth_error_In; eauto. }
  assert (G : forall pk, (forall i, In i pk -> i < length kept) ->
    exists es sts, index_all (dkeys (b_eth b)) pk = Ok es /\ episodes_steps b es = Ok (concat sts) /\
      length sts = length pk /\ (forall j i, nth_error pk j = Some i -> nth_error sts j = nth_error kept i)).
  { induction pk as [|i r IH]; intros Pk.
    - exists [], []. cbn. repeat split; auto. intros [|j] i; discriminate.
    - destruct IH as (es & sts & E1 & E2 & E3 & E4); [intros; apply Pk; now right|].
      assert (Hi : i < length ret) by (rewrite LR; apply Pk; now left).
      destruct (nth_error ret i) as [x|] eqn:EX; [|apply nth_error_None in EX; lia].
      destruct (RD i x EX) as (ep & F1 & F2).
      assert (K : nth_error (dkeys (b_eth b)) i = Some (epno x)).
      { rewrite (di_eth DI). unfold dkeys, eth_of. rewrite map_map. erewrite map_nth_error; [|exact EX]. destruct x as [[? ?] ?]. reflexivity. }
      exists (epno x :: es), (ep :: sts). cbn [index_all]. rewrite K, E1. cbn [bind]. split; [reflexivity|].
      cbn [episodes_steps]. rewrite F2. cbn [bind]. rewrite E2. cbn [bind concat length]. split; [reflexivity|]. split; [now rewrite E3|].
      intros [|j] i' EI; cbn in EI |- *; [injection EI as <-; now rewrite F1|now apply E4]. }
  destruct (G pick P) as (es & sts & E1 & E2 & E3 & E4).
  exists sts. unfold sample_episode, episode_count. rewrite E1. cbn [bind]. rewrite E2. cbn [bind].
  rewrite EN, E3, LP. repeat split; auto.
Qed.
Print Assumptions C165_whole_episodes.

(* The boundaries which IMPALA.store_episode writes into the steps survive the buffer: whatever
   episodes are drawn, also with repetitions and after the ring has wrapped around, update() finds
   that the recorded lengths add up, and the targets are those of C33 for the drawn episodes. *)
Theorem C165_boundaries_survive : forall (S : Type) (ok : tr S -> bool) cap (raw : list (list (tr S))) eps n pick g bc br V sim,
  0 < cap -> Forall2 (fun r e => im_store r = Ok e) raw eps -> (forall e, In e eps -> length e <= cap) ->
  let kept := retained cap (accepted ok eps) in
  length pick = Nat.min (length kept) n -> (forall i, In i pick -> i < length kept) ->
  exists sts, sample_episode (after ok cap eps) n pick = Ok (length sts, concat sts) /\
    (forall st, In st sts -> exists ep, In ep raw /\ im_store ep = Ok st) /\
    exists vs vss, im_targets g bc br V sim (concat sts) = Ok (vs, vss) /\
      length vs = length (concat sts) /\ length vss = length (concat sts).
Proof.
  intros S ok cap raw eps n pick g bc br V sim C ST L kept LP P.
  destruct (@C165_whole_episodes _ ok cap eps n pick C L LP P) as (sts & E & EL & EN). fold kept in EN, EL.
  assert (IN : forall st, In st sts -> exists ep, In ep raw /\ im_store ep = Ok st).
  { intros st I. apply In_nth_error in I as (j & EJ).
    assert (JL : j < length pick) by (rewrite LP; fold kept; rewrite <- EL; apply nth_error_Some; congruence).
    destruct (nth_error pick j) as [i|] eqn:PI; [|apply nth_error_None in PI; lia].
    specialize (EN j i PI). rewrite EJ in EN. symmetry in EN. apply nth_error_In in EN.
    destruct (proj1 (retained_longest_suffix cap (accepted ok eps))) as (d & ED).
    assert (A : In st (accepted ok eps)) by (rewrite ED; apply in_or_app; right; exact EN).
    unfold accepted in A. apply filter_In in A as [A _].
    clear - ST A. induction ST as [|r e rs es H ST IH]; [destruct A|].
    destruct A as [->|A]; [exists r; split; [now left|auto]|]. destruct (IH A) as (ep & I1 & I2). exists ep. split; [now right|auto]. }
  exists sts. split; [exact E|]. split; [exact IN|].
  destruct sts as [|st0 sr] eqn:Es.
  - exists [], []. cbn. auto.
  - destruct (IN st0 (or_introl eq_refl)) as (ep0 & _ & I0). destruct ep0 as [|t0 ep0]; [discriminate|].
    destruct (@C33_targets_partial S t0 g bc br V sim (st0 :: sr)) as (vs & vss & T1 & T2 & T3 & _).
    { intros st I. destruct (IN st I) as (ep & _ & H). eauto. }
    exists vs, vss. auto.
Qed.
Print Assumptions C165_boundaries_survive.

(* Buffer.clear forgets the episode table (C04), so a draw after it fails whenever anything is picked. *)
Theorem C165_after_clear_refuted : forall T (ok : T -> bool) cap eps n pick,
  0 < cap -> (forall e, In e eps -> length e <= cap) ->
  let kept := retained cap (accepted ok eps) in
  pick <> [] -> (forall i, In i pick -> i < length kept) ->
  sample_episode (b_clear (after ok cap eps)) n pick = Err EIndex.
Proof.
  intros T ok cap eps n pick C L kept NE P.
  pose proof (run_inv ok eps C L) as I.
  pose proof (@run_nodup T ok (map BStore eps) (b_new cap) (NoDup_nil _)) as ND.
  set (b := after ok cap eps) in *.
  destruct (Inv_retained I) as (d & ret & EH & LN & DI & LE). fold kept in EH, LN, LE.
  assert (LR : length ret = length kept).
  { unfold lens in LN. apply (f_equal (@length nat)) in LN. now rewrite !map_length in LN. }
  unfold sample_episode. cbn [b_clear b_eth].
  assert (B : forall i, In i pick -> i < length (dkeys (b_eth b))).
  { intros i Hi. rewrite (di_eth DI). unfold dkeys, eth_of. rewrite !map_length. unfold epi in *. rewrite LR. auto. }
  destruct (index_all_ok (dkeys (b_eth b)) pick B) as (es & -> & EL & EP). cbn [bind].
  destruct pick as [|i r]; [congruence|]. destruct es as [|e es]; [discriminate|].
  assert (KE : nth_error (dkeys (b_eth b)) i = Some e) by (rewrite <- (EP 0 i eq_refl); reflexivity).
  unfold dkeys in KE. rewrite nth_error_map in KE. destruct (nth_error (b_eth b) i) as [[e' hs]|] eqn:EI; [|discriminate].
  cbn in KE. injection KE as ->. apply nth_error_In in EI.
  cbn [episodes_steps]. unfold episode_steps. cbn [b_clear b_eth b_st st_clear st_data].
  rewrite (dget_In _ _ _ ND EI).
  rewrite (di_eth DI) in EI. unfold eth_of in EI. apply in_map_iff in EI as ([[k0 s0] l0] & EQ & IR).
  injection EQ as <- <-.
  assert (LP : 0 < l0).
  { pose proof (di_chain DI) as CH. revert IR CH. generalize (total d). clear. induction ret as [|[[k1 s1] l1] r IH]; intros s I CH; [destruct I|]. destruct I as [E|I].
    - injection E as -> -> ->. apply CH.
    - cbn in CH. eapply IH; eauto; apply CH. }
  destruct l0 as [|l0]; [lia|]. rewrite modseq_S. cbn [index_all]. destruct (s0 mod cap); reflexivity.
Qed.
Print Assumptions C165_after_clear_refuted.

(* an empty buffer yields an empty batch, for every requested size *)
Theorem C165_empty : forall T cap n, sample_episode (b_new (T := T) cap) n [] = Ok (0, []).
Proof. reflexivity. Qed.
Print Assumptions C165_empty.

(* capacity 5: the third episode evicts the first as a whole; drawing the same episode twice *)
Example C165_nonvacuous :
  let b := after (fun _ => true) 5 [[1;2;3]; [4;5]; [6;7]; [8]] in
  sample_episode b 2 [2; 0] = Ok (2, [8; 4; 5]) /\ sample_episode b 9 [1; 1; 0] = Ok (3, [6; 7; 6; 7; 4; 5]) /\
  sample_episode (b_clear b) 2 [2; 0] = Err EIndex.
Proof. vm_compute. auto. Qed.
