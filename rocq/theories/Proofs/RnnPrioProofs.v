From Verif Require Import Lib.Rat Model.Buffer Model.WeightTree Model.PrioritizedBuffer Model.RnnBuffer
  Spec.BufferSpec Spec.WeightTreeSpec Spec.PrioritizedSpec Spec.RnnSpec
  Proofs.BufferProofs Proofs.BufferDict Proofs.WeightTreeProofs Proofs.PrioritizedProofs Proofs.RnnProofs.
Open Scope nat_scope.

Lemma tset_all_val ps : forall f k, In k (map fst ps) -> exists w, In (k, w) ps /\ tset_all f ps k = w.
Proof.
  induction ps as [|[i x] r IH]; intros f k H; cbn in *; [tauto|].
  destruct (in_dec Nat.eq_dec k (map fst r)) as [I|N].
  - destruct (IH (tset f i x) k I) as (w & A & B). exists w. auto.
  - destruct H as [->|H]; [|tauto]. exists x. split; auto. unfold tset_all. cbn.
    change (tset_all (tset f k x) r k = x). rewrite tset_all_notin by auto. unfold tset. now rewrite Nat.eqb_refl.
Qed.

Lemma nth_combine {A B} (l : list A) (m : list B) a b : In (a, b) (combine l m) ->
  exists o, nth_error l o = Some a /\ nth_error m o = Some b.
Proof.
  revert m; induction l as [|x l IH]; intros [|y m] H; cbn in *; try tauto.
  destruct H as [E|H]; [injection E as -> ->; exists 0; auto|].
  destruct (IH m H) as (o & P & Q). exists (S o). auto.
Qed.

Lemma Qclt_irr (x : Qc) : ~ (x < x)%Qc.
Proof. intros H. apply (Qclt_not_eq _ _ H). reflexivity. Qed.

Lemma mod_add_small s o cap : 0 < cap -> s mod cap + o < cap -> (s + o) mod cap = s mod cap + o.
Proof.
  intros C H. rewrite <- (Nat.add_mod_idemp_l s o cap) by lia. apply Nat.mod_small. lia.
Qed.

Section P.
  Context {T : Type}.
  Variable ok : T -> bool.
  Variable norm : Qc -> Qc.
  Variable pw : Qc -> Qc -> Qc.
  Variables beta inc : Qc.
  Hypothesis norm_pos : forall x, (0 < norm x)%Qc.
  Variable L : nat.
  Hypothesis L1 : 1 <= L.

  (* slot k starts a complete window of one stored episode that was not overwritten *)
  Definition starts_at (cap k : nat) (H : list (list T)) : Prop :=
    exists H1 e H2 o, H = H1 ++ e :: H2 /\ o + L <= length e /\ k = (total H1 + o) mod cap /\
      total H <= total H1 + o + cap /\ total H1 mod cap + length e <= cap.

  Record RInv (cap : nat) (p : pbuf T) (H : list (list T)) (f : nat -> Qc) : Prop := {
    ri_b : BInv cap (pb_b p) (concat H);
    ri_t : WInv (pb_t p) f;
    ri_sz : wt_size (pb_t p) = cap;
    ri_nn : forall k, (0 <= f k)%Qc;
    ri_pos : forall k, (0 < f k)%Qc -> starts_at cap k H }.

  Lemma RInv_cap cap p H f : RInv cap p H f -> 0 < cap.
  Proof. intros I. rewrite <- (bi_cap _ _ _ (ri_b _ _ _ _ I)). apply (bi_st _ _ _ (ri_b _ _ _ _ I)). Qed.

  Lemma RInv_new cap : 1 <= cap -> RInv cap (pb_new beta cap) [] (fun _ => 0%Qc).
  Proof.
    intros C. split; cbn; auto; try lia. - apply BInv_new; lia. - apply wt_new_inv; auto.
    - intros _. apply Qcle_refl. - intros k H. exfalso. revert H. apply Qclt_irr.
  Qed.

  Lemma prios_ok (p : pbuf T) len ps :
    (ps = PNone \/ (exists l, ps = PArray l /\ length l = len) \/
       (exists l, ps = PList l /\ length l = len /\ L <= len)) ->
    exists ws, rp_prios norm L p len ps = Ok ws /\ length ws = len /\
      forall o w, nth_error ws o = Some w -> (0 <= w)%Qc /\ ((0 < w)%Qc -> o + L <= len).
  Proof.
    assert (Z : forall xs : list Qc, length xs = len -> L <= len ->
       length (zero_from (len - L + 1) (map norm xs)) = len /\
       forall o w, nth_error (zero_from (len - L + 1) (map norm xs)) o = Some w -> (0 <= w)%Qc /\ ((0 < w)%Qc -> o + L <= len)).
    { intros xs E LL. unfold zero_from. split.
      - rewrite app_length, firstn_length, repeat_length, map_length. lia.
      - intros o w H. destruct (Nat.lt_ge_cases o (len - L + 1)) as [Q|Q].
        + rewrite nth_error_app1 in H by (rewrite firstn_length, map_length; lia).
          split; [|lia]. apply nth_error_In in H. apply In_nth_error in H as (j & Hj).
          assert (H : In w (map norm xs)). { rewrite <- (firstn_skipn (len - L + 1) (map norm xs)). apply in_or_app. left. eapply nth_error_In; eauto. }
          apply in_map_iff in H as (x & <- & _). apply Qclt_le_weak, norm_pos.
        + rewrite nth_error_app2 in H by (rewrite firstn_length, map_length; lia).
          apply nth_error_In, repeat_spec in H. subst w. split; [apply Qcle_refl|]. intros B. exfalso. revert B. apply Qclt_irr. }
    intros [->|[(l & -> & E)|(l & -> & E & LL)]]; unfold rp_prios.
    - eexists. split; [reflexivity|]. split; [now rewrite map_length, seq_length|].
      intros o w H. rewrite nth_error_map in H. destruct (nth_error (seq 0 len) o) as [q|] eqn:Eq; [|discriminate].
      assert (o < len). { rewrite <- (seq_length len 0). apply nth_error_Some. congruence. }
      rewrite (nth_error_nth' _ 0), seq_nth in Eq by (rewrite ?seq_length; auto). injection Eq as <-. cbn in H.
      destruct (Nat.leb_spec (o + L) len); injection H as <-.
      + split; auto. apply Qclt_le_weak, norm_pos.
      + split; [apply Qcle_refl|]. intros B. exfalso. revert B. apply Qclt_irr.
    - destruct (Nat.ltb_spec len L).
      + eexists. split; [reflexivity|]. split; [now rewrite repeat_length|].
        intros o w N. apply nth_error_In, repeat_spec in N. subst w. split; [apply Qcle_refl|].
        intros B. exfalso. revert B. apply Qclt_irr.
      + eexists. split; [reflexivity|]. now apply Z.
    - destruct (Nat.ltb_spec len L); [lia|]. eexists. split; [reflexivity|]. now apply Z.
  Qed.

  Lemma starts_at_keep cap k H ep : 0 < cap -> starts_at cap k H -> length ep <= cap ->
    ~ In k (modseq cap (total H) (length ep)) -> starts_at cap k (H ++ [ep]).
  Proof.
    intros C (H1 & e & H2 & o & -> & O & -> & W & NW) LE N.
    exists H1, e, (H2 ++ [ep]), o. split; [now rewrite <- app_assoc|]. split; auto. split; auto. split; auto.
    rewrite total_app. rewrite !(total_cons ep), (total_app H1) in *. rewrite total_cons in *. cbn [total concat length] in *.
    unfold total at 3. cbn [concat length].
    destruct (Nat.le_gt_cases (total H1 + (length e + total H2) + (length ep + 0)) (total H1 + o + cap)); auto.
    exfalso. apply N. apply In_modseq. exists (total H1 + o + cap). split; [|lia].
    replace (total H1 + o + cap) with (total H1 + o + 1 * cap) by lia. apply Nat.mod_add. lia.
  Qed.

  Lemma RInv_store cap p H f ep ps : RInv cap p H f -> ep <> [] -> forallb ok ep = true ->
    total H mod cap + length ep <= cap ->
    (ps = PNone \/ (exists l, ps = PArray l /\ length l = length ep) \/
       (exists l, ps = PList l /\ length l = length ep /\ L <= length ep)) ->
    snd (rp_store ok norm L p ep ps) = Ok tt /\ exists f', RInv cap (fst (rp_store ok norm L p ep ps)) (H ++ [ep]) f'.
  Proof.
    intros I NE OK FIT PS. pose proof (RInv_cap _ _ _ _ I) as C. destruct I as [IB IT SZ NN POS].
    destruct (prios_ok p (length ep) ps PS) as (ws & EW & LW & PW).
    destruct (BInv_store ok cap (pb_b p) (concat H) ep IB NE OK ltac:(lia)) as (b1 & E & IB1 & CN & G).
    unfold rp_store. rewrite E. rewrite CN. cbn [Nat.sub]. rewrite Nat.sub_0_r, G, EW.
    set (hs := modseq cap (length (concat H)) (length ep)) in *.
    destruct (update_batch_inv (pb_t p) f ws (map Z.of_nat hs) IT) as (w' & E2 & IT1).
    { split; [unfold hs; rewrite map_length, modseq_length; auto|]. rewrite SZ. intros i Hi.
      apply in_map_iff in Hi as (k & <- & K). apply In_modseq in K as (n & <- & _).
      pose proof (Nat.mod_upper_bound n cap ltac:(lia)). unfold valid_idx. lia. }
    rewrite E2. cbn [fst snd]. split; auto.
    cbn [spec_step] in IT1. rewrite spec_batch_tset_all, map_map in IT1.
    rewrite (map_ext _ (fun x => x)) in IT1 by (intros; apply Nat2Z.id). rewrite map_id in IT1.
    exists (tset_all f (combine hs ws)).
    assert (MF : map fst (combine hs ws) = hs) by (apply map_fst_combine; unfold hs; rewrite modseq_length; auto).
    assert (CASE : forall k, (exists o w, nth_error hs o = Some k /\ nth_error ws o = Some w /\ tset_all f (combine hs ws) k = w)
                     \/ (~ In k hs /\ tset_all f (combine hs ws) k = f k)).
    { intros k. destruct (in_dec Nat.eq_dec k hs) as [K|K].
      - left. rewrite <- MF in K. destruct (tset_all_val _ f k K) as (w & A & B). apply nth_combine in A as (o & A1 & A2). eauto.
      - right. split; auto. apply tset_all_notin. now rewrite MF. }
    split; cbn [pb_b pb_t]; auto.
    - rewrite concat_app. cbn. now rewrite app_nil_r.
    - intros k. destruct (CASE k) as [(o & w & A & B & ->)|[_ ->]]; auto. apply (PW _ _ B).
    - intros k K. destruct (CASE k) as [(o & w & A & B & E3)|[N E3]]; rewrite E3 in K.
      + apply (PW _ _ B) in K. exists H, ep, [], o. split; auto. split; auto.
        assert (OL : o < length ep) by lia. split.
        * unfold hs, modseq in A. rewrite nth_error_map, (nth_error_nth' _ 0), seq_nth in A by (rewrite ?seq_length; auto).
          cbn in A. injection A as <-. reflexivity.
        * rewrite total_app, total_cons. unfold total at 2. cbn [concat length]. split; auto.
          pose proof (Nat.mod_upper_bound (total H) cap). lia.
      + apply starts_at_keep; auto; lia.
  Qed.

  Lemma RInv_refused cap p H f ep ps : RInv cap p H f -> ep = [] \/ forallb ok ep = false ->
    snd (rp_store ok norm L p ep ps) = Err EValue /\ RInv cap (fst (rp_store ok norm L p ep ps)) H f.
  Proof.
    intros [IB IT SZ NN POS] Q. unfold rp_store, b_store_episode.
    destruct ep as [|t0 e0].
    - cbn. split; auto. destruct p. split; auto.
    - destruct Q as [Q|Q]; [discriminate|]. rewrite Q. cbn [negb fst snd]. split; auto.
      split; cbn; auto. destruct IB as [S C D]. split; cbn; auto. eapply DC_mono; [|exact D]. lia.
  Qed.

  Lemma leaf_r cap p H f : RInv cap p H f -> forall k, leaf p k = f k.
  Proof.
    intros [IB IT SZ NN POS] k. unfold leaf. rewrite (leaves_inv _ _ IT), SZ.
    destruct (Nat.lt_ge_cases k cap).
    - rewrite (nth_indep _ _ (f 0)) by (rewrite map_length, seq_length; auto).
      rewrite map_nth, seq_nth by auto. reflexivity.
    - rewrite nth_overflow by (rewrite map_length, seq_length; auto). symmetry. apply (wi_pad _ _ IT). lia.
  Qed.

  Lemma RInv_update cap p H f ps idx : RInv cap p H f -> length ps = length idx ->
    (forall i, In i idx -> (0 < leaf p i)%Qc) ->
    snd (pb_update norm p ps (map Z.of_nat idx)) = Ok tt /\
    exists f', RInv cap (fst (pb_update norm p ps (map Z.of_nat idx))) H f'.
  Proof.
    intros I LE V. pose proof (leaf_r _ _ _ _ I) as LF. destruct I as [IB IT SZ NN POS].
    assert (V' : forall i, In i idx -> (0 < f i)%Qc) by (intros i Hi; rewrite <- LF; auto).
    unfold pb_update.
    destruct (update_batch_inv (pb_t p) f (map norm ps) (map Z.of_nat idx) IT) as (w' & -> & IT1).
    { split; [now rewrite !map_length|]. rewrite SZ. intros i Hi. apply in_map_iff in Hi as (j & <- & J). apply V' in J.
      unfold valid_idx. destruct (Nat.lt_ge_cases j cap); [lia|].
      rewrite <- SZ in H0. apply (wi_pad _ _ IT) in H0. rewrite H0 in J. exfalso. revert J. apply Qclt_irr. }
    cbn. split; auto. cbn [spec_step] in IT1. rewrite spec_batch_tset_all, map_map in IT1.
    rewrite (map_ext (fun x => Z.to_nat (Z.of_nat x)) (fun x => x)), map_id in IT1 by (intros; apply Nat2Z.id).
    exists (tset_all f (combine idx (map norm ps))).
    assert (MF : map fst (combine idx (map norm ps)) = idx) by (apply map_fst_combine; rewrite map_length; auto).
    assert (CASE : forall k, (In k idx /\ (0 < tset_all f (combine idx (map norm ps)) k)%Qc)
                     \/ tset_all f (combine idx (map norm ps)) k = f k).
    { intros k. destruct (in_dec Nat.eq_dec k idx) as [K|K].
      - left. split; auto. pose proof K as K'. rewrite <- MF in K'. destruct (tset_all_val _ f k K') as (w & A & ->).
        apply in_combine_r, in_map_iff in A as (x & <- & _). auto.
      - right. apply tset_all_notin. now rewrite MF. }
    split; cbn [pb_b pb_t]; auto.
    - intros k. destruct (CASE k) as [[_ P]| ->]; auto. now apply Qclt_le_weak.
    - intros k K. apply POS. destruct (CASE k) as [[P _]|E]; auto. now rewrite <- E.
  Qed.

  Lemma sample_state (p : pbuf T) us : exists c, fst (rp_sample pw inc L p us) = MkPb (pb_b p) (pb_t p) c.
  Proof.
    unfold rp_sample. destruct ((length us =? 0) || (b_size (pb_b p) =? 0)); [exists (pb_curr p); destruct p; auto|].
    unfold pb_sample_index. destruct (bind _ _) as [[idx pr]|e].
    - destruct (length us =? 1); cbn; eauto.
    - exists (pb_curr p). destruct p; auto.
  Qed.

  Lemma rreach_inv cap p H : 1 <= cap -> rreach ok norm pw beta inc L cap p H -> exists f, RInv cap p H f.
  Proof.
    intros C R. induction R as [|p H ep ps R (f & I) NE OK FIT PS|p H ep ps R (f & I) Q|p H ps idx R (f & I) LE V|p H us R (f & I)].
    - exists (fun _ => 0%Qc). now apply RInv_new.
    - now apply (RInv_store cap p H f ep ps I).
    - exists f. now apply (RInv_refused cap p H f ep ps I).
    - now apply (RInv_update cap p H f ps idx I).
    - exists f. destruct (sample_state p us) as (c & ->). destruct I; split; auto.
  Qed.

  Lemma starts_window cap p H f k : RInv cap p H f -> starts_at cap k H ->
    exists e pos, In e H /\ pos + L <= length e /\ index_all (st_data (b_st (pb_b p))) (seq k L) = Ok (window L pos e).
  Proof.
    intros I (H1 & e & H2 & o & EH & O & EK & W & NW). pose proof (RInv_cap _ _ _ _ I) as C.
    exists e, o. split; [rewrite EH; apply in_elt|]. split; auto.
    pose proof (bi_st _ _ _ (ri_b _ _ _ _ I)) as SI. pose proof (bi_cap _ _ _ (ri_b _ _ _ _ I)) as CP.
    set (s := total H1) in *.
    assert (KE : k = s mod cap + o) by (rewrite EK; apply mod_add_small; lia).
    assert (TH : length (concat H) = s + (length e + total H2)).
    { rewrite EH. change (length (concat (H1 ++ e :: H2))) with (total (H1 ++ e :: H2)). rewrite total_app, total_cons. reflexivity. }
    assert (D : forall j, j < L -> nth_error (st_data (b_st (pb_b p))) (k + j) = nth_error e (o + j)).
    { intros j J. rewrite KE. replace (s mod cap + o + j) with ((s + (o + j)) mod cap) by (rewrite mod_add_small; lia).
      rewrite <- CP at 1. rewrite (si_dat SI); [|lia|rewrite CP; unfold total in W; lia].
      rewrite EH, concat_app. cbn [concat]. rewrite nth_error_app2 by (unfold s, total; lia).
      unfold s, total. replace (length (concat H1) + (o + j) - length (concat H1)) with (o + j) by lia.
      apply nth_error_app1. lia. }
    assert (G : forall n a, a + n <= L -> index_all (st_data (b_st (pb_b p))) (seq (k + a) n) = Ok (firstn n (skipn (o + a) e))).
    { induction n as [|n IH]; intros a A; [reflexivity|]. cbn [seq index_all]. rewrite D by lia.
      destruct (nth_error e (o + a)) as [x|] eqn:EX; [|apply nth_error_None in EX; lia].
      replace (S (k + a)) with (k + S a) by lia. rewrite IH by lia. cbn [bind].
      assert (SK : skipn (o + a) e = x :: skipn (o + S a) e).
      { clear - EX. replace (o + S a) with (S (o + a)) by lia. revert EX. generalize (o + a). revert e.
        induction e as [|y e IH]; intros [|n] H; cbn in *; try discriminate; [congruence|]. now apply IH. }
      rewrite SK. reflexivity. }
    specialize (G L 0 ltac:(lia)). rewrite !Nat.add_0_r in G. exact G.
  Qed.

  Lemma prefix_step f i : prefix f (S i) = (prefix f i + f i)%Qc.
  Proof. apply prefix_S. Qed.

  Lemma rp_sample_cases cap p H us : 1 <= cap -> rreach ok norm pw beta inc L cap p H ->
    1 <= length us -> (forall u, In u us -> (0 < u)%Qc /\ (u < 1)%Qc) -> (tiny < wt_sum (pb_t p))%Qc ->
    (length us = 1 -> snd (rp_sample pw inc L p us) = Err EType) /\
    (2 <= length us -> exists batch idx ws wins,
      snd (rp_sample pw inc L p us) = Ok (length us, batch, idx, ws) /\
      batch = concat wins /\ length wins = length us /\ length idx = length us /\
      (forall j w i, nth_error wins j = Some w -> nth_error idx j = Some i ->
        (0 < leaf p i)%Qc /\ nth_error w 0 = stored p i /\
        exists e pos, In e H /\ pos + L <= length e /\ w = window L pos e)).
  Proof.
    intros C R LU U TT. destruct (rreach_inv cap p H C R) as (f & I).
    pose proof (leaf_r _ _ _ _ I) as LF.
    assert (T0 : (0 < tiny)%Qc) by reflexivity.
    assert (QR : forall k u, nth_error us k = Some u -> exists i,
        wt_find1 (pb_t p) (query_point (wt_sum (pb_t p)) u k (length us)) = Ok i /\ i < cap /\ (0 < f i)%Qc).
    { intros k u Hk. destruct (U u (nth_error_In _ _ Hk)) as [U0 U1].
      destruct (query_point_range (wt_sum (pb_t p)) u k (length us)) as [A B]; try lia; [qcl|qcl|].
      assert (Q0 : (0 < query_point (wt_sum (pb_t p)) u k (length us))%Qc).
      { unfold query_point. fold tiny.
        assert (0 < (nq k + u) * wt_sum (pb_t p) / nq (length us))%Qc.
        { replace ((nq k + u) * wt_sum (pb_t p) / nq (length us))%Qc with ((nq k + u) * (wt_sum (pb_t p) / nq (length us)))%Qc by (unfold Qcdiv; ring).
          apply Qcmul_pos; [pose proof (nq_nonneg k); qcl|]. unfold Qcdiv. apply Qcmul_pos; [qcl|]. apply Qcinv_pos, nq_pos. lia. }
        unfold Qcmin, Qcmax. qdec; qcl. }
      destruct (find_inv _ _ _ (ri_t _ _ _ _ I) Q0 B) as (i & E & LI & X & Y).
      exists i. split; auto. rewrite (ri_sz _ _ _ _ I) in LI. split; auto.
      rewrite prefix_step in Y. qcl. }
    assert (LUS : length us <> 0) by lia.
    assert (QL : length (queries (wt_sum (pb_t p)) us) = length us).
    { unfold queries. now rewrite map_length, strata_length. }
    assert (QN : forall k u, nth_error us k = Some u ->
       nth_error (queries (wt_sum (pb_t p)) us) k = Some (query_point (wt_sum (pb_t p)) u k (length us))).
    { intros k u Hk. apply queries_nth; auto; [qcl|]. destruct (U u (nth_error_In _ _ Hk)). qcl. }
    destruct (wt_find_nth (pb_t p) (queries (wt_sum (pb_t p)) us)) as (idx & E & LI & G).
    { intros x Hx. apply In_nth_error in Hx as (k & Hk).
      assert (k < length us) by (rewrite <- QL; apply nth_error_Some; congruence).
      destruct (nth_error us k) as [u|] eqn:EU; [|apply nth_error_None in EU; lia].
      rewrite (QN _ _ EU) in Hk. injection Hk as <-. destruct (QR _ _ EU) as (i & Ei & _). eauto. }
    assert (ALL : forall i, In i idx -> i < cap /\ (0 < f i)%Qc).
    { intros i Hi. apply In_nth_error in Hi as (k & Hk).
      assert (k < length us) by (rewrite <- QL, <- LI; apply nth_error_Some; congruence).
      destruct (nth_error us k) as [u|] eqn:EU; [|apply nth_error_None in EU; lia].
      destruct (QR _ _ EU) as (i' & Ei & P). destruct (G k _ (QN _ _ EU)) as (i'' & N' & E').
      assert (i = i') by congruence. subst. auto. }
    assert (LW : wt_leaf_weight (pb_t p) (map Z.of_nat idx) = Ok (map f idx)).
    { unfold wt_leaf_weight. rewrite (ri_sz _ _ _ _ I).
      assert (FB : forallb (in_range cap) (map Z.of_nat idx) = true).
      { apply forallb_forall. intros z Hz. apply in_map_iff in Hz as (i & <- & Hi). apply ALL in Hi.
        apply in_range_spec. unfold valid_idx. lia. }
      rewrite FB. cbn [negb]. rewrite map_map.
      apply index_all_fun. intros j Hj. rewrite Nat2Z.id. apply ALL in Hj.
      pose proof (leaves_inv _ _ (ri_t _ _ _ _ I)) as LV. unfold wt_leaves in LV. rewrite (ri_sz _ _ _ _ I) in LV.
      rewrite <- (firstn_skipn cap (wt_w (pb_t p))). rewrite LV.
      rewrite nth_error_app1 by (rewrite map_length, seq_length; lia).
      rewrite nth_error_map, (nth_error_nth' _ 0) by (rewrite seq_length; lia). rewrite seq_nth by lia. reflexivity. }
    assert (WIN : forall is, (forall i, In i is -> (0 < f i)%Qc) -> exists wins,
       index_all (st_data (b_st (pb_b p))) (flat_map (fun i => seq i L) is) = Ok (concat wins) /\
       Forall2 (fun i w => index_all (st_data (b_st (pb_b p))) (seq i L) = Ok w /\
                  exists e pos, In e H /\ pos + L <= length e /\ w = window L pos e) is wins).
    { induction is as [|i r IH]; intros P; [exists []; cbn; auto|].
      destruct IH as (wins & A & B); [intros; apply P; now right|].
      destruct (starts_window cap p H f i I (ri_pos _ _ _ _ I i (P i (or_introl eq_refl)))) as (e & pos & IN & PL & D).
      exists (window L pos e :: wins). cbn [flat_map concat]. split; [now apply index_all_app|]. constructor; eauto 7. }
    destruct (WIN idx) as (wins & A & B); [intros i Hi; now apply ALL|].
    assert (SZ : b_size (pb_b p) <> 0).
    { destruct us as [|u us']; [cbn in LUS; lia|]. destruct (QR 0 u eq_refl) as (i & _ & _ & P).
      destruct (ri_pos _ _ _ _ I i P) as (H1 & e & H2 & o & EH & O & _).
      rewrite (size_eq _ _ _ (ri_b _ _ _ _ I)). rewrite EH. change (length (concat (H1 ++ e :: H2))) with (total (H1 ++ e :: H2)).
      rewrite total_app, total_cons. lia. }
    unfold rp_sample. destruct (Nat.eqb_spec (length us) 0); [lia|]. destruct (Nat.eqb_spec (b_size (pb_b p)) 0); [lia|]. cbn [orb].
    unfold pb_sample_index. rewrite E. cbn [bind]. rewrite LW. cbn [bind].
    destruct (Nat.eqb_spec (length us) 1); [split; [reflexivity|lia]|]. split; [lia|]. intros _.
    cbn [snd pb_b]. rewrite A. cbn [bind].
    exists (concat wins), idx. eexists. exists wins. split; [rewrite LI, QL; reflexivity|]. split; auto.
    split; [rewrite <- (F2_length _ _ _ B); congruence|]. split; [congruence|].
    intros j w i Jw Ji. destruct (F2_nth_l _ _ _ B j w Jw) as (i' & Ji' & D & X). assert (i' = i) by congruence. subst i'.
    split. { rewrite LF. apply ALL. eapply nth_error_In; eauto. }
    split; auto. unfold stored. rewrite (index_all_nth _ _ _ 0 i D); auto.
    destruct L; [lia|reflexivity].
  Qed.
  Lemma rp_sample_ok cap p H us : 1 <= cap -> rreach ok norm pw beta inc L cap p H ->
    2 <= length us -> (forall u, In u us -> (0 < u)%Qc /\ (u < 1)%Qc) -> (tiny < wt_sum (pb_t p))%Qc ->
    exists batch idx ws wins,
      snd (rp_sample pw inc L p us) = Ok (length us, batch, idx, ws) /\
      batch = concat wins /\ length wins = length us /\ length idx = length us /\
      (forall j w i, nth_error wins j = Some w -> nth_error idx j = Some i ->
        (0 < leaf p i)%Qc /\ nth_error w 0 = stored p i /\
        exists e pos, In e H /\ pos + L <= length e /\ w = window L pos e).
  Proof. intros C R LU U TT. apply (rp_sample_cases cap p H us C R); auto. lia. Qed.
End P.
