From Verif Require Import Lib.Rat Model.Buffer Model.WeightTree Model.PrioritizedBuffer
  Spec.WeightTreeSpec Spec.PrioritizedSpec Spec.BufferSpec
  Proofs.BufferProofs Proofs.BufferDict Proofs.WeightTreeProofs.

Section P.
  Context {T : Type}.
  Variable ok : T -> bool.
  Variable norm : Qc -> Qc.
  Variable pw : Qc -> Qc -> Qc.
  Variables beta inc : Qc.
  Hypothesis norm_pos : forall x, (0 < norm x)%Qc.

  Record PInv (cap : nat) (p : pbuf T) (W : list T) (f : nat -> Qc) : Prop := {
    pi_b : BInv cap (pb_b p) W;
    pi_t : WInv (pb_t p) f;
    pi_sz : wt_size (pb_t p) = cap;
    pi_pos : forall k, k < b_size (pb_b p) -> (0 < f k)%Qc;
    pi_zero : forall k, b_size (pb_b p) <= k -> f k = 0%Qc }.

  Lemma PInv_new cap : 1 <= cap -> PInv cap (pb_new beta cap) [] (fun _ => 0%Qc).
  Proof. intros C. split; cbn; auto; try lia. - apply BInv_new; lia. - apply wt_new_inv; auto. Qed.

  Lemma tset_all_pos ps : forall f k, (forall q, In q ps -> (0 < snd q)%Qc) ->
    (In k (map fst ps) \/ (0 < f k)%Qc) -> (0 < tset_all f ps k)%Qc.
  Proof.
    induction ps as [|[i x] r IH]; intros f k P H; cbn.
    - destruct H as [[]|H]; auto.
    - apply IH; [intros; apply P; now right|].
      destruct (in_dec Nat.eq_dec k (map fst r)); auto. right. unfold tset.
      destruct (Nat.eqb_spec k i); [apply (P (i, x)); now left|].
      destruct H as [[H|H]|H]; cbn in *; auto; [congruence|tauto].
  Qed.

  Lemma size_eq cap b (W : list T) : BInv cap b W -> b_size b = Nat.min (length W) cap.
  Proof. intros [S C D]. unfold b_size. now rewrite (si_len S), C. Qed.

  (* the slots touched by a store *)
  Lemma slots cap (W ep : list T) k : 0 < cap -> length ep <= cap ->
    (In k (modseq cap (length W) (length ep)) -> k < Nat.min (length (W ++ ep)) cap) /\
    (Nat.min (length W) cap <= k -> k < Nat.min (length (W ++ ep)) cap ->
       In k (modseq cap (length W) (length ep))).
  Proof.
    intros C L. rewrite app_length. split.
    - intros H. apply In_modseq in H as (n & <- & B).
      assert (n mod cap < cap) by (apply Nat.mod_upper_bound; lia).
      destruct (Nat.le_gt_cases cap (length W + length ep)); [lia|].
      rewrite Nat.mod_small by lia. lia.
    - intros A B. apply In_modseq. exists k. split; [apply Nat.mod_small; lia|lia].
  Qed.

  Lemma store_batch cap p W f ep ws : PInv cap p W f -> ep <> [] -> forallb ok ep = true -> length ep <= cap ->
    length ws = length ep -> (forall w, In w ws -> (0 < w)%Qc) ->
    exists b1 t1 f', b_store_episode ok (pb_b p) ep = (b1, Ok tt) /\
      dget (b_cnt b1 - 1) (b_eth b1) = Some (modseq cap (length W) (length ep)) /\
      wt_update_batch (pb_t p) ws (map Z.of_nat (modseq cap (length W) (length ep))) = (t1, Ok tt) /\
      forall c, PInv cap (MkPb b1 t1 c) (W ++ ep) f'.
  Proof.
    intros [IB IT SZ POS ZERO] NE OK L LW PW.
    destruct (BInv_store ok cap (pb_b p) W ep IB NE OK L) as (b1 & E & IB1 & CN & G).
    pose proof (size_eq _ _ _ IB) as S0. pose proof (size_eq _ _ _ IB1) as S1.
    assert (C : 0 < cap) by (rewrite <- (bi_cap _ _ _ IB); apply (bi_st _ _ _ IB)).
    destruct (update_batch_inv (pb_t p) f ws (map Z.of_nat (modseq cap (length W) (length ep))) IT) as (w' & E2 & IT1).
    { split; [rewrite map_length, modseq_length; auto|]. rewrite SZ. intros i H.
      apply in_map_iff in H as (k & <- & K). apply In_modseq in K as (n & <- & _).
      pose proof (Nat.mod_upper_bound n cap ltac:(lia)). unfold valid_idx. lia. }
    set (f' := tset_all f (combine (modseq cap (length W) (length ep)) ws)).
    eexists b1, _, f'. split; [exact E|]. split.
    { rewrite CN. cbn. rewrite Nat.sub_0_r. exact G. }
    split; [exact E2|]. intros c.
    cbn [spec_step] in IT1. rewrite spec_batch_tset_all, map_map in IT1.
    rewrite (map_ext _ (fun x => x)) in IT1 by (intros; apply Nat2Z.id). rewrite map_id in IT1.
    fold f' in IT1.
    set (hs := modseq cap (length W) (length ep)) in *.
    assert (MF : map fst (combine hs ws) = hs) by (apply map_fst_combine; unfold hs; rewrite modseq_length; auto).
    split; cbn [pb_b pb_t]; [exact IB1|exact IT1|exact SZ| |].
    - intros k K. unfold f'. apply tset_all_pos.
      + intros [i x] Q. apply in_combine_r in Q. cbn. auto.
      + rewrite MF. destruct (Nat.lt_ge_cases k (b_size (pb_b p))); [right; auto|left].
        apply (slots cap W ep k C L); lia.
    - intros k K. unfold f'. rewrite tset_all_notin.
      + apply ZERO. rewrite S1, app_length in K. lia.
      + rewrite MF. intros H. apply (slots cap W ep k C L) in H. lia.
  Qed.

  Lemma PInv_store cap p W f ep ps : PInv cap p W f -> ep <> [] -> forallb ok ep = true -> length ep <= cap ->
    (forall l, ps = Some l -> length l = length ep) ->
    snd (pb_store ok norm p ep ps) = Ok tt /\ exists f', PInv cap (fst (pb_store ok norm p ep ps)) (W ++ ep) f'.
  Proof.
    intros I NE OK L LP. unfold pb_store.
    set (ws := match ps with None => repeat (norm (wt_leaf_max (pb_t p))) (length ep) | Some l => map norm l end).
    destruct (store_batch cap p W f ep ws I NE OK L) as (b1 & t1 & f' & E1 & G & E2 & I').
    - unfold ws. destruct ps; [rewrite map_length; auto|apply repeat_length].
    - intros w H. unfold ws in H. destruct ps; [apply in_map_iff in H as (x & <- & _)|apply repeat_spec in H; subst]; auto.
    - rewrite E1, G. rewrite modseq_length. fold ws. rewrite E2. cbn. eauto.
  Qed.

  Lemma PInv_refused cap p W f ep ps : PInv cap p W f -> ep = [] \/ forallb ok ep = false ->
    snd (pb_store ok norm p ep ps) = Err EValue /\ PInv cap (fst (pb_store ok norm p ep ps)) W f.
  Proof.
    intros [IB IT SZ POS ZERO] H. unfold pb_store, b_store_episode.
    destruct ep as [|t0 e0].
    - cbn. split; auto. destruct p. split; auto.
    - destruct H as [H|H]; [discriminate|]. rewrite H. cbn [negb fst snd]. split; auto.
      split; cbn; auto. destruct IB as [S C D]. split; cbn; auto. eapply DC_mono; [|exact D]. lia.
  Qed.

  Lemma PInv_update cap p W f ps idx : PInv cap p W f -> length ps = length idx ->
    (forall i, In i idx -> valid_idx (b_size (pb_b p)) i) ->
    snd (pb_update norm p ps idx) = Ok tt /\ exists f', PInv cap (fst (pb_update norm p ps idx)) W f'.
  Proof.
    intros [IB IT SZ POS ZERO] L V. pose proof (size_eq _ _ _ IB) as S0. unfold pb_update.
    destruct (update_batch_inv (pb_t p) f (map norm ps) idx IT) as (w' & -> & IT1).
    { split; [now rewrite map_length|]. rewrite SZ. intros i H. apply V in H. unfold valid_idx in *. lia. }
    cbn. split; auto. cbn [spec_step] in IT1. rewrite spec_batch_tset_all in IT1.
    eexists; split; cbn [pb_b pb_t]; eauto.
    - intros k K. apply tset_all_pos; [|right; auto].
      intros [i x] Q. apply in_combine_r, in_map_iff in Q as (y & <- & _). cbn. auto.
    - intros k K. rewrite tset_all_notin; auto. intros H.
      rewrite map_fst_combine in H by (rewrite !map_length; auto).
      apply in_map_iff in H as (z & <- & Z1). apply V in Z1. unfold valid_idx in Z1. lia.
  Qed.

  Lemma PInv_clear cap p W f : PInv cap p W f -> PInv cap (pb_clear beta p) [] (fun _ => 0%Qc).
  Proof.
    intros [IB IT SZ POS ZERO]. pose proof (wi_size _ _ IT) as S1. rewrite SZ in S1.
    split; cbn; auto; try lia.
    - eapply BInv_clear; eauto.
    - rewrite (bi_cap _ _ _ IB). now apply wt_new_inv.
    - apply (bi_cap _ _ _ IB).
  Qed.

  Lemma leaf_f cap p W f : PInv cap p W f -> forall k, leaf p k = f k.
  Proof.
    intros [IB IT SZ POS ZERO] k. unfold leaf. rewrite (leaves_inv _ _ IT), SZ.
    destruct (Nat.lt_ge_cases k cap).
    - rewrite (nth_indep _ _ (f 0)) by (rewrite map_length, seq_length; auto).
      rewrite map_nth, seq_nth by auto. reflexivity.
    - rewrite nth_overflow by (rewrite map_length, seq_length; auto). symmetry.
      apply (wi_pad _ _ IT). lia.
  Qed.
  Lemma f_nonneg cap p W f : PInv cap p W f -> forall k, (0 <= f k)%Qc.
  Proof.
    intros I k. destruct (Nat.lt_ge_cases k (b_size (pb_b p))) as [H|H].
    - apply (pi_pos _ _ _ _ I) in H. qcl.
    - apply (pi_zero _ _ _ _ I) in H. rewrite H. apply Qcle_refl.
  Qed.

  (* a query between 0 and the total always finds a stored position *)
  Lemma find_stored cap p W f x : PInv cap p W f -> b_size (pb_b p) <> 0 ->
    (0 <= x)%Qc -> (x <= wt_sum (pb_t p))%Qc ->
    exists i, wt_find1 (pb_t p) x = Ok i /\ i < b_size (pb_b p) /\
      ((x = 0%Qc /\ i = 0) \/ ((prefix f i < x)%Qc /\ (x <= prefix f (S i))%Qc)).
  Proof.
    intros I NZ X0 X1. destruct (Qc_eq_dec x 0%Qc) as [->|NE].
    - exists 0. split; [apply (find_zero _ f); [apply I|apply (f_nonneg _ _ _ _ I)]|]. split; [lia|auto].
    - assert (0 < x)%Qc. { destruct (Qcle_lt_or_eq _ _ X0); auto. congruence. }
      destruct (find_inv _ _ x (pi_t _ _ _ _ I) H X1) as (i & E & L & A & B).
      exists i. split; auto. split; [|auto].
      destruct (Nat.lt_ge_cases i (b_size (pb_b p))) as [|G]; auto. exfalso.
      apply (pi_zero _ _ _ _ I) in G. pose proof (prefix_S f i). rewrite G in H0. qcl.
  Qed.

  Lemma total_nonneg cap p W f : PInv cap p W f -> (0 <= wt_sum (pb_t p))%Qc.
  Proof.
    intros I. rewrite (root_total _ _ (pi_t _ _ _ _ I)), <- sumn_total.
    apply sumn_nonneg. intros. eapply f_nonneg; eauto.
  Qed.

  Lemma strata_nth seg us : forall k j u, nth_error us j = Some u ->
    nth_error (strata seg k us) j = Some (u * seg + nq (k + j) * seg)%Qc.
  Proof.
    induction us as [|x r IH]; intros k [|j] u H; cbn in *; try discriminate.
    - injection H as <-. now rewrite Nat.add_0_r.
    - rewrite (IH (S k) j u H). do 4 f_equal. lia.
  Qed.
  Lemma strata_length seg us : forall k, length (strata seg k us) = length us.
  Proof. induction us; intros; cbn; auto. Qed.

  Lemma tot_div (total : Qc) n : n <> 0 -> (0 <= total)%Qc -> (0 <= total / nq n)%Qc.
  Proof.
    intros N H. unfold Qcdiv. apply Qcmul_nonneg; auto. apply Qclt_le_weak, Qcinv_pos, nq_pos. lia.
  Qed.

  Lemma queries_nth total us k u : (0 <= total)%Qc -> (0 <= u)%Qc -> nth_error us k = Some u ->
    nth_error (queries total us) k = Some (query_point total u k (length us)).
  Proof.
    intros TT U H. unfold queries. rewrite nth_error_map, (strata_nth _ _ _ _ _ H). cbn [option_map Nat.add].
    f_equal. unfold clip0, query_point. fold tiny.
    assert (N : length us <> 0) by (intros Z; destruct us; [destruct k; discriminate|discriminate]).
    set (seg := (total / nq (length us))%Qc).
    assert (E : (u * seg + nq k * seg)%Qc = ((nq k + u) * total / nq (length us))%Qc)
      by (unfold seg, Qcdiv; ring).
    rewrite E. f_equal. unfold Qcmax.
    assert (0 <= (nq k + u) * total / nq (length us))%Qc.
    { rewrite <- E. pose proof (nq_nonneg k).
      assert (0 <= seg)%Qc by (apply tot_div; auto).
      assert (0 <= u * seg)%Qc by (apply Qcmul_nonneg; auto).
      assert (0 <= nq k * seg)%Qc by (apply Qcmul_nonneg; auto). qcl. }
    destruct (Qcltb_spec ((nq k + u) * total / nq (length us)) 0); auto. exfalso. qcl.
  Qed.

  Lemma query_point_range total u k n : (0 <= total)%Qc -> (0 <= u)%Qc -> n <> 0 ->
    (0 <= query_point total u k n)%Qc /\ (query_point total u k n <= total)%Qc.
  Proof.
    intros TT U N. unfold query_point. fold tiny.
    assert (0 <= (nq k + u) * total / nq n)%Qc.
    { replace ((nq k + u) * total / nq n)%Qc with ((nq k + u) * (total / nq n))%Qc by (unfold Qcdiv; ring).
      apply Qcmul_nonneg; [pose proof (nq_nonneg k); qcl|]. now apply tot_div. }
    assert (0 < tiny)%Qc by reflexivity.
    unfold Qcmin, Qcmax. qdec; split; qcl.
  Qed.

  Lemma query_point_mono total u u' k n : (0 <= total)%Qc -> (0 <= u)%Qc -> (u < 1)%Qc -> (0 <= u')%Qc -> n <> 0 ->
    (query_point total u k n <= query_point total u' (S k) n)%Qc.
  Proof.
    intros TT U U1 U' N. unfold query_point. set (hi := Qcmax _ 0).
    assert (((nq k + u) * total / nq n) <= ((nq (S k) + u') * total / nq n))%Qc.
    { replace ((nq k + u) * total / nq n)%Qc with ((nq k + u) * (total / nq n))%Qc by (unfold Qcdiv; ring).
      replace ((nq (S k) + u') * total / nq n)%Qc with ((nq (S k) + u') * (total / nq n))%Qc by (unfold Qcdiv; ring).
      apply Qcmult_le_compat_r; [|now apply tot_div]. rewrite nq_S. qcl. }
    unfold Qcmin. qdec; qcl.
  Qed.

  Lemma wt_find_nth t qs : (forall x, In x qs -> exists i, wt_find1 t x = Ok i) ->
    exists idx, wt_find t qs = Ok idx /\ length idx = length qs /\
      (forall k x, nth_error qs k = Some x -> exists i, nth_error idx k = Some i /\ wt_find1 t x = Ok i).
  Proof.
    induction qs as [|q r IH]; intros H; cbn.
    - exists []. repeat split; auto. intros [|k] x; discriminate.
    - destruct (H q (or_introl eq_refl)) as (i & E). rewrite E. cbn [bind].
      destruct IH as (idx & E2 & L & G); [intros; apply H; now right|]. rewrite E2. cbn [bind].
      exists (i :: idx). cbn. repeat split; auto. intros [|k] x Hx; cbn in *; [injection Hx as <-; eauto|eauto].
  Qed.

  Lemma sample_index_inv cap p W f us : PInv cap p W f -> b_size (pb_b p) <> 0 -> us <> [] -> unit_draws us ->
    exists idx, wt_find (pb_t p) (queries (wt_sum (pb_t p)) us) = Ok idx /\ length idx = length us /\
      wt_leaf_weight (pb_t p) (map Z.of_nat idx) = Ok (map f idx) /\
      (forall k u, nth_error us k = Some u -> exists i, nth_error idx k = Some i /\
         i < b_size (pb_b p) /\
         let x := query_point (wt_sum (pb_t p)) u k (length us) in
         wt_find1 (pb_t p) x = Ok i /\
         ((x = 0%Qc /\ i = 0) \/ ((prefix f i < x)%Qc /\ (x <= prefix f (S i))%Qc))).
  Proof.
    intros I NZ NE U. pose proof (total_nonneg _ _ _ _ I) as TN.
    assert (LU : length us <> 0) by (destruct us; [congruence|discriminate]).
    assert (QL : length (queries (wt_sum (pb_t p)) us) = length us).
    { unfold queries. now rewrite map_length, strata_length. }
    assert (QR : forall k u, nth_error us k = Some u -> exists i, wt_find1 (pb_t p) (query_point (wt_sum (pb_t p)) u k (length us)) = Ok i /\
        i < b_size (pb_b p) /\ let x := query_point (wt_sum (pb_t p)) u k (length us) in
         ((x = 0%Qc /\ i = 0) \/ ((prefix f i < x)%Qc /\ (x <= prefix f (S i))%Qc))).
    { intros k u H. destruct (U u (nth_error_In _ _ H)) as [U0 U1].
      destruct (query_point_range (wt_sum (pb_t p)) u k (length us) TN U0 LU) as [A B].
      destruct (find_stored _ _ _ _ _ I NZ A B) as (i & E & L & Q). exists i. auto. }
    destruct (wt_find_nth (pb_t p) (queries (wt_sum (pb_t p)) us)) as (idx & E & L & G).
    { intros x Hx. apply In_nth_error in Hx as (k & Hk).
      assert (k < length us) by (rewrite <- QL; apply nth_error_Some; congruence).
      destruct (nth_error us k) as [u|] eqn:EU; [|apply nth_error_None in EU; lia].
      destruct (QR _ _ EU) as (i & Ei & _). rewrite (queries_nth _ us k u) in Hk; auto.
      - injection Hk as <-. eauto. - apply (U u). eapply nth_error_In; eauto. }
    exists idx. split; auto. split; [congruence|].
    assert (PT : forall k u, nth_error us k = Some u -> exists i, nth_error idx k = Some i /\
         i < b_size (pb_b p) /\
         let x := query_point (wt_sum (pb_t p)) u k (length us) in
         wt_find1 (pb_t p) x = Ok i /\
         ((x = 0%Qc /\ i = 0) \/ ((prefix f i < x)%Qc /\ (x <= prefix f (S i))%Qc))).
    { intros k u H. destruct (QR _ _ H) as (i & Ei & Li & Q).
      destruct (G k (query_point (wt_sum (pb_t p)) u k (length us))) as (i' & N' & E').
      - apply queries_nth; auto. apply (U u). eapply nth_error_In; eauto.
      - assert (i' = i) by congruence. subst. exists i. auto. }
    split; auto.
    (* leaf weights *)
    assert (ALL : forall i, In i idx -> i < b_size (pb_b p)).
    { intros i Hi. apply In_nth_error in Hi as (k & Hk).
      assert (k < length us) by (rewrite <- QL, <- L; apply nth_error_Some; congruence).
      destruct (nth_error us k) as [u|] eqn:EU; [|apply nth_error_None in EU; lia].
      destruct (PT _ _ EU) as (i' & N' & L' & _). congruence. }
    pose proof (size_eq _ _ _ (pi_b _ _ _ _ I)) as S0.
    unfold wt_leaf_weight. rewrite (pi_sz _ _ _ _ I).
    assert (FB : forallb (in_range cap) (map Z.of_nat idx) = true).
    { apply forallb_forall. intros z Hz. apply in_map_iff in Hz as (i & <- & Hi). apply ALL in Hi.
      apply in_range_spec. unfold valid_idx. lia. }
    rewrite FB. cbn [negb]. rewrite map_map.
    apply index_all_fun. intros j Hj. rewrite Nat2Z.id. apply ALL in Hj.
    pose proof (leaves_inv _ _ (pi_t _ _ _ _ I)) as LV. unfold wt_leaves in LV. rewrite (pi_sz _ _ _ _ I) in LV.
    rewrite <- (firstn_skipn cap (wt_w (pb_t p))). rewrite LV.
    rewrite nth_error_app1 by (rewrite map_length, seq_length; lia).
    rewrite nth_error_map, (nth_error_nth' _ 0) by (rewrite seq_length; lia). rewrite seq_nth by lia. reflexivity.
  Qed.

  Lemma pb_sample_inv cap p W f us : PInv cap p W f -> b_size (pb_b p) <> 0 -> us <> [] -> unit_draws us ->
    PInv cap (fst (pb_sample pw inc p us)) W f /\
    pb_curr (fst (pb_sample pw inc p us)) = Qcmin 1 (pb_curr p + inc)%Qc /\
    pb_b (fst (pb_sample pw inc p us)) = pb_b p /\
    (length us = 1 -> snd (pb_sample pw inc p us) = Err EType) /\
    (2 <= length us -> exists batch idx ws,
      snd (pb_sample pw inc p us) = Ok (length us, batch, idx, ws) /\
      length batch = length us /\ length idx = length us /\ length ws = length us /\
      (forall k u, nth_error us k = Some u -> exists i x, nth_error idx k = Some i /\
         i < b_size (pb_b p) /\ (0 < f i)%Qc /\
         nth_error batch k = Some x /\ stored p i = Some x /\
         let q := query_point (wt_sum (pb_t p)) u k (length us) in
         ((q = 0%Qc /\ i = 0) \/ ((prefix f i < q)%Qc /\ (q <= prefix f (S i))%Qc))) /\
      ws = (let raw := map (fun i => pw (nq (b_size (pb_b p)) * (f i / wt_sum (pb_t p)))%Qc (pb_curr p)) idx in
            map (fun w => (w / match raw with [] => 0%Qc | x :: r => qmax_list x r end)%Qc) raw)).
  Proof.
    intros I NZ NE U.
    destruct (sample_index_inv _ _ _ _ us I NZ NE U) as (idx & E1 & L & E2 & PT).
    unfold pb_sample. assert (LU : length us <> 0) by (destruct us; [congruence|discriminate]).
    destruct (Nat.eqb_spec (length us) 0); [lia|]. destruct (Nat.eqb_spec (b_size (pb_b p)) 0); [lia|]. cbn [orb].
    unfold pb_sample_index. rewrite E1. cbn [bind]. rewrite E2. cbn [bind].
    assert (PP : forall c, PInv cap (MkPb (pb_b p) (pb_t p) c) W f) by (intros c; destruct I; split; auto).
    destruct (Nat.eqb_spec (length us) 1) as [O|O]; cbn [fst snd pb_curr pb_b].
    - split; auto. split; auto. split; auto. split; auto. lia.
    - split; auto. split; auto. split; auto. split; [lia|]. intros _.
      destruct (index_all_ok (st_data (b_st (pb_b p))) idx) as (batch & EB & LB & GB).
      { intros i Hi. apply In_nth_error in Hi as (k & Hk).
        assert (k < length us) by (rewrite <- L; apply nth_error_Some; congruence).
        destruct (nth_error us k) as [u|] eqn:EU; [|apply nth_error_None in EU; lia].
        destruct (PT _ _ EU) as (i' & N' & L' & _). unfold b_size in L'. congruence. }
      rewrite EB. cbn [bind]. eexists batch, idx, _. split; [rewrite LB, L; reflexivity|].
      rewrite LB, L. split; auto. split; auto. split; [now rewrite !map_length|]. split.
      + intros k u H. destruct (PT _ _ H) as (i & N & Li & _ & Q).
        specialize (GB _ _ N). destruct (nth_error (st_data (b_st (pb_b p))) i) as [x|] eqn:EX.
        * exists i, x. repeat split; auto. now apply (pi_pos _ _ _ _ I).
        * apply nth_error_None in EX. unfold b_size in Li. lia.
      + cbv zeta. rewrite !(map_map f (fun q => pw _ _)). reflexivity.
  Qed.

  Lemma reach_inv cap p k H : 1 <= cap -> reach ok norm pw beta inc cap p k H -> exists f, PInv cap p (concat H) f.
  Proof.
    intros C R. induction R as [|p k H ep ps R IH NE OK L LP|p k H ep ps R IH RF|p k H ps idx R IH L V|p k H us R IH NE NZ U|p k H R IH].
    - eexists. now apply PInv_new.
    - destruct IH as (f & I). destruct (PInv_store _ _ _ _ _ ps I NE OK L LP) as [_ X].
      rewrite concat_app; cbn [concat]; rewrite app_nil_r. exact X.
    - destruct IH as (f & I). exists f. now apply PInv_refused.
    - destruct IH as (f & I). destruct (PInv_update _ _ _ _ _ _ I L V) as [_ X]. exact X.
    - destruct IH as (f & I). exists f. now apply (pb_sample_inv _ _ _ _ us I NZ NE U).
    - destruct IH as (f & I). eexists. eapply PInv_clear; eauto.
  Qed.

  Lemma stored_recent cap p W f i x : PInv cap p W f -> stored p i = Some x ->
    exists n, nth_error W n = Some x /\ length W <= n + cap.
  Proof.
    intros I S. destruct (pi_b _ _ _ _ I) as [ST CAP _]. unfold stored in S.
    assert (L : i < length (st_data (b_st (pb_b p)))) by (apply nth_error_Some; congruence).
    pose proof (si_len ST) as SL. pose proof (si_cap ST) as C. rewrite CAP in *.
    (* n is the last write to slot i *)
    set (m := length W - 1 - i). set (n := i + cap * (m / cap)).
    pose proof (Nat.div_mod m cap ltac:(lia)) as DM.
    pose proof (Nat.mod_upper_bound m cap ltac:(lia)) as MU.
    assert (n mod cap = i) as NM by (unfold n; rewrite Nat.mul_comm, Nat.mod_add by lia; apply Nat.mod_small; lia).
    exists n. assert (n < length W) by (unfold n, m in *; lia).
    assert (length W <= n + cap) by (unfold n, m in *; lia).
    split; auto. rewrite <- S, <- (si_dat ST); rewrite ?CAP, ?NM; auto.
  Qed.

  Lemma fit_all (es : list (list T)) : forall c, length (concat es) <= c -> fit c es = es.
  Proof.
    induction es as [|e r IH]; intros c H; cbn in *; auto. rewrite app_length in H.
    destruct (Nat.leb_spec (length e) c); [|lia]. f_equal. apply IH. lia.
  Qed.
  Lemma concat_rev_length (es : list (list T)) : length (concat (rev es)) = length (concat es).
  Proof. induction es; cbn; auto. rewrite concat_app, !app_length. cbn. rewrite app_nil_r. lia. Qed.
  Lemma retained_all cap (H : list (list T)) : total H <= cap -> retained cap H = H.
  Proof.
    intros L. unfold retained. rewrite fit_all; [apply rev_involutive|]. now rewrite concat_rev_length.
  Qed.

  Lemma prefix_leaf cap p W f : PInv cap p W f -> forall i, prefix (leaf p) i = prefix f i.
  Proof.
    intros I i. unfold prefix. generalize 0. induction i; intros a; cbn; auto.
    now rewrite IHi, (leaf_f _ _ _ _ I).
  Qed.

  (* the two facts about samples in terms of the public view of the buffer *)
  Lemma reach_sample_ok cap p k H us : 1 <= cap -> reach ok norm pw beta inc cap p k H ->
    b_size (pb_b p) <> 0 -> 2 <= length us -> unit_draws us ->
    exists batch idx ws,
      snd (pb_sample pw inc p us) = Ok (length us, batch, idx, ws) /\
      length batch = length us /\ length idx = length us /\ length ws = length us /\
      (forall k u, nth_error us k = Some u -> exists i x, nth_error idx k = Some i /\
         i < b_size (pb_b p) /\ (0 < leaf p i)%Qc /\
         nth_error batch k = Some x /\ stored p i = Some x /\
         let q := query_point (wt_sum (pb_t p)) u k (length us) in
         ((q = 0%Qc /\ i = 0) \/ ((prefix (leaf p) i < q)%Qc /\ (q <= prefix (leaf p) (S i))%Qc))).
  Proof.
    intros C R NZ L U. destruct (reach_inv _ _ _ _ C R) as (f & I).
    assert (NE : us <> []) by (intros ->; cbn in L; lia).
    destruct (pb_sample_inv _ _ _ _ us I NZ NE U) as (_ & _ & _ & _ & X).
    destruct (X L) as (batch & idx & ws & E & L1 & L2 & L3 & PT & _). exists batch, idx, ws.
    repeat (split; [assumption|]). intros k' u Hu. destruct (PT _ _ Hu) as (i & x & A & B & D & Eb & F & G).
    exists i, x. rewrite (leaf_f _ _ _ _ I). rewrite !(prefix_leaf _ _ _ _ I). repeat (split; [assumption|]). exact G.
  Qed.

  Lemma reach_sample_sorted cap p k H us : 1 <= cap -> reach ok norm pw beta inc cap p k H ->
    b_size (pb_b p) <> 0 -> 2 <= length us -> unit_draws us ->
    forall n batch idx ws, snd (pb_sample pw inc p us) = Ok (n, batch, idx, ws) ->
    forall j a b, nth_error idx j = Some a -> nth_error idx (S j) = Some b -> a <= b.
  Proof.
    intros C R NZ L U n batch idx ws E j a b A B.
    destruct (reach_inv _ _ _ _ C R) as (f & I).
    destruct (reach_sample_ok _ _ _ _ _ C R NZ L U) as (batch' & idx' & ws' & E' & _ & L' & _ & PT).
    assert (idx' = idx) by congruence. subst idx'.
    assert (J : S j < length us) by (rewrite <- L'; apply nth_error_Some; congruence).
    destruct (nth_error us j) as [u|] eqn:Eu; [|apply nth_error_None in Eu; lia].
    destruct (nth_error us (S j)) as [u'|] eqn:Eu'; [|apply nth_error_None in Eu'; lia].
    destruct (PT _ _ Eu) as (i & x & N1 & _ & _ & _ & _ & Q1).
    destruct (PT _ _ Eu') as (i' & x' & N2 & _ & _ & _ & _ & Q2).
    assert (i = a) by congruence. assert (i' = b) by congruence. subst.
    destruct (U u (nth_error_In _ _ Eu)). destruct (U u' (nth_error_In _ _ Eu')).
    pose proof (query_point_mono (wt_sum (pb_t p)) u u' j (length us) (total_nonneg _ _ _ _ I) H0 H1 H2 ltac:(lia)) as M.
    assert (NN : forall k, (0 <= leaf p k)%Qc) by (intros; rewrite (leaf_f _ _ _ _ I); eapply f_nonneg; eauto).
    destruct Q1 as [[_ ->]|[Q1 Q1']]; [lia|].
    destruct Q2 as [[Z ->]|[Q2 Q2']].
    - exfalso. cbv zeta in *. rewrite Z in M. pose proof (prefix_mono (leaf p) 0 a NN (Nat.le_0_l _)).
      change (prefix (leaf p) 0) with 0%Qc in H4. qcl.
    - eapply prefix_monotone_index; eauto.
  Qed.

  (* importance-sampling weights *)
  Lemma reach_is_weights cap p k H us : 1 <= cap -> reach ok norm pw beta inc cap p k H ->
    b_size (pb_b p) <> 0 -> 2 <= length us -> unit_draws us ->
    (forall x b, (0 < x)%Qc -> (0 < pw x b)%Qc) ->
    (forall x y b, (0 < x)%Qc -> (x <= y)%Qc -> (pw y b <= pw x b)%Qc) ->
    forall n batch idx ws, snd (pb_sample pw inc p us) = Ok (n, batch, idx, ws) ->
    (forall w, In w ws -> (0 < w)%Qc /\ (w <= 1)%Qc) /\ In 1%Qc ws /\
    (forall a b i j wi wj, nth_error idx a = Some i -> nth_error idx b = Some j ->
       nth_error ws a = Some wi -> nth_error ws b = Some wj -> (leaf p i <= leaf p j)%Qc -> (wj <= wi)%Qc).
  Proof.
    intros C R NZ L U PP PA n batch idx ws E.
    destruct (reach_inv _ _ _ _ C R) as (f & I).
    assert (NE : us <> []) by (intros ->; cbn in L; lia).
    destruct (pb_sample_inv _ _ _ _ us I NZ NE U) as (_ & _ & _ & _ & X).
    destruct (X L) as (batch' & idx' & ws' & E' & _ & L2 & L3 & PT & EW).
    assert (idx' = idx) by congruence. assert (WS : ws' = ws) by congruence. subst idx'. rewrite WS in EW, L3.
    assert (FP : forall i, In i idx -> (0 < f i)%Qc).
    { intros i Hi. apply In_nth_error in Hi as (j & Hj).
      assert (j < length us) by (rewrite <- L2; apply nth_error_Some; congruence).
      destruct (nth_error us j) as [u|] eqn:Eu; [|apply nth_error_None in Eu; lia].
      destruct (PT _ _ Eu) as (i' & x & N1 & _ & Fi & _). congruence. }
    cbv zeta in EW. set (raw := map _ idx) in EW.
    assert (TP : (0 < wt_sum (pb_t p))%Qc).
    { rewrite (root_total _ _ (pi_t _ _ _ _ I)). rewrite (pi_sz _ _ _ _ I). destruct cap; [lia|]. cbn.
      assert (0 < f 0%nat)%Qc by (apply (pi_pos _ _ _ _ I); lia).
      rewrite <- sumn_total. assert (0 <= sumn f 1 cap)%Qc by (apply sumn_nonneg; intros; eapply f_nonneg; eauto). qcl. }
    assert (AP : forall i, In i idx -> (0 < nq (b_size (pb_b p)) * (f i / wt_sum (pb_t p)))%Qc).
    { intros i Hi. apply Qcmul_pos; [apply nq_pos; lia|]. unfold Qcdiv. apply Qcmul_pos; auto. now apply Qcinv_pos. }
    assert (RP : forall w, In w raw -> (0 < w)%Qc).
    { intros w Hw. unfold raw in Hw. apply in_map_iff in Hw as (i & <- & Hi). auto. }
    destruct raw as [|x0 r0] eqn:ER.
    { destruct idx; [cbn in L2; lia|discriminate]. }
    rewrite <- ER in *. set (mx := qmax_list x0 r0) in *.
    destruct (is_max_list x0 r0) as [MI MU]. rewrite <- ER in MI, MU. fold mx in MI, MU.
    pose proof (RP _ MI) as MP. pose proof (Qcinv_pos MP) as MV.
    split; [|split].
    - intros w Hw. rewrite EW in Hw. apply in_map_iff in Hw as (y & <- & Hy). split.
      + unfold Qcdiv. apply Qcmul_pos; auto.
      + replace 1%Qc with (mx / mx)%Qc by (unfold Qcdiv; apply Qcmult_inv_r; apply Qcpos_neq; auto).
        apply Qcmult_le_compat_r; auto. qcl.
    - rewrite EW. apply in_map_iff. exists mx. split; auto. unfold Qcdiv; apply Qcmult_inv_r; apply Qcpos_neq; auto.
    - intros a b i j wi wj Ha Hb Wa Wb LE. rewrite !(leaf_f _ _ _ _ I) in LE.
      rewrite EW, nth_error_map in Wa, Wb. unfold raw in Wa, Wb.
      rewrite nth_error_map, Ha in Wa. rewrite nth_error_map, Hb in Wb. cbn [option_map] in Wa, Wb. injection Wa as <-. injection Wb as <-.
      unfold Qcdiv. apply Qcmult_le_compat_r; [|qcl]. apply PA; [apply AP; eapply nth_error_In; eauto|].
      rewrite (Qcmult_comm (nq _)), (Qcmult_comm (nq _)). apply Qcmult_le_compat_r; [|apply nq_nonneg].
      apply Qcmult_le_compat_r; auto. pose proof (Qcinv_pos TP). qcl.
  Qed.

  Lemma reach_is_formula cap p k H us : 1 <= cap -> reach ok norm pw beta inc cap p k H ->
    b_size (pb_b p) <> 0 -> 2 <= length us -> unit_draws us ->
    forall n batch idx ws, snd (pb_sample pw inc p us) = Ok (n, batch, idx, ws) ->
    exists m, forall a i, nth_error idx a = Some i ->
      nth_error ws a = Some (pw (nq (b_size (pb_b p)) * (leaf p i / wt_sum (pb_t p))) (pb_curr p) / m)%Qc.
  Proof.
    intros C R NZ L U n batch idx ws E.
    destruct (reach_inv _ _ _ _ C R) as (f & I).
    assert (NE : us <> []) by (intros ->; cbn in L; lia).
    destruct (pb_sample_inv _ _ _ _ us I NZ NE U) as (_ & _ & _ & _ & X).
    destruct (X L) as (batch' & idx' & ws' & E' & _ & L2 & L3 & PT & EW).
    assert (idx' = idx) by congruence. assert (WS : ws' = ws) by congruence. subst idx'. rewrite WS in EW.
    eexists. intros a i Ha. rewrite EW. cbv zeta. rewrite !nth_error_map, Ha. cbn [option_map].
    rewrite (leaf_f _ _ _ _ I). reflexivity.
  Qed.

  Lemma Qcmin_step k : (0 <= inc)%Qc -> Qcmin 1 (Qcmin 1 (beta + nq k * inc) + inc)%Qc = Qcmin 1 (beta + nq (S k) * inc)%Qc.
  Proof.
    intros H. assert ((beta + nq (S k) * inc)%Qc = (beta + nq k * inc + inc)%Qc) as -> by (rewrite nq_S; ring).
    unfold Qcmin. generalize (beta + nq k * inc)%Qc as x. intros x. qdec; auto; try qcl.
  Qed.

  Lemma curr_beta_closed cap p k H : 1 <= cap -> (beta <= 1)%Qc -> (0 <= inc)%Qc -> reach ok norm pw beta inc cap p k H ->
    pb_curr p = Qcmin 1 (beta + nq k * inc)%Qc.
  Proof.
    intros C B1 I0 R.
    assert (Z : Qcmin 1 (beta + nq 0 * inc)%Qc = beta).
    { rewrite nq_0. replace (beta + 0 * inc)%Qc with beta by ring. unfold Qcmin. qdec; auto. qcl. }
    induction R as [|p k H ep ps R IH NE OK L LP|p k H ep ps R IH RF|p k H ps idx R IH L V|p k H us R IH NE NZ U|p k H R IH].
    - now rewrite Z.
    - rewrite <- IH. unfold pb_store. destruct (b_store_episode ok (pb_b p) ep) as [b1 [u|e]]; auto.
      destruct (dget (b_cnt b1 - 1) (b_eth b1)); auto. destruct (wt_update_batch _ _ _); auto.
    - rewrite <- IH. unfold pb_store. destruct (b_store_episode ok (pb_b p) ep) as [b1 [u|e]]; auto.
      destruct (dget (b_cnt b1 - 1) (b_eth b1)); auto. destruct (wt_update_batch _ _ _); auto.
    - rewrite <- IH. unfold pb_update. destruct (wt_update_batch _ _ _); auto.
    - destruct (reach_inv _ _ _ _ C R) as (f & I).
      destruct (pb_sample_inv _ _ _ _ us I NZ NE U) as (_ & E & _). rewrite E, IH. now apply Qcmin_step.
    - cbn. now rewrite Z.
  Qed.
End P.
