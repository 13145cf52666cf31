(* C189: weights of transitions stored without priorities. *)
From Verif Require Import Lib.Rat Model.Buffer Model.WeightTree Model.PrioritizedBuffer Model.DistBuffer
  Spec.WeightTreeSpec Spec.BufferSpec Spec.PrioritizedSpec Spec.DistSpec
  Proofs.BufferProofs Proofs.BufferDict Proofs.WeightTreeProofs Proofs.PrioritizedProofs Proofs.DistProofs.
Open Scope nat_scope.

Lemma Qcmax_ge a b : (a <= Qcmax a b)%Qc /\ (b <= Qcmax a b)%Qc.
Proof. destruct (Qcmax_cases a b) as [[-> L]|[-> L]]; split; auto; apply Qcle_refl. Qed.
Lemma fold_max_ge l : forall m, (m <= fold_left Qcmax l m)%Qc /\ forall x, In x l -> (x <= fold_left Qcmax l m)%Qc.
Proof.
  induction l as [|y l IH]; intros m; cbn; [split; [apply Qcle_refl|tauto]|].
  destruct (IH (Qcmax m y)) as [A B], (Qcmax_ge m y) as [C D].
  split; [eapply Qcle_trans; eauto|]. intros x [<-|I]; [eapply Qcle_trans; eauto|auto].
Qed.
Lemma tset_all_const (x : Qc) ks : forall f k, In k ks -> tset_all f (combine ks (repeat x (length ks))) k = x.
Proof.
  assert (K : forall ks f k, f k = x -> tset_all f (combine ks (repeat x (length ks))) k = x).
  { induction ks0 as [|i r IH]; intros f k E; cbn; auto. apply IH. unfold tset. destruct (Nat.eqb k i); auto. }
  induction ks as [|i r IH]; intros f k I; [destruct I|]. cbn. destruct I as [<-|I]; [|apply IH, I].
  apply K. unfold tset. now rewrite Nat.eqb_refl.
Qed.
Lemma tset_all_in ps : forall f k, tset_all f ps k = f k \/ In (tset_all f ps k) (map snd ps).
Proof.
  induction ps as [|[i x] r IH]; intros f k; cbn; auto. destruct (IH (tset f i x) k) as [E|E]; auto.
  unfold tset_all in *. cbn in *. rewrite E. unfold tset. destruct (Nat.eqb k i); auto.
Qed.

Section Prio.
  Context {T : Type}.
  Variable ok : T -> bool.
  Variable norm : Qc -> Qc.
  Variable pw : Qc -> Qc -> Qc.
  Variables beta inc : Qc.
  Hypothesis norm_pos : forall x, (0 < norm x)%Qc.

  (* leaves never exceed get_leaf_max() *)
  Definition bounded (t : wtree) : Prop := exists f, WInv t f /\ forall k, (f k <= wt_max t)%Qc.
  Lemma bounded_batch t ws is : bounded t -> valid_op (wt_size t) (WBatch ws is) -> bounded (fst (wt_update_batch t ws is)).
  Proof.
    intros (f & I & B) V. destruct (update_batch_inv _ _ _ _ I V) as (w' & -> & I'). cbn [fst].
    eexists. split; [exact I'|]. intros k. cbn [wt_max]. rewrite batch_max_fold.
    cbn [spec_step]. rewrite spec_batch_tset_all. destruct (fold_max_ge ws (wt_max t)) as [G1 G2].
    destruct (tset_all_in (combine (map Z.to_nat is) ws) f k) as [->|J].
    - eapply Qcle_trans; [apply B|exact G1].
    - apply G2. apply in_map_iff in J as ([i x] & <- & J). apply in_combine_r in J. exact J.
  Qed.
  Lemma reach_bounded cap p k H : 1 <= cap -> reach ok norm pw beta inc cap p k H -> bounded (pb_t p).
  Proof.
    intros C R. induction R as [|p k H ep ps R IH NE OK L LP|p k H ep ps R IH RF|p k H ps idx R IH L V|p k H us R IH NE NZ U|p k H R IH].
    - exists (fun _ => 0%Qc). split; [now apply wt_new_inv|]. intros j. apply Qcle_refl.
    - destruct (reach_inv ok norm pw beta inc norm_pos _ _ _ _ C R) as (f & I). unfold pb_store.
      destruct (BInv_store ok cap (pb_b p) (concat H) ep (pi_b _ _ _ _ I) NE OK L) as (b1 & E & IB1 & CN & G).
      rewrite E, CN. cbn [Nat.sub]. rewrite Nat.sub_0_r, G.
      match goal with |- context [wt_update_batch ?t ?ws ?is] => pose proof (bounded_batch t ws is IH) as Q end.
      destruct (wt_update_batch _ _ _) as [t1 r]. cbn [fst pb_t] in *. apply Q. cbn. split.
      + rewrite ?map_length, ?modseq_length. destruct ps as [l|]; [rewrite map_length; auto|now rewrite repeat_length, ?modseq_length].
      + intros i J. apply in_map_iff in J as (n & <- & J). apply In_modseq in J as (m & <- & _).
        rewrite (pi_sz _ _ _ _ I). pose proof (Nat.mod_upper_bound m cap ltac:(lia)). unfold valid_idx. lia.
    - unfold pb_store, b_store_episode. destruct ep as [|t0 e0]; [exact IH|].
      destruct RF as [RF|RF]; [discriminate|]. rewrite RF. exact IH.
    - destruct (reach_inv ok norm pw beta inc norm_pos _ _ _ _ C R) as (f & I). unfold pb_update.
      match goal with |- context [wt_update_batch ?t ?ws ?is] => pose proof (bounded_batch t ws is IH) as Q end.
      destruct (wt_update_batch _ _ _) as [t1 r]. cbn [fst pb_t] in *. apply Q. cbn. rewrite map_length. split; [exact L|].
      intros i J. apply V in J. rewrite (pi_sz _ _ _ _ I). pose proof (size_eq _ _ _ (pi_b _ _ _ _ I)). unfold valid_idx in *. lia.
    - assert (E : pb_t (fst (pb_sample pw inc p us)) = pb_t p).
      { unfold pb_sample. destruct (_ || _); [reflexivity|].
        assert (Q : pb_t (fst (pb_sample_index pw inc p us None)) = pb_t p).
        { unfold pb_sample_index. cbn zeta. destruct (bind _ _) as [[i q]|e]; reflexivity. }
        destruct (pb_sample_index pw inc p us None) as [p1 [[i w]|e]]; [destruct (length us =? 1)|]; exact Q. }
      rewrite E. exact IH.
    - exists (fun _ => 0%Qc). split; [|intros j; apply Qcle_refl]. cbn. apply wt_new_inv.
      destruct (reach_inv ok norm pw beta inc norm_pos _ _ _ _ C R) as (f & I). rewrite (bi_cap _ _ _ (pi_b _ _ _ _ I)). exact C.
  Qed.

  (* Full claim: all transitions of an episode stored without priorities get the same weight, and no weight in the buffer
     is larger.  PrioritizedBuffer: they all get norm(get_leaf_max()), everything else keeps its weight, and no weight is
     larger if norm does not make the maximum smaller. *)
  Theorem C189_partial cap p k H ep : 1 <= cap -> reach ok norm pw beta inc cap p k H ->
    ep <> [] -> forallb ok ep = true -> length ep <= cap ->
    let m := wt_leaf_max (pb_t p) in let p' := fst (pb_store ok norm p ep None) in
    let slot j := (total H + j) mod cap in
    snd (pb_store ok norm p ep None) = Ok tt /\
    (forall j, j < length ep -> stored p' (slot j) = nth_error ep j /\ leaf p' (slot j) = norm m) /\
    (forall s, (forall j, j < length ep -> s <> slot j) -> leaf p' s = leaf p s) /\
    ((m <= norm m)%Qc -> forall s, (leaf p' s <= norm m)%Qc).
  Proof.
    intros C R NE OK L m p' slot.
    destruct (reach_inv ok norm pw beta inc norm_pos _ _ _ _ C R) as (f & I).
    set (hs := modseq cap (length (concat H)) (length ep)).
    assert (Sl : forall s, In s hs <-> exists j, j < length ep /\ slot j = s).
    { intros s. unfold hs, slot. rewrite In_modseq. split.
      - intros (n & <- & B). exists (n - length (concat H)). unfold total. split; [lia|]. f_equal. lia.
      - intros (j & J & <-). exists (total H + j). unfold total in *. split; [reflexivity|lia]. }
    destruct (BInv_store ok cap (pb_b p) (concat H) ep (pi_b _ _ _ _ I) NE OK L) as (b1 & E & IB1 & CN & G).
    destruct (update_batch_inv (pb_t p) f (repeat (norm m) (length hs)) (map Z.of_nat hs) (pi_t _ _ _ _ I)) as (w' & E2 & IT1).
    { split; [rewrite map_length, repeat_length; auto|]. rewrite (pi_sz _ _ _ _ I). intros i J.
      apply in_map_iff in J as (n & <- & J). apply In_modseq in J as (q & <- & _).
      pose proof (Nat.mod_upper_bound q cap ltac:(lia)). unfold valid_idx. lia. }
    assert (EP : pb_store ok norm p ep None = (MkPb b1 (MkWt (wt_size (pb_t p)) (batch_max (wt_max (pb_t p)) (repeat (norm m) (length hs))) w') (pb_curr p), Ok tt)).
    { unfold pb_store. rewrite E, CN. cbn [Nat.sub]. rewrite Nat.sub_0_r, G. fold hs. fold m. rewrite E2. reflexivity. }
    cbn [spec_step] in IT1. rewrite spec_batch_tset_all, map_map in IT1.
    rewrite (map_ext _ (fun x => x)) in IT1 by (intros; apply Nat2Z.id). rewrite map_id in IT1.
    set (f1 := tset_all f (combine hs (repeat (norm m) (length hs)))) in *.
    assert (Lf : forall s, leaf p s = f s) by (apply (leaf_f _ _ _ _ I)).
    assert (Lf1 : forall s, s < cap -> leaf p' s = f1 s).
    { intros s S1. unfold p', leaf. rewrite EP. cbn [fst pb_t]. rewrite (leaves_inv _ _ IT1). cbn [wt_size].
      rewrite (pi_sz _ _ _ _ I). rewrite (nth_indep _ _ (f1 0)) by (rewrite map_length, seq_length; auto).
      rewrite map_nth, seq_nth by auto. reflexivity. }
    assert (Lz : forall s, cap <= s -> leaf p' s = 0%Qc /\ leaf p s = 0%Qc).
    { intros s S1. unfold p', leaf. rewrite EP. cbn [fst pb_t]. rewrite (leaves_inv _ _ IT1), (leaves_inv _ _ (pi_t _ _ _ _ I)). cbn [wt_size].
      rewrite (pi_sz _ _ _ _ I). split; apply nth_overflow; rewrite map_length, seq_length; auto. }
    assert (New : forall s, In s hs -> f1 s = norm m) by (intros s J; apply tset_all_const, J).
    assert (Old : forall s, ~ In s hs -> f1 s = f s).
    { intros s J. apply tset_all_notin. rewrite map_fst_combine by (rewrite repeat_length; auto). exact J. }
    split; [rewrite EP; reflexivity|]. split; [|split].
    - intros j J. split; [|rewrite Lf1 by (apply Nat.mod_upper_bound; lia); apply New, Sl; eauto].
      unfold p', stored. rewrite EP. cbn [fst pb_b].
      pose proof (si_dat (bi_st _ _ _ IB1) (n := total H + j)) as Q. rewrite (bi_cap _ _ _ IB1) in Q. unfold slot, total in *.
      rewrite Q by (rewrite app_length; lia). rewrite nth_error_app2 by lia. f_equal. lia.
    - intros s N. destruct (Nat.lt_ge_cases s cap) as [S1|S1]; [|destruct (Lz s S1) as [-> ->]; reflexivity].
      rewrite Lf1, Lf by exact S1. apply Old. rewrite Sl. intros (j & J & <-). exact (N j J eq_refl).
    - intros M s. destruct (Nat.lt_ge_cases s cap) as [S1|S1].
      + rewrite Lf1 by exact S1. destruct (in_dec Nat.eq_dec s hs) as [J|J]; [rewrite New by exact J; apply Qcle_refl|].
        rewrite Old by exact J. eapply Qcle_trans; [|exact M].
        destruct (reach_bounded _ _ _ _ C R) as (g & Ig & Bg). unfold m, wt_leaf_max.
        assert (f s = g s).
        { pose proof (leaves_inv _ _ Ig) as Q1. rewrite (leaves_inv _ _ (pi_t _ _ _ _ I)) in Q1.
          rewrite (pi_sz _ _ _ _ I) in Q1. assert (Q2 := f_equal (fun l => nth_error l s) Q1). cbn in Q2.
          rewrite !nth_error_map, (nth_error_nth' _ 0), seq_nth in Q2 by (rewrite ?seq_length; auto). cbn in Q2. congruence. }
        rewrite H0. apply Bg.
      + destruct (Lz s S1) as [-> _]. apply Qclt_le_weak, norm_pos.
  Qed.

  (* the maximum after j transitions of a distributed store *)
  Fixpoint bumped (m : Qc) (j : nat) : Qc := match j with O => m | S j => let x := bumped m j in Qcmax x (norm x) end.
  Lemma bumped_S m j : bumped (Qcmax m (norm m)) j = bumped m (S j).
  Proof. induction j as [|j IH]; [reflexivity|]. cbn [bumped] in *. rewrite IH. reflexivity. Qed.

  Lemma loop_weights cap pos : 2 <= cap -> NoDup pos -> (forall k, In k pos -> k < cap) ->
    forall t ver f, WInv t f -> wt_size t = cap ->
    exists t1 ver1 f1, dp_loop norm t ver None pos = (t1, ver1, Ok tt) /\ WInv t1 f1 /\ wt_size t1 = cap /\
      (forall j k, nth_error pos j = Some k -> f1 k = norm (bumped (wt_max t) j)) /\ (forall k, ~ In k pos -> f1 k = f k).
  Proof.
    intros C. induction pos as [|q r IH]; intros ND PB t ver f I SZ.
    - exists t, ver, f. cbn. repeat split; auto; try apply I. intros [|j] k J; discriminate.
    - inversion ND as [|? ? NI ND']; subst. cbn [dp_loop].
      destruct (update_leaf_inv t f (norm (wt_leaf_max t)) (Z.of_nat q) I C) as (w' & E & I').
      { unfold valid_idx. specialize (PB q (or_introl eq_refl)). lia. }
      rewrite E. rewrite Nat2Z.id in I'.
      destruct (IH ND' (fun k K => PB k (or_intror K)) _ (upd q (S (nth q ver 0)) ver) _ I' eq_refl) as (t1 & ver1 & f1 & E1 & I1 & S1 & N1 & O1).
      exists t1, ver1, f1. split; [exact E1|]. split; [exact I1|]. split; [exact S1|]. split.
      + intros [|j] k J; cbn in J.
        * injection J as <-. rewrite O1 by exact NI. unfold tset. now rewrite Nat.eqb_refl.
        * rewrite (N1 _ _ J). cbn [wt_max]. unfold wt_leaf_max. rewrite bumped_S. reflexivity.
      + intros k K. rewrite O1 by (intros J; apply K; now right). unfold tset.
        destruct (Nat.eqb_spec k q) as [->|]; auto. exfalso. apply K. now left.
  Qed.

  (* DistributedPrioritizedBuffer: get_leaf_max() is asked again for every transition *)
  Theorem C189_distributed_partial cap d H ep : 2 <= cap -> dreach ok norm pw beta inc cap d H ->
    ep <> [] -> forallb ok ep = true -> length ep <= cap ->
    let m := wt_leaf_max (pb_t (dp_p d)) in let d' := fst (dp_store ok norm d ep None) in
    let slot j := (total H + j) mod cap in
    snd (dp_store ok norm d ep None) = Ok tt /\
    (forall j, j < length ep -> dstored d' (slot j) = nth_error ep j /\ dleaf d' (slot j) = norm (bumped m j)) /\
    (forall s, (forall j, j < length ep -> s <> slot j) -> dleaf d' s = dleaf d s) /\
    ((norm m <= m)%Qc -> forall j, j < length ep -> dleaf d' (slot j) = norm m).
  Proof.
    intros C R NE OK L m d' slot.
    destruct (dreach_inv ok norm pw beta inc norm_pos _ _ _ C R) as (f & [I V]).
    set (hs := modseq cap (length (concat H)) (length ep)).
    assert (HB : forall k, In k hs -> k < cap).
    { intros k K. apply In_modseq in K as (n & <- & _). apply Nat.mod_upper_bound. lia. }
    destruct (BInv_store ok cap (pb_b (dp_p d)) (concat H) ep (pi_b _ _ _ _ I) NE OK L) as (b1 & E & IB1 & CN & G).
    destruct (loop_weights cap hs C ltac:(apply modseq_NoDup; lia) HB (pb_t (dp_p d)) (dp_ver d) f (pi_t _ _ _ _ I) (pi_sz _ _ _ _ I))
      as (t1 & ver1 & f1 & E1 & I1 & S1 & N1 & O1).
    assert (EP : dp_store ok norm d ep None = (MkDp (MkPb b1 t1 (pb_curr (dp_p d))) ver1, Ok tt)).
    { unfold dp_store. rewrite E, CN. cbn [Nat.sub]. rewrite Nat.sub_0_r, G. fold hs. rewrite E1. reflexivity. }
    assert (Lf : forall s, dleaf d s = f s) by (apply (leaf_f _ _ _ _ I)).
    assert (Lf1 : forall s, s < cap -> dleaf d' s = f1 s).
    { intros s S2. unfold d', dleaf, leaf. rewrite EP. cbn [fst dp_p pb_t]. rewrite (leaves_inv _ _ I1), S1.
      rewrite (nth_indep _ _ (f1 0)) by (rewrite map_length, seq_length; auto). rewrite map_nth, seq_nth by auto. reflexivity. }
    assert (Lz : forall s, cap <= s -> dleaf d' s = dleaf d s).
    { intros s S2. unfold d', dleaf, leaf. rewrite EP. cbn [fst dp_p pb_t]. rewrite (leaves_inv _ _ I1), (leaves_inv _ _ (pi_t _ _ _ _ I)), S1.
      rewrite (pi_sz _ _ _ _ I). rewrite !nth_overflow by (rewrite map_length, seq_length; auto). reflexivity. }
    assert (A : forall j, j < length ep -> dleaf d' (slot j) = norm (bumped m j)).
    { intros j J. rewrite Lf1 by (apply Nat.mod_upper_bound; lia). apply N1. unfold hs, modseq.
      rewrite nth_error_map, (nth_error_nth' _ 0), seq_nth by (rewrite ?seq_length; auto). reflexivity. }
    split; [rewrite EP; reflexivity|]. split; [|split].
    - intros j J. split; [|exact (A j J)]. unfold d', dstored, stored. rewrite EP. cbn [fst dp_p pb_b].
      pose proof (si_dat (bi_st _ _ _ IB1) (n := total H + j)) as Q. rewrite (bi_cap _ _ _ IB1) in Q. unfold slot, total in *.
      rewrite Q by (rewrite app_length; lia). rewrite nth_error_app2 by lia. f_equal. lia.
    - intros s N. destruct (Nat.lt_ge_cases s cap) as [S2|S2]; [|exact (Lz s S2)].
      rewrite Lf1, Lf by exact S2. apply O1. intros J. apply In_modseq in J as (n & <- & B).
      apply (N (n - total H)); unfold total in *; [lia|]. unfold slot. f_equal. unfold total. lia.
    - intros M j J. rewrite A by exact J. f_equal. clear J. induction j as [|j IH]; [reflexivity|]. cbn [bumped]. rewrite IH.
      destruct (Qcmax_cases m (norm m)) as [[-> _]|[-> Q]]; [reflexivity|]. apply Qcle_antisym; assumption.
  Qed.

  (* a transition stored without priority is behind the one stored before it, whenever norm makes that weight smaller *)
  Theorem C189_refuted cap a b x : 2 <= cap -> ok a = true -> ok b = true -> (norm (norm x) < norm x)%Qc ->
    let p := fst (pb_store ok norm (fst (pb_store ok norm (pb_new beta cap) [a] (Some [x]))) [b] None) in
    stored p 0 = Some a /\ stored p 1 = Some b /\ (leaf p 1 < leaf p 0)%Qc.
  Proof.
    intros C Oa Ob Lt. cbn zeta.
    set (p1 := fst (pb_store ok norm (pb_new beta cap) [a] (Some [x]))).
    assert (R1 : reach ok norm pw beta inc cap p1 0 [[a]]).
    { apply (reach_store ok norm pw beta inc cap _ 0 [] [a] (Some [x])); [constructor|congruence|cbn; now rewrite Oa|cbn; lia|].
      intros l El. injection El as <-. reflexivity. }
    destruct (C189_partial cap p1 0 [[a]] [b] ltac:(lia) R1 ltac:(congruence) ltac:(cbn; now rewrite Ob) ltac:(cbn; lia)) as (_ & New & Old & _).
    cbn zeta in New, Old.
    destruct (update_batch_inv (wt_new cap) (fun _ => 0%Qc) [norm x] [0%Z] (wt_new_inv cap ltac:(lia))) as (w' & E2 & IT1).
    { cbn. split; [reflexivity|]. intros i [<-|[]]. unfold valid_idx. lia. }
    assert (E1 : p1 = MkPb (fst (b_store_episode ok (b_new cap) [a])) (MkWt cap (batch_max 0%Qc [norm x]) w') beta).
    { unfold p1, pb_store. destruct (BInv_store ok cap (b_new cap) [] [a] (BInv_new cap ltac:(lia)) ltac:(congruence) ltac:(cbn; now rewrite Oa) ltac:(cbn; lia))
        as (b1 & E & IB1 & CN & G). cbn [pb_new pb_b pb_t]. rewrite E, CN. cbn [Nat.sub]. rewrite Nat.sub_0_r, G.
      change (modseq cap (length (@nil T)) (length [a])) with [0 mod cap]. rewrite Nat.mod_0_l by lia.
      change (map Z.of_nat [0]) with [0%Z]. change (map norm [x]) with [norm x]. rewrite E2. reflexivity. }
    assert (M1 : wt_leaf_max (pb_t p1) = norm x).
    { rewrite E1. cbn. destruct (Qcmax_cases 0%Qc (norm x)) as [[-> Q]|[-> Q]]; [|reflexivity].
      exfalso. apply (Qclt_not_le _ _ (norm_pos x) Q). }
    destruct (New 0 ltac:(cbn; lia)) as [_ New0]. clear New. rename New0 into New. rewrite M1 in New. change (total [[a]] + 0) with 1 in New. rewrite Nat.mod_small in New by lia.
    assert (L0 : leaf p1 0 = norm x).
    { unfold leaf. rewrite E1. cbn [pb_t]. pose proof (leaves_inv _ _ IT1) as Q. cbn [wt_size wt_max wt_new] in Q. rewrite Q. destruct cap as [|c]; [lia|]. reflexivity. }
    rewrite (Old 0).
    2:{ intros j J. cbn in J. replace j with 0 by lia. change (total [[a]] + 0) with 1. rewrite Nat.mod_small by lia. lia. }
    rewrite New, L0.
    assert (R2 : reach ok norm pw beta inc cap (fst (pb_store ok norm p1 [b] None)) 0 [[a]; [b]]).
    { apply (reach_store ok norm pw beta inc cap _ 0 [[a]] [b] None R1); [congruence|cbn; now rewrite Ob|cbn; lia|congruence]. }
    destruct (reach_inv ok norm pw beta inc norm_pos cap _ _ _ ltac:(lia) R2) as (f2 & I2).
    pose proof (pi_b _ _ _ _ I2) as B2.
    assert (D : forall n, n < 2 -> stored (fst (pb_store ok norm p1 [b] None)) n = nth_error [a; b] n).
    { intros n N. pose proof (si_dat (bi_st _ _ _ B2) (n := n)) as Q. rewrite (bi_cap _ _ _ B2) in Q.
      rewrite Nat.mod_small in Q by lia. apply Q; cbn; lia. }
    split; [apply (D 0); lia|]. split; [apply (D 1); lia|exact Lt].
  Qed.

  (* the transitions of one episode stored in an empty distributed buffer do not get the same weight *)
  Theorem C189_distributed_refuted cap a b : 2 <= cap -> ok a = true -> ok b = true -> norm (norm 0%Qc) <> norm 0%Qc ->
    let d := fst (dp_store ok norm (dp_new beta cap) [a; b] None) in
    dleaf d 0 = norm 0%Qc /\ dleaf d 1 = norm (norm 0%Qc) /\ dleaf d 0 <> dleaf d 1.
  Proof.
    intros C Oa Ob Ne. cbn zeta.
    destruct (C189_distributed_partial cap (dp_new beta cap) [] [a; b] C ltac:(constructor) ltac:(congruence) ltac:(cbn; now rewrite Oa, Ob) ltac:(cbn; lia)) as (_ & New & _ & _).
    destruct (New 0 ltac:(cbn; lia)) as [_ N0]. destruct (New 1 ltac:(cbn; lia)) as [_ N1].
    change (total [] + 0) with 0 in N0. change (total [] + 1) with 1 in N1. rewrite Nat.mod_small in N0, N1 by lia.
    change (wt_leaf_max (pb_t (dp_p (dp_new beta cap)))) with 0%Qc in N0, N1. cbn [bumped] in N0, N1. cbn zeta in N1.
    destruct (Qcmax_cases 0%Qc (norm 0%Qc)) as [[E Q]|[E Q]]; [exfalso; apply (Qclt_not_le _ _ (norm_pos 0%Qc) Q)|].
    rewrite E in N1. rewrite N0, N1. repeat split; auto.
  Qed.
End Prio.
Print Assumptions C189_partial.
Print Assumptions C189_distributed_partial.
Print Assumptions C189_refuted.
Print Assumptions C189_distributed_refuted.

(* norm x = (|x| + 1) / 2: smaller above 1, larger below *)
Example C189_nonvacuous :
  let half := fun x : Qc => ((Qcmax x (- x) + 1) / nq 2)%Qc in
  let p := fst (pb_store (fun _ : nat => true) half (fst (pb_store (fun _ => true) half (pb_new 1%Qc 3) [7] (Some [nq 9]))) [8; 9] None) in
  let d := fst (dp_store (fun _ : nat => true) half (dp_new 1%Qc 3) [7; 8] None) in
  map this (map (leaf p) [0; 1; 2]) = map this [nq 5; nq 3; nq 3] /\
  map this (map (dleaf d) [0; 1; 2]) = map this [(1 / nq 2)%Qc; (nq 3 / nq 4)%Qc; 0%Qc].
Proof. vm_compute. split; reflexivity. Qed.
