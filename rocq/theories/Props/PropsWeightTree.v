(* C07 - C11: the weight tree behind prioritized replay. *)
From Verif Require Import Lib.Rat Model.WeightTree Spec.WeightTreeSpec Proofs.WeightTreeProofs.
Open Scope Z_scope.
Open Scope nat_scope.

Theorem C07_leaves_and_sums_exact : forall s os,
  2 <= s -> (forall o, In o os -> valid_op s o) ->
  let t := wt_run (wt_new s) os in
  wt_leaves t = map (spec_run os) (seq 0 s) /\
  wt_sum t = total_from (spec_run os) 0 s /\
  (forall i j, S i < wt_depth s -> j < 2 ^ (wt_depth s - 1 - S i) ->
     exists a b, nth_error (wt_w t) (wt_off (wt_depth s) i + 2 * j) = Some a /\
       nth_error (wt_w t) (wt_off (wt_depth s) i + (2 * j + 1)) = Some b /\
       nth_error (wt_w t) (wt_off (wt_depth s) (S i) + j) = Some (a + b)%Qc).
Proof.
  intros s os S2 V t. destruct (wt_run_inv s os S2 V) as [I SZ]. fold t in I, SZ.
  split; [rewrite <- SZ; exact (leaves_inv _ _ I)|].
  split; [rewrite <- SZ; exact (root_total _ _ I)|].
  rewrite <- SZ. exact (fun i j Li Lj => children_inv _ _ i j I Li Lj).
Qed.
Print Assumptions C07_leaves_and_sums_exact.

(* every documented call succeeds in every reachable tree *)
Theorem C07_valid_updates_succeed : forall s os o,
  2 <= s -> (forall o, In o os -> valid_op s o) -> valid_op s o ->
  snd (wt_step (wt_run (wt_new s) os) o) = Ok tt.
Proof.
  intros s os o S2 V Vo. destruct (wt_run_inv s os S2 V) as [I SZ].
  exact (proj1 (wt_step_inv _ _ o I ltac:(rewrite SZ; exact S2) ltac:(rewrite SZ; exact Vo))).
Qed.
Print Assumptions C07_valid_updates_succeed.

Example C07_nonvacuous :
  let os := [WAll [nq 1; nq 2; nq 3]; WLeaf (nq 5) 1; WBatch [nq 7; nq 4; nq 6] [0;2;0]%Z] in
  (forall o, In o os -> valid_op 3 o) /\
  wt_w (wt_run (wt_new 3) os) = map nq [6; 5; 4; 0; 11; 4; 15].
Proof.
  split; [|vm_compute; reflexivity].
  intros o [<-|[<-|[<-|[]]]]; cbn; unfold valid_idx; try lia.
  split; auto. intros i [<-|[<-|[<-|[]]]]; lia.
Qed.

(* A one-leaf tree cannot take single updates at all (IndexError on the sibling). *)
Theorem C07_single_leaf_tree_refuted :
  exists w, snd (wt_update_leaf (wt_new 1) w 0) = Err EIndex.
Proof. exists (nq 1). vm_compute. reflexivity. Qed.
Print Assumptions C07_single_leaf_tree_refuted.

Theorem C08_find_is_inverse_cdf : forall s os x,
  2 <= s -> (forall o, In o os -> valid_op s o) ->
  (forall o, In o os -> nonneg_op o) ->
  let t := wt_run (wt_new s) os in let f := spec_run os in
  (0 < x)%Qc -> (x <= wt_sum t)%Qc ->
  exists i, wt_find1 t x = Ok i /\ i < s /\ (prefix f i < x)%Qc /\ (x <= prefix f (S i))%Qc /\
    (0 < f i)%Qc /\
    (forall j, (prefix f j < x)%Qc -> (x <= prefix f (S j))%Qc -> j = i).
Proof.
  intros s os x S2 V NN t f X0 X1. destruct (wt_run_inv s os S2 V) as [I SZ].
  destruct (find_inv _ _ x I X0 X1) as (i & E & L & A & B). rewrite SZ in L. fold f in A, B.
  exists i. split; [exact E|]. split; [exact L|]. split; [exact A|]. split; [exact B|].
  split; [pose proof (prefix_S f i); qcl|].
  exact (fun j P Q => prefix_unique f x j i (spec_run_nonneg os NN) P Q A B).
Qed.
Print Assumptions C08_find_is_inverse_cdf.
Example C08_nonvacuous :
  let t := wt_run (wt_new 3) [WAll [nq 1; nq 0; nq 3]] in
  wt_find t [nq 1; nq 2; nq 4] = Ok [0; 2; 2].
Proof. vm_compute. reflexivity. Qed.

(* the boundary w = 0 (inside the documented range) always gives leaf 0, even when
   that leaf has weight zero *)
Theorem C08_find_zero : forall s os,
  2 <= s -> (forall o, In o os -> valid_op s o) -> (forall o, In o os -> nonneg_op o) ->
  wt_find1 (wt_run (wt_new s) os) 0%Qc = Ok 0.
Proof.
  intros s os S2 V NN. destruct (wt_run_inv s os S2 V) as [I _].
  exact (find_zero _ _ I (spec_run_nonneg os NN)).
Qed.
Print Assumptions C08_find_zero.

Theorem C09_single_equals_batch_of_one : forall s os w i,
  2 <= s -> (forall o, In o os -> valid_op s o) -> valid_idx s i ->
  let t := wt_run (wt_new s) os in
  wt_update_leaf t w i = wt_update_batch t [w] [i].
Proof. exact single_eq_batch. Qed.
Print Assumptions C09_single_equals_batch_of_one.

Theorem C09_batch_equals_sequence : forall s os ws is,
  2 <= s -> (forall o, In o os -> valid_op s o) -> valid_op s (WBatch ws is) ->
  let t := wt_run (wt_new s) os in
  fst (wt_update_batch t ws is) = fold_left (fun t p => fst (wt_update_leaf t (snd p) (fst p))) (combine is ws) t.
Proof. exact batch_eq_seq. Qed.
Print Assumptions C09_batch_equals_sequence.

Theorem C09_all_equals_batch_up_to_max : forall s os ws,
  2 <= s -> (forall o, In o os -> valid_op s o) -> length ws = s ->
  let t := wt_run (wt_new s) os in
  wt_w (fst (wt_update_all t ws)) = wt_w (fst (wt_update_batch t ws (map Z.of_nat (seq 0 s)))).
Proof. exact all_eq_batch. Qed.
Print Assumptions C09_all_equals_batch_up_to_max.
Example C09_nonvacuous :
  fst (wt_update_batch (wt_new 3) [nq 2; nq 3; nq 1] [1;0;1]%Z)
  = MkWt 3 (nq 3) (map nq [3;1;0;0;4;0;4]).
Proof. vm_compute. reflexivity. Qed.

(* C10 is violated: after lowering the largest leaf get_leaf_max keeps the old value. *)
Theorem C10_leaf_max_refuted :
  exists os, (forall o, In o os -> valid_op 2 o) /\
    wt_leaves (wt_run (wt_new 2) os) = [nq 1; 0%Qc] /\ wt_leaf_max (wt_run (wt_new 2) os) = nq 9.
Proof.
  exists [WLeaf (nq 9) 0; WLeaf (nq 1) 0]. split; [|split; vm_compute; reflexivity].
  intros o [<-|[<-|[]]]; cbn; unfold valid_idx; lia.
Qed.
Print Assumptions C10_leaf_max_refuted.

(* what get_leaf_max really is: the maximum of everything written since the last
   update_all_leaves; hence only an upper bound of the current leaves *)
Theorem C10_leaf_max_history_partial : forall s os,
  2 <= s -> (forall o, In o os -> valid_op s o) ->
  is_max (wt_leaf_max (wt_run (wt_new s) os)) (written_since_reset os).
Proof.
  exact (fun s os S2 V => wt_max_run os (wt_new s) _ [0%Qc] (wt_new_inv s (le_S_n _ _ (le_S _ _ S2))) S2 V
    (conj (or_introl eq_refl) (fun y H => match H with or_introl E => eq_ind _ (fun z => (z <= _)%Qc) (Qcle_refl _) _ E | or_intror F => False_ind _ F end))).
Qed.
Print Assumptions C10_leaf_max_history_partial.
Theorem C10_leaf_max_upper_bound_partial : forall s os,
  2 <= s -> (forall o, In o os -> valid_op s o) ->
  forall w, In w (wt_leaves (wt_run (wt_new s) os)) -> (w <= wt_leaf_max (wt_run (wt_new s) os))%Qc.
Proof. exact leaf_max_upper. Qed.
Print Assumptions C10_leaf_max_upper_bound_partial.

(* C11: batch updates and reads outside [0,size) are refused without effect. *)
Theorem C11_batch_and_read_rejected : forall t ws is i,
  In i is -> ~ valid_idx (wt_size t) i ->
  wt_leaf_weight t is = Err EValue /\
  (length ws = length is -> wt_update_batch t ws is = (t, Err EValue)).
Proof. exact reject_batch. Qed.
Print Assumptions C11_batch_and_read_rejected.
Theorem C11_length_mismatch_rejected : forall t ws is,
  length ws <> length is -> wt_update_batch t ws is = (t, Err EValue).
Proof. exact reject_len. Qed.
Print Assumptions C11_length_mismatch_rejected.
Theorem C11_all_wrong_length_rejected : forall t ws,
  length ws <> wt_size t -> wt_update_all t ws = (t, Err EValue).
Proof. exact reject_all. Qed.
Print Assumptions C11_all_wrong_length_rejected.
(* the maximum of no weights: an empty tree refuses update_all_leaves as well *)
Theorem C11_all_empty_rejected : forall t, wt_size t = 0 -> wt_update_all t [] = (t, Err EValue).
Proof. intros [s m w] E. cbn in *. subst s. reflexivity. Qed.
Print Assumptions C11_all_empty_rejected.
(* single updates: missing is exactly index = size *)
Theorem C11_single_rejected_partial : forall t w i,
  ~ valid_idx (wt_size t) i -> i <> Z.of_nat (wt_size t) -> wt_update_leaf t w i = (t, Err EValue).
Proof. exact reject_single. Qed.
Print Assumptions C11_single_rejected_partial.
Example C11_nonvacuous : wt_update_leaf (wt_new 3) (nq 1) 4 = (wt_new 3, Err EValue) /\
  wt_update_batch (wt_new 3) [nq 1] [3]%Z = (wt_new 3, Err EValue) /\
  wt_update_leaf (wt_new 3) (nq 1) (-1) = (wt_new 3, Err EValue).
Proof. vm_compute. auto. Qed.

Theorem C11_index_size_refuted :
  (* accepted: the weight of a leaf that does not exist enters the total *)
  (exists t', wt_update_leaf (wt_new 3) (nq 5) 3 = (t', Ok tt) /\
     wt_leaves t' = [0; 0; 0]%Qc /\ wt_sum t' = nq 5 /\ wt_find1 t' (nq 5) = Ok 2) /\
  (* or IndexError (not ValueError) after the tree was already changed *)
  (exists t', wt_update_leaf (wt_new 4) (nq 5) 4 = (t', Err EIndex) /\ wt_sum t' = nq 5 /\
     wt_leaves t' = [0; 0; 0; 0]%Qc).
Proof. split; eexists; repeat split; vm_compute; reflexivity. Qed.
Print Assumptions C11_index_size_refuted.

(* a one-leaf tree refuses every weight *)
Theorem C07_single_leaf_every_weight_refuted : forall w, snd (wt_update_leaf (wt_new 1) w 0) = Err EIndex.
Proof. reflexivity. Qed.
Print Assumptions C07_single_leaf_every_weight_refuted.

(* lowering the only largest leaf leaves the answer above every leaf, in every tree *)
Theorem C10_lowered_leaf_refuted : forall s os w i,
  2 <= s -> (forall o, In o os -> valid_op s o) -> valid_idx s i ->
  let m := wt_leaf_max (wt_run (wt_new s) os) in
  let t := wt_run (wt_new s) (os ++ [WLeaf w i]) in
  (forall j, j < s -> j <> Z.to_nat i -> (spec_run os j < m)%Qc) -> (w < m)%Qc ->
  wt_leaf_max t = m /\ (forall x, In x (wt_leaves t) -> (x < m)%Qc).
Proof.
  intros s os w i S2 V Vi m t O Lw.
  assert (V' : forall o, In o (os ++ [WLeaf w i]) -> valid_op s o).
  { intros o I. apply in_app_or in I as [I|[<-|[]]]; [auto|exact Vi]. }
  split.
  - apply (is_max_unique _ m (written_since_reset (os ++ [WLeaf w i]))); [apply C10_leaf_max_history_partial; auto|].
    destruct (C10_leaf_max_history_partial s os S2 V) as [Im Um]. fold m in Im, Um.
    unfold written_since_reset. rewrite fold_left_app. cbn [fold_left written_step]. fold (written_since_reset os).
    split; [apply in_or_app; auto|]. intros x I. apply in_app_or in I as [I|[<-|[]]]; auto. now apply Qclt_le_weak.
  - destruct (C07_leaves_and_sums_exact s _ S2 V') as [L _]. fold t in L. rewrite L. intros x I.
    apply in_map_iff in I as (j & <- & Ij). apply in_seq in Ij.
    unfold spec_run. rewrite fold_left_app. cbn [fold_left spec_step]. fold (spec_run os). unfold tset.
    destruct (Nat.eqb_spec j (Z.to_nat i)); auto. apply O; auto. lia.
Qed.
Print Assumptions C10_lowered_leaf_refuted.

Lemma total_tset f x : forall n a b, a + n = b -> total_from (tset f b x) a (S n) = (total_from f a n + x)%Qc.
Proof.
  induction n as [|n IH]; intros a b E.
  - cbn. unfold tset. replace (a =? b) with true by (symmetry; apply Nat.eqb_eq; lia). ring.
  - change (total_from (tset f b x) a (S (S n))) with (tset f b x a + total_from (tset f b x) (S a) (S n))%Qc.
    rewrite (IH (S a) b) by lia. cbn [total_from]. unfold tset. replace (a =? b) with false by (symmetry; apply Nat.eqb_neq; lia). ring.
Qed.

(* in general: whenever the size is not a power of two, and whatever was stored before *)
Theorem C11_phantom_leaf_refuted : forall s os w,
  2 <= s -> (forall o, In o os -> valid_op s o) -> s < 2 ^ Nat.log2_up s ->
  let t := wt_run (wt_new s) os in
  exists t', wt_update_leaf t w (Z.of_nat s) = (t', Ok tt) /\
    wt_leaves t' = wt_leaves t /\ wt_sum t' = (wt_sum t + w)%Qc.
Proof.
  intros s os w S2 V P t. destruct (wt_run_inv s os S2 V) as [I SZ]. fold t in I, SZ.
  assert (D : wt_depth (S s) = wt_depth s).
  { unfold wt_depth. f_equal. apply Nat.le_antisymm.
    - apply Nat.log2_up_le_pow2; lia.
    - apply Nat.log2_up_le_mono. lia. }
  set (t2 := MkWt (S s) (wt_max t) (wt_w t)).
  assert (I2 : WInv t2 (spec_run os)).
  { destruct I as [A B C E]. unfold wt_d in *. rewrite SZ in *. constructor; unfold wt_d; cbn [wt_size wt_w t2].
    - lia.
    - rewrite D. exact B.
    - intros k K. apply C. lia.
    - rewrite D. exact E. }
  destruct (update_leaf_inv t2 _ w (Z.of_nat s) I2 ltac:(cbn; lia) ltac:(unfold valid_idx; cbn [wt_size t2]; lia)) as (w' & E & I').
  exists (MkWt s (Qcmax (wt_max t) w) w').
  split; [|split].
  - revert E. unfold wt_update_leaf, wt_d. cbn [wt_size wt_w wt_max t2]. rewrite SZ, D.
    replace ((0 <=? Z.of_nat s)%Z && (Z.of_nat s <=? Z.of_nat (S s))%Z)%bool with true
      by (symmetry; apply andb_true_intro; split; apply Z.leb_le; lia).
    replace ((0 <=? Z.of_nat s)%Z && (Z.of_nat s <=? Z.of_nat s)%Z)%bool with true
      by (symmetry; apply andb_true_intro; split; apply Z.leb_le; lia).
    cbn [negb]. destruct (_ <? _); [|intros Q; discriminate Q].
    destruct (nth_error _ _); [|intros Q; discriminate Q].
    destruct (ul_loop _ _ _ _ _ _ _) as [w2 [[v cv]|e]]; intros Q; [|discriminate Q].
    injection Q as <-. reflexivity.
  - pose proof (leaves_inv _ _ I') as L'. pose proof (leaves_inv _ _ I) as L.
    rewrite L, SZ. unfold wt_leaves in *. cbn [wt_size wt_w t2] in *.
    assert (F : firstn s w' = firstn s (firstn (S s) w')) by (rewrite firstn_firstn; f_equal; lia).
    rewrite F, L', seq_S, map_app, firstn_app, map_length, seq_length, Nat.sub_diag, firstn_O, app_nil_r, firstn_all2 by (rewrite map_length, seq_length; lia).
    apply map_ext_in. intros k K. apply in_seq in K. unfold tset. rewrite Nat2Z.id. destruct (Nat.eqb_spec k s); auto. lia.
  - transitivity (wt_sum (MkWt (wt_size t2) (Qcmax (wt_max t2) w) w')); [reflexivity|].
    rewrite (root_total _ _ I'), (root_total _ _ I), SZ. cbn [wt_size t2]. rewrite Nat2Z.id.
    apply total_tset. reflexivity.
Qed.
Print Assumptions C11_phantom_leaf_refuted.
