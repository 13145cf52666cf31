(* C37 running statistics, C38 filter synchronisation, C39 frozen statistics, C40 work split,
   C41 selection of rollouts, C57 gradient, C58 noise slices. *)
From Coq Require Import QArith Permutation.
From Verif Require Import Lib.Rat Model.Losses Model.Ars Spec.ArsSpec
  Proofs.ProjectProofs Proofs.ArsStatProofs Proofs.ArsSelectProofs.
Close Scope Q_scope.
Open Scope nat_scope.

Definition q (n : Z) : Qc := Q2Qc (inject_Z n).

(* C37 *)
Theorem C37_push : forall xs,
  let r := pushes rs_new xs in
  rn r = length xs /\ mean r = mean_of xs /\
  (2 <= length xs -> var r = unbiased_var xs) /\
  (forall x, xs = [x] -> var r = (x * x)%Qc).
Proof.
  intros xs r. assert (H : represents r xs) by exact (pushes_represents xs represents_new).
  pose proof H as (H1 & H2 & H3). split; [auto|]. split; [exact H2|]. split; [now apply represents_var|].
  intros x ->. rewrite (represents_var1 H) by (cbn; lia). unfold mean_of. cbn. change (nq 1) with 1%Qc. field. discriminate.
Qed.
Print Assumptions C37_push.
Theorem C37_merge : forall xs ys, xs ++ ys <> [] ->
  exists r, merge (pushes rs_new xs) (pushes rs_new ys) = Some r /\
    rn r = length xs + length ys /\ mean r = mean_of (xs ++ ys) /\
    (2 <= length (xs ++ ys) -> var r = unbiased_var (xs ++ ys)) /\
    (* further observations continue the statistics of the concatenation *)
    (forall zs, mean (pushes r zs) = mean_of (xs ++ ys ++ zs) /\
                (2 <= length (xs ++ ys ++ zs) -> var (pushes r zs) = unbiased_var (xs ++ ys ++ zs))).
Proof.
  intros xs ys Hne.
  destruct (merge_represents (pushes_represents xs represents_new) (pushes_represents ys represents_new) Hne) as (r & E & R).
  cbn [app] in R. exists r. split; [exact E|]. pose proof R as (H1 & H2 & H3).
  split; [rewrite H1; apply app_length|]. split; [exact H2|]. split; [now apply represents_var|].
  intros zs. pose proof (pushes_represents zs R) as R'. rewrite <- app_assoc in R'.
  split; [apply R'|apply represents_var; exact R'].
Qed.
Print Assumptions C37_merge.
(* merging two empty statistics divides 0 by 0 *)
Theorem C37_empty : merge (pushes rs_new []) (pushes rs_new []) = None.
Proof. reflexivity. Qed.
Print Assumptions C37_empty.
Example C37_nonvacuous :
  (this (mean (pushes rs_new [q 1; q 2; q 6])), this (var (pushes rs_new [q 1; q 2; q 6]))) = (3 # 1, 7 # 1)%Q.
Proof. vm_compute. reflexivity. Qed.

(* C38: the claim fails in every history that completes and in which anything was observed:
   the manager's own observations are counted twice. *)
Theorem C38_refuted : forall (D : Type) (sd : Qc -> D) (d_one : D) members (h : list (list (list Qc))) ms f,
  0 < members -> Forall (fun o => length o = members) h ->
  rounds sd d_one (repeat None members) h = Ok ms ->
  Exists (fun o => concat o <> []) h ->
  In (Some f) ms ->
  rn (f_rs f) > length (concat (concat h)).
Proof.
  intros D sd d_one n h ms f Hn F E X I.
  destruct (@rounds_fresh D sd d_one h (repeat None n)) with (ms' := ms) as [[_ G]|[G1 G2]]; auto.
  - unfold fresh. apply Forall_forall. intros m Im. apply repeat_spec in Im. auto.
  - destruct n; [lia|discriminate].
  - rewrite repeat_length. auto.
  - exfalso. apply Exists_exists in X as (o & Io & Ho). rewrite Forall_forall in G. apply Ho, G, Io.
  - unfold merged in G1. rewrite Forall_forall in G1. destruct (G1 _ I) as (g & Eg & [Hg _]).
    injection Eg as <-. destruct Hg as (-> & _ & _). clear -G2. unfold history_obs.
    assert (L : forall h : list (list (list Qc)), length (concat (concat h)) <= length (concat (map round_obs h))).
    { induction h0 as [|o h0 IH]; cbn; auto. rewrite concat_app, !app_length. unfold round_obs at 1. rewrite app_length. lia. }
    induction G2 as [o h Ho|o h _ IH]; cbn; rewrite concat_app, !app_length; unfold round_obs at 1; rewrite app_length.
    + specialize (L h). assert (0 < length (hd [] o)) by (destruct (hd [] o); [congruence|cbn; lia]). lia.
    + lia.
Qed.
Print Assumptions C38_refuted.
(* What does hold: if every member observes something in the first round, every history completes,
   all members agree, and the statistics are exactly those of all observations with the
   manager's listed twice. Missing: each observation counted once. *)
Theorem C38_partial : forall (D : Type) (sd : Qc -> D) (d_one : D) members o (h : list (list (list Qc))),
  0 < members -> Forall (fun o => length o = members) (o :: h) -> Forall (fun xs => xs <> []) o ->
  exists ms, rounds sd d_one (repeat None members) (o :: h) = Ok ms /\ length ms = members /\
    forall m, In m ms -> exists f, m = Some f /\
      let xs := concat (concat (o :: h)) ++ concat (map (hd []) (o :: h)) in
      rn (f_rs f) = length xs /\ mean (f_rs f) = mean_of xs /\
      (2 <= length xs -> var (f_rs f) = unbiased_var xs) /\
      rn (f_local f) = 0.
Proof.
  intros D sd d_one n o h Hn F Ne. inversion F as [|? ? Lo F']; subst.
  set (ms0 := repeat (@None (filt D)) (length o)).
  assert (L0 : length ms0 = length o) by apply repeat_length.
  (* first round *)
  assert (R1 : exists m1, filter_round sd (map2 (acts d_one) ms0 o) = Ok m1 /\ length m1 = length o /\ merged m1 (round_obs o)).
  { destruct o as [|o0 os]; [cbn in Hn; lia|]. unfold ms0. cbn [length repeat map2].
    inversion Ne as [|? ? Ho0 Ne']; subst.
    destruct (acts_none d_one Ho0) as (g & Eg & [G1 G2]). rewrite Eg.
    assert (FF : Forall2 (fun m o => exists g b, m = Some g /\ holds g b o)
              (Some g :: map2 (acts d_one) (repeat None (length os)) os) (o0 :: os)).
    { constructor; [exists g, o0; split; auto; split; auto|]. clear -Ne'.
      induction Ne' as [|x xs Hx Ne' IH]; cbn; constructor; auto.
      destruct (acts_none d_one Hx) as (g & E & G). exists g, x. auto. }
    destruct (@round_spec D sd g (map2 (acts d_one) (repeat None (length os)) os) o0 (o0 :: os) G1 Ho0 FF) as (m1 & E & L & M).
    exists m1. split; [exact E|]. split; [|exact M]. rewrite L, map2_length by (now rewrite repeat_length). cbn. now rewrite repeat_length. }
  destruct R1 as (m1 & E1 & L1 & M1).
  destruct (@rounds_merged D sd d_one h m1 (round_obs o)) as (ms & E & L & M); auto.
  { unfold round_obs. destruct o as [|o0 os]; [cbn in Hn; lia|]. inversion Ne; subst. cbn. destruct o0; [congruence|discriminate]. }
  { intros ->. cbn in L1. lia. }
  { rewrite L1. auto. }
  exists ms. split; [cbn [rounds]; fold ms0; rewrite E1; exact E|]. split; [congruence|].
  intros m I. unfold merged in M. rewrite Forall_forall in M. destruct (M _ I) as (f & -> & [Hf Hl]).
  exists f. split; auto.
  assert (P : Permutation (round_obs o ++ history_obs h) (concat (concat (o :: h)) ++ concat (map (hd []) (o :: h)))).
  { change (round_obs o ++ history_obs h) with (history_obs (o :: h)). generalize (o :: h). clear.
    induction l as [|o l IH]; cbn; auto. unfold history_obs in *. cbn. unfold round_obs at 1.
    rewrite IH, concat_app, <- !app_assoc.
    rewrite (Permutation_app_comm (hd [] o)), <- !app_assoc. apply Permutation_app_head, Permutation_app_head.
    apply Permutation_app_comm. }
  pose proof (represents_perm P Hf) as Hf'. split; [apply Hf'|]. split; [apply Hf'|].
  split; [now apply represents_var|]. apply Hl.
Qed.
Print Assumptions C38_partial.
(* a worker that has not acted (for instance because it got no rollouts) breaks the update *)
Theorem C38_idle_worker_raises : forall (D : Type) (sd : Qc -> D) (d_one : D) x xs,
  rounds sd d_one [None; None] [[x :: xs; []]] = Err EKey.
Proof.
  intros. cbn [rounds map2]. destruct (@acts_none D d_one (x :: xs)) as (g & E & [H1 H2]); [discriminate|]. rewrite E.
  cbn [fold_left acts filter_round collect_all]. unfold collect.
  destruct (merge_represents H1 H2) as (r & E' & _); [discriminate|]. rewrite E'. reflexivity.
Qed.
Print Assumptions C38_idle_worker_raises.
Example C38_nonvacuous :
  (match rounds (fun v => this v) 1%Q (repeat None 2) [[[q 1]; [q 2; q 3]]; [[q 4]; []]] with
   | Ok ms => map (option_map (fun f => (rn (f_rs f), this (rM (f_rs f))))) ms | Err _ => [] end)
  = [Some (6, (5 # 2)%Q); Some (6, (5 # 2)%Q)].
Proof. vm_compute. reflexivity. Qed.

(* C39: the std is frozen, and so is everything before the first apply_stats *)
Definition used {D} (sd : Qc -> D) d_one (ops : list fop) (x : Qc) (u : bool) : Qc * D :=
  snd (filter_call (frun sd (f_new d_one) ops) x u).
Theorem C39_std_partial : forall (D : Type) (sd : Qc -> D) (d_one : D) ops1 ops2 x u,
  ~ In Apply ops2 ->
  snd (used sd d_one ops2 x u) = d_one /\
  snd (used sd d_one (ops1 ++ Apply :: ops2) x u) =
    sd (if 2 <=? length (seen ops1) then unbiased_var (seen ops1) else mean_of (seen ops1) * mean_of (seen ops1))%Qc.
Proof.
  intros D sd d_one ops1 ops2 x u H. unfold used.
  assert (G : forall (f : filt D), snd (snd (filter_call f x u)) = f_std f) by (intros f; destruct u; reflexivity).
  split.
  - rewrite G, frun_std_frozen; auto.
  - rewrite G, frun_app. cbn [frun]. rewrite frun_std_frozen by auto. cbn [apply_stats f_std]. f_equal.
    pose proof (@frun_rs D sd ops1 (f_new d_one) [] represents_new) as R. cbn [app] in R.
    destruct (Nat.leb_spec 2 (length (seen ops1))).
    + now apply represents_var.
    + apply represents_var1; auto.
Qed.
Print Assumptions C39_std_partial.
(* The mean is frozen only before the first apply_stats and while observations are not recorded. *)
Theorem C39_mean_partial : forall (D : Type) (sd : Qc -> D) (d_one : D) ops1 ops2 x u,
  ~ In Apply ops2 ->
  fst (used sd d_one ops2 x u) = 0%Qc /\
  (seen (ops2 ++ [Filter x u]) = [] -> fst (used sd d_one (ops1 ++ Apply :: ops2) x u) = mean_of (seen ops1)).
Proof.
  intros D sd d_one ops1 ops2 x u H. unfold used. split.
  - unfold filter_call, used_mean. cbn [fst snd]. destruct u; cbn [f_mean]; rewrite frun_mref by auto; reflexivity.
  - intros Hs.
    change (fst (snd (filter_call (frun sd (f_new d_one) (ops1 ++ Apply :: ops2)) x u)))
      with (used_mean (frun sd (frun sd (f_new d_one) (ops1 ++ Apply :: ops2)) [Filter x u])).
    rewrite <- frun_app, <- app_assoc. cbn [app].
    pose proof (@frun_rs D sd (ops1 ++ Apply :: ops2 ++ [Filter x u]) (f_new d_one) [] represents_new) as R.
    cbn [app] in R. rewrite seen_app in R. cbn [seen] in R. rewrite Hs, app_nil_r in R.
    unfold used_mean. rewrite frun_app in R |- *. cbn [frun] in R |- *.
    rewrite (@frun_mref D sd (ops2 ++ [Filter x u])).
    + cbn [apply_stats f_mean]. apply R.
    + intros I. apply in_app_or in I as [I|[I|[]]]; [auto|discriminate].
Qed.
Print Assumptions C39_mean_partial.
(* After apply_stats the mean that is used follows every recorded observation, the one being
   filtered included, because self.mean is the tensor that push updates in place. *)
Theorem C39_mean_drifts : forall (D : Type) (sd : Qc -> D) (d_one : D) ops1 ops2 x u,
  fst (used sd d_one (ops1 ++ Apply :: ops2) x u) = mean_of (seen (ops1 ++ ops2 ++ [Filter x u])).
Proof.
  intros D sd d_one ops1 ops2 x u. unfold used.
  change (fst (snd (filter_call (frun sd (f_new d_one) (ops1 ++ Apply :: ops2)) x u)))
    with (used_mean (frun sd (frun sd (f_new d_one) (ops1 ++ Apply :: ops2)) [Filter x u])).
  rewrite <- frun_app, <- app_assoc. cbn [app].
  pose proof (@frun_rs D sd (ops1 ++ Apply :: ops2 ++ [Filter x u]) (f_new d_one) [] represents_new) as R.
  cbn [app] in R. rewrite seen_app in R. cbn [seen] in R.
  unfold used_mean.
  assert (A : forall ops (f : filt D), f_mean f = Alias -> f_mean (frun sd f ops) = Alias).
  { induction ops as [|[y v|] ops IH]; intros f Hf; cbn [frun]; auto. apply IH. destruct v; auto. }
  rewrite frun_app in R |- *. cbn [frun] in R |- *. rewrite A by reflexivity.
  rewrite seen_app. apply R.
Qed.
Print Assumptions C39_mean_drifts.
Theorem C39_refuted : exists ops1 x y,
  fst (used (fun v => v) 1%Qc (ops1 ++ [Apply]) x true) <> mean_of (seen ops1) /\
  fst (used (fun v => v) 1%Qc (ops1 ++ [Apply; Filter x true]) y false) <>
  fst (used (fun v => v) 1%Qc (ops1 ++ [Apply]) y false).
Proof.
  exists [Filter (q 1) true], (q 3), (q 5). split; intros H; apply (f_equal this) in H; vm_compute in H; discriminate.
Qed.
Print Assumptions C39_refuted.
(* in general: every recorded observation that differs from the mean changes the mean that is used, between two calls of
   apply_stats *)
Theorem C39_any_observation_refuted : forall (D : Type) (sd : Qc -> D) (d_one : D) ops1 ops2 x y,
  x <> mean_of (seen (ops1 ++ ops2)) ->
  fst (used sd d_one (ops1 ++ Apply :: ops2 ++ [Filter x true]) y false) <> fst (used sd d_one (ops1 ++ Apply :: ops2) y false).
Proof.
  intros D sd d_one ops1 ops2 x y N. rewrite !C39_mean_drifts.
  assert (E1 : seen (ops1 ++ ops2 ++ [Filter y false]) = seen (ops1 ++ ops2)) by (rewrite !seen_app; cbn [seen]; now rewrite app_nil_r).
  assert (E2 : seen (ops1 ++ (ops2 ++ [Filter x true]) ++ [Filter y false]) = seen (ops1 ++ ops2) ++ [x])
    by (rewrite !seen_app; cbn [seen]; now rewrite app_nil_r, app_assoc).
  rewrite E1, E2. clear E1 E2. revert N. generalize (seen (ops1 ++ ops2)) as l. intros l N Q. apply N. unfold mean_of in *.
  assert (QS : qsum (l ++ [x]) = (qsum l + x)%Qc).
  { clear. induction l as [|a l IH]; cbn; [ring|]. rewrite IH. ring. }
  rewrite QS, app_length in Q. cbn [length] in Q.
  destruct l as [|a l]; [cbn in Q |- *; rewrite <- Q; change (nq 1) with 1%Qc; field; discriminate|].
  set (k := length (a :: l)) in *. set (s := qsum (a :: l)) in *.
  assert (K : nq k <> 0%Qc) by (intros Z; assert (P : (0 < nq k)%Qc) by (apply nq_pos; unfold k; cbn; lia); rewrite Z in P; discriminate).
  assert (K1 : nq (k + 1) <> 0%Qc) by (intros Z; assert (P : (0 < nq (k + 1))%Qc) by (apply nq_pos; lia); rewrite Z in P; discriminate).
  assert (KS : nq (k + 1) = (nq k + 1)%Qc) by (rewrite Nat.add_1_r; rewrite nq_S; ring).
  assert (A : (s + x)%Qc = (s / nq k * nq (k + 1))%Qc) by (rewrite <- Q; field; auto).
  rewrite KS in A. assert (B : (s / nq k * (nq k + 1))%Qc = (s + s / nq k)%Qc) by (field; auto).
  rewrite B in A. assert (x = (s + x - s)%Qc) as -> by ring. rewrite A. ring.
Qed.
Print Assumptions C39_any_observation_refuted.
Example C39_nonvacuous :
  map (fun ops => this (fst (used (fun v => v) 1%Qc ops (q 5) false)))
      [[Filter (q 1) true]; [Filter (q 1) true; Apply]; [Filter (q 1) true; Apply; Filter (q 3) true]]
  = [0; 1; 2]%Q.
Proof. vm_compute. reflexivity. Qed.

(* C40 *)
Lemma NoDup_join {T} (a b : list T) : NoDup a -> NoDup b -> (forall x, In x a -> ~ In x b) -> NoDup (a ++ b).
Proof.
  induction 1 as [|x a Hx Na IH]; cbn; intros Nb D; auto. constructor.
  - intros I. apply in_app_or in I as [I|I]; [auto|]. apply (D x); auto.
  - apply IH; auto.
Qed.
Theorem C40_partition : forall rollout_num w_num, 0 < w_num ->
  concat (map (local_rollouts rollout_num w_num) (seq 0 w_num)) = seq 0 rollout_num /\
  (forall r, r < rollout_num <-> exists w, w < w_num /\ In r (local_rollouts rollout_num w_num w)) /\
  (forall w w' r, In r (local_rollouts rollout_num w_num w) -> In r (local_rollouts rollout_num w_num w') -> w = w').
Proof.
  intros r w Hw. pose proof (split_exact r Hw) as S. split; auto. split.
  - intros i. transitivity (In i (seq 0 r)); [rewrite in_seq; lia|]. rewrite <- S, in_concat. split.
    + intros (l & I & Hi). apply in_map_iff in I as (k & <- & Ik). apply in_seq in Ik. exists k. split; [lia|auto].
    + intros (k & Hk & Hi). eexists. split; [|exact Hi]. apply in_map, in_seq. lia.
  - intros k k' i. rewrite !local_rollouts_seq, !in_seq. set (s := segment_length r w). intros H1 H2.
    destruct (Nat.lt_trichotomy k k') as [L|[E|L]]; auto; exfalso.
    + assert ((k + 1) * s <= k' * s) by (apply Nat.mul_le_mono_r; lia). lia.
    + assert ((k' + 1) * s <= k * s) by (apply Nat.mul_le_mono_r; lia). lia.
Qed.
Print Assumptions C40_partition.
Theorem C40_seeds : forall sample_seed rollout_num w_num param_num, 0 < w_num ->
  let all := flat_map (local_seeds sample_seed rollout_num w_num param_num) (seq 0 w_num) in
  (* one sampler for every (rollout, parameter) pair *)
  (forall r p, (exists s, In (r, p, s) all) <-> r < rollout_num /\ p < param_num) /\
  NoDup (map fst all) /\
  (* with pairwise different seeds *)
  NoDup (map snd all).
Proof.
  intros s0 r w P Hw all.
  assert (E : all = flat_map (fun r_idx => map (fun p_idx => (r_idx, p_idx, s0 + r_idx * P + p_idx)) (seq 0 P)) (seq 0 r)).
  { unfold all, local_seeds. rewrite <- (split_exact r Hw). generalize (seq 0 w). induction l as [|k l IH]; cbn; auto.
    rewrite flat_map_app. f_equal. exact IH. }
  assert (I3 : forall a b c, In (a, b, c) all <-> (a < r /\ b < P /\ c = s0 + a * P + b)).
  { intros a b c. rewrite E, in_flat_map. split.
    - intros (x & Ix & Hx). apply in_map_iff in Hx as (y & Ey & Iy). injection Ey as <- <- <-.
      apply in_seq in Ix. apply in_seq in Iy. lia.
    - intros (Ha & Hb & ->). exists a. split; [apply in_seq; lia|]. apply in_map_iff. exists b. split; auto. apply in_seq. lia. }
  split; [|split].
  - intros a b. split.
    + intros (c & I). apply I3 in I. lia.
    + intros [Ha Hb]. eexists. apply I3. eauto.
  - rewrite E. clear. generalize 0 at 2. induction r as [|r IH]; intros a; cbn; [constructor|].
    rewrite map_app, map_map. cbn. apply NoDup_join.
    + apply FinFun.Injective_map_NoDup; [intros x y [= ->]; auto|apply seq_NoDup].
    + apply IH.
    + intros [x y] I1 I2. apply in_map_iff in I1 as (p & [= <- <-] & _).
      apply in_map_iff in I2 as ([[x' y'] z] & [= -> ->] & I2). apply in_flat_map in I2 as (x & Ix & Hx).
      apply in_map_iff in Hx as (y & [= -> _ _] & _). apply in_seq in Ix. lia.
  - rewrite E. clear. assert (G : forall a n, map snd (flat_map (fun r_idx => map (fun p_idx => (r_idx, p_idx, s0 + r_idx * P + p_idx)) (seq 0 P)) (seq a n)) = seq (s0 + a * P) (n * P)).
    { intros a n. revert a. induction n as [|n IH]; intros a; cbn; auto.
      rewrite map_app, map_map, IH, seq_app. cbn. f_equal.
      - rewrite <- (map_add_seq (s0 + a * P)). apply map_ext. intros; lia.
      - f_equal. lia. }
    rewrite G. apply seq_NoDup.
Qed.
Print Assumptions C40_seeds.
Example C40_nonvacuous : map (local_rollouts 7 5) (seq 0 5) = [[0; 1]; [2; 3]; [4; 5]; [6]; []].
Proof. vm_compute. reflexivity. Qed.

(* C41 *)
Theorem C41_selection : forall rewards used, 0 < used <= length rewards ->
  let sel := selected used (length rewards) rewards in
  used <= length sel /\ NoDup sel /\ (forall i, In i sel -> i < length rewards) /\
  (forall i j, In i sel -> j < length rewards -> ~ In j sel -> (nth j rewards 0 < nth i rewards 0)%Qc) /\
  (* some value separates the best [used] rollouts from the others *)
  (forall v, count (Qcleb v) rewards = used ->
     length sel = used /\ forall i, In i sel <-> i < length rewards /\ (v <= nth i rewards 0)%Qc).
Proof.
  intros l u H sel. pose proof (fun v => @selected_exact u l v H) as Ex. fold sel in Ex.
  split; [apply selected_at_least; auto|]. unfold sel, selected in Ex |- *.
  split; [apply NoDup_filter, seq_NoDup|]. split.
  - intros i I. apply filter_In in I as [I _]. apply in_seq in I. lia.
  - split.
    + intros i j I Hj NI. apply filter_In in I as [I Ei]. rewrite filter_In, in_seq in NI.
      set (th := percentile l (1 - nq u / nq (length l))) in *.
      destruct (Qcleb_spec th (nth i l 0%Qc)); [|discriminate]. destruct (Qcleb_spec th (nth j l 0%Qc)); [exfalso; apply NI; split; [lia|auto]|]. qcl.
    + exact Ex.
Qed.
Print Assumptions C41_selection.
(* in particular, when the rewards are pairwise different the number is exact *)
Theorem C41_distinct : forall rewards used, 0 < used <= length rewards -> NoDup rewards ->
  length (selected used (length rewards) rewards) = used.
Proof.
  intros l u H ND.
  assert (L : length (qsort l) = length l) by (apply Permutation_length, qsort_perm).
  assert (NDs : NoDup (qsort l)) by (eapply Permutation_NoDup; [apply Permutation_sym, qsort_perm|auto]).
  apply (@selected_exact u l (nth (length l - u) (qsort l) 0%Qc)); auto.
  rewrite (@count_perm _ _ l (qsort l)) by (apply Permutation_sym, qsort_perm).
  apply Nat.le_antisymm.
  - destruct (Nat.eq_dec u (length l)) as [->|].
    + rewrite count_filter_len. etransitivity; [apply filter_len_le|]. lia.
    + apply sorted_count_lt; [apply qsort_sorted|lia|]. rewrite L.
      assert (A : (nth (length l - u - 1) (qsort l) 0 <= nth (length l - u) (qsort l) 0)%Qc).
      { apply sorted_nth; [apply qsort_sorted|lia|lia]. }
      assert (B : nth (length l - u - 1) (qsort l) 0%Qc <> nth (length l - u) (qsort l) 0%Qc).
      { intros E. apply (proj1 (NoDup_nth (qsort l) 0%Qc) NDs) in E; lia. }
      destruct (Qcle_lt_or_eq _ _ A); [auto|congruence].
  - apply sorted_count; [apply qsort_sorted|lia|]. intros _. rewrite L. apply Qcle_refl.
Qed.
Print Assumptions C41_distinct.
Example C41_nonvacuous : (selected 2 5 (map q [3; 9; 1; 7; 5]%Z), selected 2 5 (map q [3; 7; 1; 7; 7]%Z)) = ([1; 3], [1; 3; 4]).
Proof. vm_compute. reflexivity. Qed.

(* C57: the gradient averages, over the selected rollouts, the rollout's own noise times its own
   scaled reward difference, however the rollouts are split among workers. *)
Theorem C57_gradient : forall reward delta noise scale used rollout_num w_num size e,
  0 < w_num ->
  (forall r, r < rollout_num -> fst (reward r) <> [] /\ snd (reward r) <> []) ->
  let neg r := mean_of (fst (reward r)) in
  let pos r := mean_of (snd (reward r)) in
  let best r := if Qclt_le_dec (pos r) (neg r) then neg r else pos r in
  let sel := selected used rollout_num (map best (seq 0 rollout_num)) in
  let sc := scale (map pos sel ++ map neg sel) in
  gradient reward delta noise scale used rollout_num w_num size e =
    Ok (qsum (map (fun r => nth e (firstn size (skipn (delta r) noise)) 0 * (neg r / sc - pos r / sc))%Qc sel)
        / nq (length sel))%Qc.
Proof.
  intros reward delta noise scale u r w size e Hw Hr neg pos best sel sc.
  unfold gradient. rewrite gather_ok; auto.
  2:{ intros k i Ik Ii. apply in_seq in Ik. apply (C40_partition r w Hw). exists k. split; [lia|auto]. }
  rewrite split_exact by auto. cbn [bind].
  assert (Emx : map2 Qcmax (map (fun i => qmean (snd (reward i))) (seq 0 r)) (map (fun i => qmean (fst (reward i))) (seq 0 r)) = map best (seq 0 r)).
  { generalize (seq 0 r). induction l as [|i l IH]; cbn; auto. rewrite IH. f_equal.
    unfold best, pos, neg, Qcmax, Qcltb. unfold qmean, mean_of. destruct (Qclt_le_dec _ _); reflexivity. }
  rewrite Emx. fold sel.
  assert (Hsel : forall i, In i sel -> i < r).
  { intros i I. unfold sel, selected in I. apply filter_In in I as [I _]. apply in_seq in I. rewrite map_length, seq_length in I. lia. }
  assert (Mp : forall (f : nat -> Qc), map (fun i => nth i (map f (seq 0 r)) 0%Qc) sel = map f sel).
  { intros f. apply map_ext_in. intros i I. rewrite (@nth_map_len _ _ f (seq 0 r) 0 0%Qc i) by (rewrite seq_length; auto). now rewrite nth_seq0 by auto. }
  assert (Md : map (fun i => nth i (map delta (seq 0 r)) 0) sel = map delta sel).
  { apply map_ext_in. intros i I. rewrite (@nth_map_len _ _ delta (seq 0 r) 0 0 i) by (rewrite seq_length; auto). now rewrite nth_seq0 by auto. }
  rewrite !Mp, Md.
  change (map (fun i => qmean (snd (reward i))) sel) with (map pos sel).
  change (map (fun i => qmean (fst (reward i))) sel) with (map neg sel). fold sc.
  f_equal. unfold qmean. clearbody sc. clear -neg pos.
  assert (E : forall l, map2 (fun rd k => nth e (noise_get noise k size) 0 * rd)%Qc (map2 (fun n p => n / sc - p / sc)%Qc (map neg l) (map pos l)) (map delta l)
    = map (fun r0 => nth e (firstn size (skipn (delta r0) noise)) 0 * (neg r0 / sc - pos r0 / sc))%Qc l).
  { induction l as [|i l IH]; cbn; auto. now rewrite IH. }
  rewrite E, map_length. reflexivity.
Qed.
Print Assumptions C57_gradient.
(* a rollout with a missing reward makes update fail *)
Theorem C57_missing_reward : forall reward delta noise scale used rollout_num w_num size e r,
  0 < w_num -> r < rollout_num -> fst (reward r) = [] \/ snd (reward r) = [] ->
  gradient reward delta noise scale used rollout_num w_num size e = Err EAssert.
Proof.
  intros reward delta noise scale u rn w size e r Hw Hr H.
  destruct (proj1 (proj1 (proj2 (C40_partition rn w Hw)) r) Hr) as (k & Hk & I).
  unfold gradient. rewrite (@gather_err reward delta rn w (seq 0 w) k r); auto. apply in_seq. lia.
Qed.
Print Assumptions C57_missing_reward.
Example C57_nonvacuous :
  match gradient (fun r => ([q (Z.of_nat r)], [q 4; q 6])) (fun r => r) (map q [1; 2; 3; 4; 5]%Z) (fun _ => q 2) 3 3 2 2 1 with
  | Ok g => this g | Err _ => 0%Q end = (-17 # 3)%Q.
Proof. vm_compute. reflexivity. Qed.

(* C58: a noise array smaller than the largest parameter is documented to raise ValueError at
   construction; the check never fires for a model with parameters, because the warning branch comes first. *)
Theorem C58_refuted : forall param_max noise_size,
  (0 < param_max -> noise_size <= param_max -> noise_check param_max noise_size = CkWarn) /\
  (noise_check param_max noise_size = CkRaise <-> param_max = 0 /\ noise_size = 0) /\
  (noise_check param_max noise_size = CkWarn <-> noise_size < param_max * 10).
Proof.
  intros p n. unfold noise_check. destruct (Nat.ltb_spec n (p * 10)), (Nat.leb_spec n p);
    intuition (try discriminate; try lia; auto).
Qed.
Print Assumptions C58_refuted.
(* Sampled slices always have the requested size; too large a request raises. *)
Theorem C58_partial : forall A (noise : list A) size idx,
  (size <= length noise -> idx <= length noise - size ->
     exists sl, noise_sample noise size idx = Ok (idx, sl) /\ length sl = size /\
       (forall k d, k < size -> nth k sl d = nth (idx + k) noise d) /\
       noise_get noise idx size = sl) /\
  (length noise < size -> noise_sample noise size idx = Err EValue).
Proof.
  intros A noise size idx. unfold noise_sample. split.
  - intros H1 H2. destruct (Nat.leb_spec (length noise + 1) size); [lia|]. eexists. split; [reflexivity|].
    unfold noise_get. split; [rewrite firstn_length, skipn_length; lia|]. split; auto.
    intros k d Hk. rewrite nth_firstn_lt by auto. apply nth_skipn_add.
  - intros H. destruct (Nat.leb_spec (length noise + 1) size); [auto|lia].
Qed.
Print Assumptions C58_partial.
Example C58_nonvacuous : (noise_check 100 50, noise_sample [1; 2; 3; 4] 2 1) = (CkWarn, Ok (1, [2; 3])).
Proof. reflexivity. Qed.
