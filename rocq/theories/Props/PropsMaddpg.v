(* C42 alignment of the MADDPG replay buffers. *)
From Verif Require Import Lib.Base Model.Buffer Model.Maddpg Spec.MaddpgSpec Proofs.MaddpgProofs.

(* Joint episodes are either refused before any buffer is touched (wrong number of agents, unequal
   lengths, empty episodes) or complete (every agent's episode fits and has all attributes).
   Missing: joint episodes that only some agents' buffers refuse, see C42_refuted. *)
Theorem C42_aligned_partial : forall T (ok : T -> bool) agents cap (H : list (list (list T))),
  0 < cap -> 0 < agents ->
  (forall je, In je H ->
     (length je <> agents \/ (exists e e', In e je /\ In e' je /\ length e <> length e') \/ (forall e, In e je -> e = [])) \/
     (length je = agents /\ exists n, 0 < n <= cap /\ forall e, In e je -> length e = n /\ forallb ok e = true)) ->
  let bs := mb_run ok (mb_new agents cap) H in
  exists n, length bs = agents /\ (forall b, In b bs -> b_size b = n) /\
    (* position i holds one time step of one joint episode, for all agents *)
    (forall i, i < n -> exists k t, forall a b, nth_error bs a = Some b ->
       exists x, nth_error (st_data (b_st b)) i = Some x /\ step_of H k t a = Some x) /\
    (* so does every sampled row *)
    (forall batch_size indexes, length indexes = Nat.min n batch_size -> (forall i, In i indexes -> i < n) ->
       exists batches, sample_joint batch_size indexes bs = Ok batches /\ length batches = agents /\
         forall j, j < length indexes -> exists k t, forall a xs, nth_error batches a = Some xs ->
           exists x, nth_error xs j = Some x /\ step_of H k t a = Some x).
Proof.
  intros T ok agents cap H Hc Ha HH bs.
  destruct (@run_aligned T ok agents cap Hc Ha H H [] eq_refl HH (st_new cap) (mb_new agents cap) (inv_new ok agents cap H)) as (g & I).
  fold bs in I. exists (length (st_data g)). split; [apply I|].
  pose proof (inv_sizes I) as Sz. split; [exact Sz|].
  assert (Pos : forall i, i < length (st_data g) -> exists k t, forall a b, nth_error bs a = Some b ->
       exists x, nth_error (st_data (b_st b)) i = Some x /\ step_of H k t a = Some x).
  { intros i Hi. exact (inv_position Hc Ha I Hi). }
  split; [exact Pos|].
  intros bsz idx Lx Hx. unfold sample_joint.
  destruct bs as [|b0 bs'] eqn:Eb; [destruct I as [L _]; cbn in L; lia|]. rewrite <- Eb in *.
  rewrite (Sz b0) by (rewrite Eb; left; auto). rewrite <- Lx.
  destruct (@sample_each_spec T agents cap Hc Ha idx bs) as (bt & E & L & G).
  { intros b i Ib Ii. rewrite (Sz b Ib). auto. }
  exists bt. split; auto. split; [rewrite L; apply I|].
  intros j Hj. destruct (nth_error idx j) as [i|] eqn:Ej; [|apply nth_error_None in Ej; lia].
  destruct (Pos i) as (k & t & P). { apply Hx. eapply nth_error_In; eauto. }
  exists k, t. intros a xs Ea.
  assert (La : a < length bs) by (rewrite <- L; apply nth_error_Some; congruence).
  destruct (nth_error bs a) as [b|] eqn:Eba; [|apply nth_error_None in Eba; lia].
  destruct (G a b xs Eba Ea) as [_ Gj]. destruct (P a b Eba) as (x & Ex & Sx).
  exists x. rewrite (Gj j i Ej). auto.
Qed.
Print Assumptions C42_aligned_partial.

(* the refusals: AssertionError, and no buffer is touched *)
Theorem C42_refused : forall T (ok : T -> bool) bs (je : list (list T)),
  length je <> length bs \/ je = [] \/ (exists e e', In e je /\ In e' je /\ length e <> length e') -> store_episodes ok bs je = (bs, Err EAssert).
Proof.
  intros T ok bs je H. unfold store_episodes. destruct (Nat.eqb_spec (length je) (length bs)) as [L|L]; cbn [negb]; [|reflexivity].
  replace (all_same_length je) with false; [reflexivity|]. symmetry. destruct H as [H|[->|(e & e' & I & I' & D)]]; [congruence|reflexivity|].
  apply not_true_is_false. intros A. destruct je as [|x r]; [destruct I|]. cbn in A. rewrite forallb_forall in A.
  assert (Q : forall y, In y (x :: r) -> length y = length x) by (intros y [->|Y]; [auto|apply Nat.eqb_eq, A, Y]).
  apply D. now rewrite (Q e I), (Q e' I').
Qed.
Print Assumptions C42_refused.

(* buffers that have run apart are noticed when a drawn position exists in the first buffer only *)
Lemma index_all_in {T} (l : list T) : forall is, (forall i, In i is -> i < length l) -> exists xs, index_all l is = Ok xs /\ length xs = length is.
Proof.
  induction is as [|i is IH]; intros H; [exists []; auto|]. cbn. destruct (nth_error l i) eqn:E.
  - destruct IH as (xs & -> & L); [intros; apply H; cbn; auto|]. cbn. eexists. split; [reflexivity|]. cbn. lia.
  - apply nth_error_None in E. specialize (H i (or_introl eq_refl)). lia.
Qed.
Theorem C42_shorter : forall T (b0 : buffer T) r b batch_size indexes i,
  length indexes = Nat.min (b_size b0) batch_size -> In b r -> In i indexes -> b_size b <= i ->
  sample_joint batch_size indexes (b0 :: r) = Err EAssert.
Proof.
  intros T b0 r b n is i L B I S. unfold sample_joint. rewrite <- L.
  assert (Q : forall bs, In b bs -> sample_each (length is) is bs = Err EAssert).
  { induction bs as [|x bs IH]; intros H; [destruct H|]. cbn [sample_each]. unfold sample_method.
    destruct (@index_all_in T (st_data (b_st x)) (filter (fun j => j <? b_size x) is)) as (xs & -> & Lx).
    { intros j J. apply filter_In in J as [_ J]. now apply Nat.ltb_lt in J. }
    cbn [bind]. rewrite Lx. destruct H as [->|H].
    - replace (length _ =? length is) with false; auto. symmetry. apply Nat.eqb_neq. clear - I S. intros E.
      assert (A : forall (f : nat -> bool) l, length (filter f l) <= length l) by (intros f l; induction l; cbn; [lia|destruct (f a); cbn; lia]).
      revert E. induction is as [|j is IH]; [destruct I|]. cbn [filter length]. destruct I as [->|I].
      + replace (i <? b_size b) with false by (symmetry; apply Nat.ltb_ge; lia). pose proof (A (fun j => j <? b_size b) is). intros E. lia.
      + destruct (j <? b_size b); cbn [length]; [intros E; apply IH; auto; lia|]. pose proof (A (fun j => j <? b_size b) is). intros E. lia.
    - rewrite (IH H). cbn. destruct (_ =? _); auto. }
  apply Q. right. exact B.
Qed.
Print Assumptions C42_shorter.

(* If a later agent's episode lacks an attribute, the earlier agents' buffers keep theirs: after
   wrap-around all sizes agree again and sampling silently combines different time steps. *)
Theorem C42_refuted : exists (ok : nat -> bool) (H : list (list (list nat))),
  let bs := mb_run ok (mb_new 2 2) H in
  exists batches, sample_joint 1 [0] bs = Ok batches /\
    ~ exists k t, forall a xs, nth_error batches a = Some xs ->
        exists x, nth_error xs 0 = Some x /\ step_of H k t a = Some x.
Proof.
  exists (fun x => x <? 100), [[[1; 2]; [11; 12]]; [[3]; [100]]; [[4]; [14]]].
  eexists. split; [vm_compute; reflexivity|].
  intros (k & t & P). destruct (P 0 [3] eq_refl) as (x & Ex & Sx). destruct (P 1 [14] eq_refl) as (y & Ey & Sy).
  cbn in Ex, Ey. injection Ex as <-. injection Ey as <-.
  destruct k as [|[|[|[|k]]]], t as [|[|[|t]]]; cbn in Sx, Sy; try discriminate.
Qed.
Print Assumptions C42_refuted.
(* the same happens with an episode longer than the buffer: the first buffer is overwritten
   before it raises, the others are untouched *)
Theorem C42_oversized_refuted : exists (H : list (list (list nat))),
  let bs := mb_run (fun _ => true) (mb_new 2 2) H in
  map (fun b => st_data (b_st b)) bs = [[5; 4]; [11; 12]].
Proof. exists [[[1; 2]; [11; 12]]; [[3; 4; 5]; [13; 14; 15]]]. vm_compute. reflexivity. Qed.
Print Assumptions C42_oversized_refuted.
Example C42_nonvacuous :
  let bs := mb_run (fun _ => true) (mb_new 2 3) [[[1; 2]; [11; 12]]; [[3]]; [[]; []]; [[4; 5]; [14; 15]]] in
  map (fun b => st_data (b_st b)) bs = [[5; 2; 4]; [15; 12; 14]] /\ sample_joint 2 [2; 0] bs = Ok [[4; 5]; [14; 15]].
Proof. vm_compute. split; reflexivity. Qed.
