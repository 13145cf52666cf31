(* Work split, percentile selection and gradient of ARS. *)
From Coq Require Import QArith Permutation Sorting.Sorted.
From Verif Require Import Lib.Rat Model.Losses Model.Ars Spec.ArsSpec Proofs.ProjectProofs.
Close Scope Q_scope.
Open Scope nat_scope.
Set Implicit Arguments.

(* ---- split ---- *)
Lemma map_add_seq c n : map (fun k => k + c) (seq 0 n) = seq c n.
Proof.
  assert (G : forall a, map (fun k => k + c) (seq a n) = seq (a + c) n).
  { induction n; intros a; cbn; auto. rewrite IHn. reflexivity. }
  apply G.
Qed.
Lemma local_rollouts_seq r w i :
  local_rollouts r w i = seq (i * segment_length r w) (Nat.min (segment_length r w) (r - i * segment_length r w)).
Proof.
  unfold local_rollouts, local_rollout_num, local_rollout_min. rewrite map_add_seq. f_equal. lia.
Qed.
Lemma segment_cover r w : 0 < w -> r <= w * segment_length r w.
Proof.
  intros H. unfold segment_length.
  pose proof (Nat.div_mod_eq (r + w - 1) w). pose proof (Nat.mod_upper_bound (r + w - 1) w). lia.
Qed.
Lemma local_rollouts_prefix r w k :
  concat (map (local_rollouts r w) (seq 0 k)) = seq 0 (Nat.min r (k * segment_length r w)).
Proof.
  induction k.
  - cbn. now rewrite Nat.min_0_r.
  - rewrite seq_S, map_app, concat_app, IHk. cbn [Nat.add map concat]. rewrite app_nil_r, local_rollouts_seq.
    set (s := segment_length r w).
    destruct (Nat.le_gt_cases r (k * s)).
    + rewrite Nat.min_l by lia. replace (r - k * s) with 0 by lia. rewrite Nat.min_0_r. cbn [seq].
      rewrite app_nil_r. f_equal. lia.
    + rewrite Nat.min_r by lia. rewrite <- seq_app. f_equal. lia.
Qed.
Lemma split_exact r w : 0 < w -> concat (map (local_rollouts r w) (seq 0 w)) = seq 0 r.
Proof. intros H. rewrite local_rollouts_prefix. f_equal. pose proof (segment_cover r H). lia. Qed.

(* ---- sorting ---- *)
Lemma qinsert_perm x l : Permutation (qinsert x l) (x :: l).
Proof.
  induction l as [|y l IH]; cbn; auto. destruct (Qcleb x y); auto.
  rewrite IH. apply perm_swap.
Qed.
Lemma qsort_perm l : Permutation (qsort l) l.
Proof. induction l as [|x l IH]; cbn; auto. rewrite qinsert_perm. auto. Qed.
Lemma qinsert_sorted x l : StronglySorted Qcle l -> StronglySorted Qcle (qinsert x l).
Proof.
  induction 1 as [|y l S IH F]; cbn; [repeat constructor|].
  destruct (Qcleb_spec x y).
  - constructor; [constructor; auto|]. constructor; auto.
    eapply Forall_impl; [|exact F]. cbn. intros z Hz. qcl.
  - constructor; auto. eapply Permutation_Forall; [apply Permutation_sym, qinsert_perm|].
    constructor; auto. qcl.
Qed.
Lemma qsort_sorted l : StronglySorted Qcle (qsort l).
Proof. induction l; cbn; [constructor|apply qinsert_sorted; auto]. Qed.
Lemma sorted_nth l : StronglySorted Qcle l -> forall i j, i <= j -> j < length l -> (nth i l 0 <= nth j l 0)%Qc.
Proof.
  induction 1 as [|y l S IH F]; intros i j Hij Hj; cbn in Hj; [lia|].
  destruct j; destruct i; cbn; try lia; try apply Qcle_refl.
  - rewrite Forall_forall in F. apply F, nth_In. lia.
  - apply IH; lia.
Qed.

(* ---- counting ---- *)
Lemma count_perm {A} (p : A -> bool) a b : Permutation a b -> count p a = count p b.
Proof. induction 1; cbn; lia. Qed.
Lemma count_filter_len {A} (p : A -> bool) l : count p l = length (filter p l).
Proof. induction l as [|x l IH]; cbn; auto. destruct (p x); cbn; lia. Qed.
Lemma filter_len_le {A} (p : A -> bool) l : length (filter p l) <= length l.
Proof. induction l as [|x l IH]; cbn; auto. destruct (p x); cbn; lia. Qed.
Lemma count_app {A} (p : A -> bool) a b : count p (a ++ b) = count p a + count p b.
Proof. induction a; cbn; lia. Qed.
Lemma count_all {A} (p : A -> bool) l : (forall x, In x l -> p x = true) -> count p l = length l.
Proof. induction l as [|x l IH]; cbn; intros H; auto. rewrite (H x), IH; auto. Qed.
Lemma count_none {A} (p : A -> bool) l : (forall x, In x l -> p x = false) -> count p l = 0.
Proof. induction l as [|x l IH]; cbn; intros H; auto. rewrite (H x), IH; auto. Qed.
Lemma count_nth {A} (p : A -> bool) d l : length (filter (fun i => p (nth i l d)) (seq 0 (length l))) = count p l.
Proof.
  rewrite <- count_filter_len.
  assert (G : forall pre, count (fun i => p (nth i (pre ++ l) d)) (seq (length pre) (length l)) = count p l).
  { induction l as [|x l IH]; intros pre; cbn; auto.
    rewrite app_nth2, Nat.sub_diag by lia. cbn. f_equal.
    specialize (IH (pre ++ [x])). rewrite app_length, Nat.add_1_r, <- app_assoc in IH. exact IH. }
  apply (G []).
Qed.
Lemma nth_skipn_add {A} (d : A) k : forall l i, nth i (skipn k l) d = nth (k + i) l d.
Proof. induction k; intros [|x l] i; cbn; auto. destruct i; auto. Qed.
Lemma nth_firstn_lt {A} (d : A) k : forall l i, i < k -> nth i (firstn k l) d = nth i l d.
Proof. induction k; intros [|x l] [|i] H; cbn; auto; try lia. apply IHk. lia. Qed.
(* in a sorted list, the last k elements all reach v iff at least k do *)
Lemma sorted_count l v k : StronglySorted Qcle l -> k <= length l ->
  (0 < k -> (v <= nth (length l - k) l 0)%Qc) -> k <= count (Qcleb v) l.
Proof.
  intros S Hk H. rewrite <- (firstn_skipn (length l - k) l), count_app.
  rewrite (@count_all _ _ (skipn (length l - k) l)); [rewrite skipn_length; lia|].
  intros x I. apply In_nth with (d := 0%Qc) in I as (i & Hi & <-). rewrite skipn_length in Hi.
  assert (E : nth i (skipn (length l - k) l) 0%Qc = nth (length l - k + i) l 0%Qc).
  { apply nth_skipn_add. }
  rewrite E. destruct (Qcleb_spec v (nth (length l - k + i) l 0%Qc)); auto. exfalso.
  assert (nth (length l - k) l 0 <= nth (length l - k + i) l 0)%Qc by (apply sorted_nth; auto; lia).
  specialize (H ltac:(lia)). qcl.
Qed.
Lemma sorted_count_lt l v k : StronglySorted Qcle l -> k < length l ->
  (nth (length l - k - 1) l 0 < v)%Qc -> count (Qcleb v) l <= k.
Proof.
  intros S Hk H. rewrite <- (firstn_skipn (length l - k) l), count_app.
  rewrite (@count_none _ _ (firstn (length l - k) l)).
  - rewrite count_filter_len. etransitivity; [apply filter_len_le|]. rewrite skipn_length. lia.
  - intros x I. apply In_nth with (d := 0%Qc) in I as (i & Hi & <-). rewrite firstn_length in Hi.
    assert (E : nth i (firstn (length l - k) l) 0%Qc = nth i l 0%Qc).
    { apply nth_firstn_lt. lia. }
    rewrite E. destruct (Qcleb_spec v (nth i l 0%Qc)); auto. exfalso.
    assert (nth i l 0 <= nth (length l - k - 1) l 0)%Qc by (apply sorted_nth; auto; lia). qcl.
Qed.

(* ---- percentile ---- *)
Lemma qfloor_unique x (z : Z) : (zq z <= x)%Qc -> (x < zq z + 1)%Qc -> qfloor x = z.
Proof.
  intros H1 H2. pose proof (floor_le x). pose proof (floor_gt x).
  assert (zq z < zq (qfloor x + 1))%Qc by (rewrite zq_plus, zq_1; qcl).
  assert (zq (qfloor x) < zq (z + 1))%Qc by (rewrite zq_plus, zq_1; qcl).
  apply zq_lt in H3. apply zq_lt in H4. lia.
Qed.
Lemma nq_sub a b : b <= a -> nq (a - b) = (nq a - nq b)%Qc.
Proof. intros. replace (nq a) with (nq (a - b + b)) by (f_equal; lia). rewrite nq_add. ring. Qed.

(* the threshold lies above the (used + 1)-th largest and not above the used-th largest *)
Lemma percentile_bounds l u : 0 < u <= length l ->
  let s := qsort l in let n := length l in
  let th := percentile l (1 - nq u / nq n)%Qc in
  (th <= nth (n - u) s 0)%Qc /\
  (u < n -> (nth (n - u - 1) s 0 < nth (n - u) s 0)%Qc -> (nth (n - u - 1) s 0 < th)%Qc) /\
  (u < n -> (nth (n - u - 1) s 0 <= th)%Qc).
Proof.
  intros Hu s n th.
  assert (Hn : (0 < nq n)%Qc) by (apply nq_pos; subst n; lia).
  assert (Hn0 : nq n <> 0%Qc) by (apply Qcpos_neq; auto).
  assert (Hup : (0 < nq u / nq n)%Qc) by (apply Qcmul_pos; [apply nq_pos; lia|apply Qcinv_pos; auto]).
  assert (Sl : length s = n) by (apply Permutation_length, qsort_perm).
  assert (So : StronglySorted Qcle s) by apply qsort_sorted.
  destruct (Nat.eq_dec u n) as [->|Hne].
  - subst th. unfold percentile. fold n. fold s.
    replace ((nq n - 1) * (1 - nq n / nq n))%Qc with 0%Qc by (field; auto).
    change (qfloor 0) with 0%Z. change (zq 0) with 0%Qc. change (Z.to_nat 0) with 0. rewrite Nat.sub_diag.
    split; [|split; intros; lia]. qcl.
  - assert (Hun : u < n) by (subst n; lia).
    assert (Hul : (nq u / nq n < 1)%Qc).
    { replace 1%Qc with (nq n / nq n)%Qc by (field; auto). unfold Qcdiv. apply Qcmult_lt_compat_r; [apply Qcinv_pos; auto|].
      apply nq_lt; auto. }
    assert (Eh : ((nq n - 1) * (1 - nq u / nq n) = zq (Z.of_nat (n - u - 1)) + nq u / nq n)%Qc).
    { rewrite zq_nat, !nq_sub by lia. change (nq 1) with 1%Qc. field. auto. }
    assert (Eth : th = (nth (n - u - 1) s 0 + (nth (n - u) s 0 - nth (n - u - 1) s 0) * (nq u / nq n))%Qc).
    { subst th. unfold percentile. fold n. fold s. rewrite Eh.
      rewrite (@qfloor_unique _ (Z.of_nat (n - u - 1))); [|qcl|qcl].
      rewrite Nat2Z.id. rewrite Nat.min_l by lia. replace (n - u - 1 + 1) with (n - u) by lia. ring. }
    assert (Hs : (nth (n - u - 1) s 0 <= nth (n - u) s 0)%Qc) by (apply sorted_nth; auto; lia).
    rewrite Eth. clearbody s n. clear Eth th Eh Sl So.
    set (a := nth (n - u - 1) s 0%Qc) in *. set (b := nth (n - u) s 0%Qc) in *. set (f := (nq u / nq n)%Qc) in *.
    assert (P1 : (0 <= (b - a) * f)%Qc) by (apply Qcmul_nonneg; qcl).
    assert (P2 : (0 <= (b - a) * (1 - f))%Qc) by (apply Qcmul_nonneg; qcl).
    assert (E2 : ((b - a) * (1 - f) = b - a - (b - a) * f)%Qc) by ring. rewrite E2 in P2.
    generalize dependent ((b - a) * f)%Qc. intros m P1 E2 P2.
    split; [qcl|]. split.
    + intros _ Hlt. assert (P3 : (0 < (b - a) * f)%Qc) by (apply Qcmul_pos; qcl).
      assert (E3 : ((b - a) * (1 - f) = b - a - (b - a) * f)%Qc) by ring.
      assert ((b - a) * f = m)%Qc by qcl. qcl.
    + intros _. qcl.
Qed.

Lemma selected_length u l : length (selected u (length l) l) = count (Qcleb (percentile l (1 - nq u / nq (length l))%Qc)) l.
Proof. unfold selected. apply count_nth with (p := Qcleb _). Qed.

Lemma selected_at_least u l : 0 < u <= length l -> u <= length (selected u (length l) l).
Proof.
  intros H. rewrite selected_length.
  destruct (percentile_bounds _ H) as (B1 & _ & _).
  rewrite (@count_perm _ _ l (qsort l)) by (apply Permutation_sym, qsort_perm).
  assert (L : length (qsort l) = length l) by (apply Permutation_length, qsort_perm).
  apply sorted_count; [apply qsort_sorted|lia|]. intros _. rewrite L. exact B1.
Qed.
Lemma selected_exact u l v : 0 < u <= length l -> count (Qcleb v) l = u ->
  length (selected u (length l) l) = u /\
  (forall i, In i (selected u (length l) l) <-> i < length l /\ (v <= nth i l 0)%Qc).
Proof.
  intros H C.
  assert (L : length (qsort l) = length l) by (apply Permutation_length, qsort_perm).
  pose proof (selected_at_least _ H) as G.
  destruct (percentile_bounds _ H) as (B1 & B2 & _).
  set (th := percentile l (1 - nq u / nq (length l))%Qc) in *.
  assert (Cs : count (Qcleb v) (qsort l) = u) by (rewrite <- C; apply count_perm, qsort_perm).
  assert (Hv : (v <= nth (length l - u) (qsort l) 0)%Qc).
  { destruct (Qclt_le_dec (nth (length l - u) (qsort l) 0%Qc) v) as [Hlt|]; auto. exfalso.
    pose proof (@sorted_count_lt (qsort l) v (u - 1) (qsort_sorted l)) as K. rewrite L in K.
    replace (length l - (u - 1) - 1) with (length l - u) in K by lia. specialize (K ltac:(lia) Hlt). lia. }
  assert (Hv' : u < length l -> (nth (length l - u - 1) (qsort l) 0 < v)%Qc).
  { intros Hu. destruct (Qclt_le_dec (nth (length l - u - 1) (qsort l) 0%Qc) v) as [|Hle]; auto. exfalso.
    pose proof (@sorted_count (qsort l) v (u + 1) (qsort_sorted l)) as K. rewrite L in K.
    replace (length l - (u + 1)) with (length l - u - 1) in K by lia. specialize (K ltac:(lia) ltac:(auto)). lia. }
  assert (Hle : length (selected u (length l) l) <= u).
  { rewrite selected_length. fold th. rewrite (@count_perm _ _ l (qsort l)) by (apply Permutation_sym, qsort_perm).
    destruct (Nat.eq_dec u (length l)) as [->|].
    - rewrite count_filter_len. etransitivity; [apply filter_len_le|]. lia.
    - apply sorted_count_lt; [apply qsort_sorted|lia|]. rewrite L. apply B2; [lia|].
      assert (Hu : u < length l) by lia. specialize (Hv' Hu). qcl. }
  split; [lia|].
  (* same threshold behaviour: both predicates hold on exactly u elements of l *)
  assert (Hth : forall x, In x l -> ((th <= x)%Qc <-> (v <= x)%Qc)).
  { assert (Sx : forall x, In x (qsort l) -> ((th <= x)%Qc <-> (v <= x)%Qc)).
    { intros x I. apply In_nth with (d := 0%Qc) in I as (i & Hi & <-). rewrite L in Hi.
      destruct (Nat.lt_ge_cases i (length l - u)).
      - assert (Hu : u < length l) by lia. specialize (Hv' Hu).
        assert (A : (nth i (qsort l) 0 <= nth (length l - u - 1) (qsort l) 0)%Qc).
        { apply sorted_nth; [apply qsort_sorted|lia|lia]. }
        assert (T : (nth (length l - u - 1) (qsort l) 0 < th)%Qc).
        { apply B2; auto. qcl. }
        split; intros; exfalso; qcl.
      - assert (A : (nth (length l - u) (qsort l) 0 <= nth i (qsort l) 0)%Qc).
        { apply sorted_nth; [apply qsort_sorted|lia|lia]. }
        split; intros; qcl. }
    intros x I. apply Sx. eapply Permutation_in; [apply Permutation_sym, qsort_perm|auto]. }
  intros i. unfold selected. fold th. rewrite filter_In, in_seq. split.
  - intros [Hi E]. split; [lia|]. apply Hth; [apply nth_In; lia|]. destruct (Qcleb_spec th (nth i l 0%Qc)); [auto|discriminate].
  - intros [Hi E]. split; [lia|]. destruct (Qcleb_spec th (nth i l 0%Qc)); auto. exfalso. apply n. apply Hth; auto. apply nth_In; auto.
Qed.

(* ---- gradient ---- *)
Section Gradient.
  Variables (reward : nat -> list Qc * list Qc) (delta : nat -> nat).
  Lemma grd_ok rs : (forall r, In r rs -> fst (reward r) <> [] /\ snd (reward r) <> []) ->
    get_reward_and_delta reward delta rs =
      Ok (map (fun r => qmean (snd (reward r))) rs, map (fun r => qmean (fst (reward r))) rs, map delta rs).
  Proof.
    induction rs as [|i rs IH]; intros H; cbn; auto.
    destruct (H i (or_introl eq_refl)) as [H1 H2]. rewrite IH by (intros; apply H; right; auto).
    destruct (reward i) as [neg pos]; cbn in *. destruct neg; [congruence|]. destruct pos; [congruence|]. reflexivity.
  Qed.
  Lemma grd_err rs r : In r rs -> fst (reward r) = [] \/ snd (reward r) = [] ->
    get_reward_and_delta reward delta rs = Err EAssert.
  Proof.
    induction rs as [|i rs IH]; intros I H; cbn; [destruct I|].
    destruct I as [->|I].
    - destruct (reward r) as [[|] [|]]; cbn in *; auto. destruct H; discriminate.
    - specialize (IH I H). destruct (reward i) as [[|] [|]]; auto. rewrite IH. reflexivity.
  Qed.
  Lemma gather_ok r w ws : (forall i, i < r -> fst (reward i) <> [] /\ snd (reward i) <> []) ->
    (forall k i, In k ws -> In i (local_rollouts r w k) -> i < r) ->
    let all := concat (map (local_rollouts r w) ws) in
    gather reward delta r w ws =
      Ok (map (fun i => qmean (snd (reward i))) all, map (fun i => qmean (fst (reward i))) all, map delta all).
  Proof.
    intros H. induction ws as [|k ws IH]; intros B; cbn [gather map concat].
    - reflexivity.
    - rewrite grd_ok by (intros i I; apply H, (B k); [left; auto|auto]). cbn [bind].
      rewrite IH by (intros k' i I1 I2; apply (B k'); [right|]; auto). cbn [bind].
      cbv zeta. now rewrite !map_app.
  Qed.
  Lemma gather_err r w ws k i : In k ws -> In i (local_rollouts r w k) -> fst (reward i) = [] \/ snd (reward i) = [] ->
    gather reward delta r w ws = Err EAssert.
  Proof.
    induction ws as [|k' ws IH]; intros I1 I2 H; [destruct I1|]. cbn [gather].
    destruct I1 as [->|I1].
    - rewrite (grd_err _ _ I2 H). reflexivity.
    - specialize (IH I1 I2 H).
      assert (G : (exists x, get_reward_and_delta reward delta (local_rollouts r w k') = Ok x) \/
                  get_reward_and_delta reward delta (local_rollouts r w k') = Err EAssert).
      { generalize (local_rollouts r w k'). induction l as [|j l IHl]; cbn; eauto.
        destruct (reward j) as [[|] [|]]; auto. destruct IHl as [(x & ->)| ->]; cbn; auto.
        destruct x as [[? ?] ?]. eauto. }
      destruct G as [([[? ?] ?] & ->)| ->]; cbn [bind]; auto. rewrite IH. reflexivity.
  Qed.
End Gradient.
