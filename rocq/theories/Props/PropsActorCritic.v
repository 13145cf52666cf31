(* C94-C101: actor-critic frameworks (ddpg.py, hddpg.py, ddpg_per.py, dqn_per.py, td3.py, sac.py). *)
From Coq Require Import QArith Field.
From Verif Require Import Lib.Base Lib.Rat Model.Losses Model.Target Model.Dqn Model.ActorCritic Spec.TargetSpec
  Proofs.LossTargetProofs Props.PropsDqn.
Close Scope Q_scope.
Open Scope nat_scope.

Lemma mean_total l : l <> [] -> (nq (length l) * mean_of l = qsum l)%Qc.
Proof.
  intros N. unfold mean_of. field. apply Qcpos_neq, nq_pos. destruct l; [congruence|cbn; lia].
Qed.
Lemma map2_len {A B C} (f : A -> B -> C) l m : length l = length m -> length (map2 f l m) = length l.
Proof. revert m. induction l; destruct m; cbn; intros; auto; lia. Qed.

(* C94: the actor is trained on the mean over the sampled batch of its actions' values.
   Full claim: also in ddpg.py. *)
Theorem C94_means_partial : forall alpha values values2 log_probs n,
  0 < n -> length values = n -> length values2 = n -> length log_probs = n ->
  (nq n * mean_policy_loss values = - sumn (fun i => nth i values 0) 0 n)%Qc /\
  (nq n * sac_policy_loss alpha values values2 log_probs =
   sumn (fun i => alpha * nth i log_probs 0 - Qcmin (nth i values 0) (nth i values2 0)) 0 n)%Qc.
Proof.
  intros alpha v v2 l n N L1 L2 L3. split.
  - unfold mean_policy_loss. rewrite <- L1, sumn_qsum, <- mean_total by (destruct v; cbn in *; [lia|congruence]). ring.
  - unfold sac_policy_loss. set (w := map2 _ _ _).
    assert (length w = n) as LW by (unfold w; rewrite !map2_len; rewrite ?map2_len; lia).
    rewrite <- LW at 1. rewrite mean_total by (destruct w; cbn in *; [lia|congruence]).
    rewrite <- sumn_qsum, LW. apply sumn_ext. intros k K. unfold w. clear -K L1 L2 L3.
    revert v2 l n k L1 L2 L3 K. induction v as [|x v IH]; intros v2 l n k L1 L2 L3 K; [cbn in *; lia|].
    destruct v2, l, n; cbn in L1, L2, L3; try lia. cbn [map2]. destruct k; [reflexivity|]. cbn [nth]. apply (IH v2 l n); lia.
Qed.
Print Assumptions C94_means_partial.
(* ddpg.py: only the first sample of the batch counts *)
Theorem C94_refuted : forall v rest,
  ddpg_policy_loss (v :: rest) = Ok (- v)%Qc /\
  (ddpg_policy_loss (v :: rest) = Ok (mean_policy_loss (v :: rest)) <-> (nq (length rest) * v = qsum rest)%Qc).
Proof.
  intros v rest. assert (E : ddpg_policy_loss (v :: rest) = Ok (- v)%Qc).
  { cbn [ddpg_policy_loss]. f_equal. unfold mean_of. cbn [qsum length]. rewrite nq_1. field. discriminate. }
  split; auto. rewrite E. pose proof (mean_total (v :: rest)) as M. unfold mean_policy_loss. cbn [qsum length] in M. rewrite nq_S in M.
  specialize (M ltac:(discriminate)). split; intros H.
  - assert (H1 : (- v = - mean_of (v :: rest))%Qc) by congruence. assert (mean_of (v :: rest) = v) as X. { transitivity (- - mean_of (v :: rest))%Qc; [ring|]. rewrite <- H1. ring. }
    rewrite X in M. assert (v + nq (length rest) * v = v + qsum rest)%Qc as Y by (rewrite <- M; ring). qcl.
  - f_equal. rewrite <- H in M. assert (mean_of (v :: rest) = v) as ->; [|reflexivity].
    assert (1 + nq (length rest) <> 0)%Qc as NZ by (rewrite <- nq_S; apply Qcpos_neq, nq_pos; lia).
    transitivity ((1 + nq (length rest)) * mean_of (v :: rest) / (1 + nq (length rest)))%Qc; [now field|]. rewrite M. now field.
Qed.
Print Assumptions C94_refuted.
Example C94_nonvacuous :
  ddpg_policy_loss [q 1 1; q 5 1] = Ok (q (-1) 1) /\ mean_policy_loss [q 1 1; q 5 1] = q (-3) 1 /\
  sac_policy_loss (q 2 1) [q 1 1; q 5 1] [q 2 1; q 3 1] [q 1 2; q 1 1] = q (-1) 2.
Proof. repeat split; reflexivity. Qed.

(* C95: pessimistic targets *)
Definition pessimist (m q1 q2 : Qc) : Prop := (m = q1 \/ m = q2) /\ (m <= q1)%Qc /\ (m <= q2)%Qc.
Lemma Qcmin_pessimist a b : pessimist (Qcmin a b) a b.
Proof. unfold pessimist, Qcmin. destruct (Qcltb_spec b a); repeat split; auto; qcl. Qed.
Theorem C95_td3 : forall (St Act : Type) noise (actor_t : St -> Act) (c c2 : St -> Act -> Qc) discount b,
  let y := td3_target noise actor_t c c2 discount b in
  let a := noise (actor_t (t_next b)) in
  (t_terminal b = true -> y = t_reward b) /\
  (t_terminal b = false -> exists m, pessimist m (c (t_next b) a) (c2 (t_next b) a) /\ y = (t_reward b + discount * m)%Qc) /\
  ((0 <= discount)%Qc -> (y <= ddpg_target (fun s => noise (actor_t s)) c discount b)%Qc /\
                         (y <= ddpg_target (fun s => noise (actor_t s)) c2 discount b)%Qc).
Proof.
  intros St Act noise actor_t c c2 discount b. cbv zeta. unfold td3_target, ddpg_target, reward_function.
  set (a := noise (actor_t (t_next b))). pose proof (Qcmin_pessimist (c (t_next b) a) (c2 (t_next b) a)) as P. destruct (t_terminal b).
  - split; [intros; ring|]. split; [discriminate|]. intros D. split; qcl.
  - split; [discriminate|]. split; [intros _; eexists; split; [exact P|ring]|].
    destruct P as (_ & P1 & P2). intros D.
    assert (forall x y, (x <= y)%Qc -> (t_reward b + discount * 1 * x <= t_reward b + discount * 1 * y)%Qc) as M.
    { intros x y L. assert (0 <= discount * (y - x))%Qc by (apply Qcmul_nonneg; auto; qcl).
      assert (discount * 1 * x = discount * 1 * y - discount * (y - x))%Qc as -> by ring. qcl. }
    split; apply M; auto.
Qed.
Print Assumptions C95_td3.
Theorem C95_sac : forall (St Act : Type) (actor : St -> Act * Qc) (c c2 : St -> Act -> Qc) alpha discount b,
  let y := sac_target actor c c2 alpha discount b in
  let a := fst (actor (t_next b)) in
  (t_terminal b = true -> y = t_reward b) /\
  (t_terminal b = false -> exists m, pessimist m (c (t_next b) a) (c2 (t_next b) a) /\
     y = (t_reward b + discount * (m + alpha * - snd (actor (t_next b))))%Qc).
Proof.
  intros St Act actor c c2 alpha discount b. cbv zeta. unfold sac_target, reward_function. destruct (actor (t_next b)) as [a l]. cbn [fst snd].
  split; intros ->; [ring|]. eexists. split; [apply Qcmin_pessimist|ring].
Qed.
Print Assumptions C95_sac.
Example C95_nonvacuous :
  let c := fun (s a : nat) => nq (s + a) in let c2 := fun s a : nat => nq (2 * a) in
  let b := Build_tsample (q 1 1) 3 false in
  this (td3_target (fun a => a + 1) (fun s => s) c c2 (q 1 2) b) = QArith_base.Qmake 9 2 /\
  this (sac_target (fun s => (1, q (-1) 1)) c c2 (q 2 1) (q 1 2) b) = QArith_base.Qmake 3 1.
Proof. vm_compute. auto. Qed.

(* C96 *)
Theorem C96_hysteretic : forall inc dec cur y,
  let g := hddpg_goal inc dec cur y in
  ((cur < y)%Qc -> (g - cur = inc * (y - cur))%Qc) /\ ((y <= cur)%Qc -> (cur - g = dec * (cur - y))%Qc) /\
  ((0 <= inc)%Qc -> (inc <= 1)%Qc -> (0 <= dec)%Qc -> (dec <= 1)%Qc ->
     (Qcmin cur y <= g)%Qc /\ (g <= Qcmax cur y)%Qc) /\
  (inc = 1%Qc -> dec = 1%Qc -> g = y).
Proof.
  intros inc dec cur y. cbv zeta. unfold hddpg_goal. destruct (Qcltb_spec 0 (y - cur)%Qc) as [L|L].
  - assert (cur < y)%Qc by qcl. split; [intros; ring|]. split; [intros; exfalso; qcl|]. split.
    + intros I0 I1 D0 D1. assert (0 <= (y - cur) * inc)%Qc by (apply Qcmul_nonneg; qcl).
      assert (0 <= (y - cur) * (1 - inc))%Qc by (apply Qcmul_nonneg; qcl).
      assert ((y - cur) * (1 - inc) = (y - cur) - (y - cur) * inc)%Qc as X by ring. rewrite X in *. unfold Qcmin, Qcmax. qdec; split; qcl.
    + intros -> _. ring.
  - assert (y <= cur)%Qc by (apply Qcle_not_lt; intros F; apply L; qcl). split; [intros; exfalso; qcl|]. split; [intros; ring|]. split.
    + intros I0 I1 D0 D1. assert (0 <= (cur - y) * dec)%Qc by (apply Qcmul_nonneg; qcl).
      assert (0 <= (cur - y) * (1 - dec))%Qc by (apply Qcmul_nonneg; qcl).
      assert ((cur - y) * (1 - dec) = (cur - y) - (cur - y) * dec)%Qc as X by ring. rewrite X in *.
      assert ((y - cur) * dec = - ((cur - y) * dec))%Qc as Y by ring. rewrite Y. unfold Qcmin, Qcmax. qdec; split; qcl.
    + intros _ ->. ring.
Qed.
Print Assumptions C96_hysteretic.
Example C96_nonvacuous :
  hddpg_goal (q 1 2) (q 1 4) (q 0 1) (q 8 1) = q 4 1 /\ hddpg_goal (q 1 2) (q 1 4) (q 8 1) (q 0 1) = q 6 1.
Proof. split; reflexivity. Qed.

(* C97: noisy discrete actions of ddpg.py *)
Definition exp_like (ex lg : Qc -> Qc) : Prop :=
  ex 0%Qc = 1%Qc /\ (forall x, (0 < ex x)%Qc) /\ (forall x y, (x < y)%Qc -> (ex x < ex y)%Qc) /\
  forall x, (0 < x)%Qc -> ex (lg x) = x.
Definition one_hot (n k : nat) : list Qc := map (fun i => if i =? k then 1%Qc else 0%Qc) (seq 0 n).
(* full claim: a batch of b rows gives b actions *)
Theorem C97_refuted : forall ex lg c draw action,
  2 <= length action -> act_discrete_with_noise ex lg c draw action = Err ERuntime.
Proof.
  intros ex lg c draw action L. unfold act_discrete_with_noise, sample_discrete, view. rewrite map_length.
  set (d := draw _). set (b := length action) in *.
  assert (forall l, length (flat_map (fun k => map (d k) (seq 0 b)) l) = length l * b) as F.
  { induction l; cbn; auto. rewrite app_length, IHl, map_length, seq_length. lia. }
  rewrite F, seq_length. destruct (Nat.eqb_spec (b * b) (b * 1)); auto. nia.
Qed.
Print Assumptions C97_refuted.
Theorem C97_partial : forall ex lg c draw row,
  (forall probs k j r, nth_error probs j = Some r -> draw probs k j < length r) ->
  exists a, act_discrete_with_noise ex lg c draw [row] = Ok ([a], [soften ex lg c row]) /\ a < length row.
Proof.
  intros ex lg c draw row D. unfold act_discrete_with_noise, sample_discrete. cbn [map length seq flat_map app view Nat.eqb Nat.mul].
  eexists. split; [reflexivity|]. specialize (D [soften ex lg c row] 0 0 _ eq_refl).
  assert (length (soften ex lg c row) = length row) as <-; auto. unfold soften, softmax. destruct (_ && _); rewrite ?map_length; auto.
Qed.
Print Assumptions C97_partial.
Lemma qsum_pos l : l <> [] -> (forall x, In x l -> (0 < x)%Qc) -> (0 < qsum l)%Qc.
Proof.
  destruct l as [|x l]; [congruence|]. intros _ H. cbn. assert (0 <= qsum l)%Qc.
  { apply qsum_nonneg. intros y I. apply Qclt_le_weak, H. cbn. auto. }
  assert (0 < x)%Qc by (apply H; cbn; auto). qcl.
Qed.
(* the probabilities handed to the distribution *)
Theorem C97_probabilities : forall ex lg c row,
  exp_like ex lg -> 2 <= length row -> (0 < c)%Qc -> (c < 1)%Qc ->
  let p := soften ex lg c row in
  length p = length row /\ qsum p = 1%Qc /\ (forall x, In x p -> (0 < x)%Qc) /\
  ((1 < nq (length row) * c)%Qc -> forall i j, i < length row -> j < length row ->
     (nth i row 0 < nth j row 0)%Qc -> (nth i p 0 < nth j p 0)%Qc).
Proof.
  intros ex lg c row (E0 & EP & EM & EL) L C0 C1. cbv zeta. unfold soften.
  replace (1 <? length row) with true by (symmetry; apply Nat.ltb_lt; lia).
  destruct (Qcltb_spec c 1) as [_|F]; [|contradiction]. cbn [andb]. set (sc := scale lg (length row) c). unfold softmax.
  set (row' := map (fun x => x * sc)%Qc row). set (zz := qsum (map ex row')).
  assert (0 < zz)%Qc as ZP. { apply qsum_pos. { unfold row'. destruct row; [cbn in L; lia|discriminate]. }
    intros x I. apply in_map_iff in I as (y & <- & _). apply EP. }
  assert (zz <> 0)%Qc as ZN by now apply Qcpos_neq.
  assert (length row' = length row) as LR by apply map_length.
  split; [now rewrite map_length|]. split; [|split].
  - assert (forall l, qsum (map (fun x => ex x / zz)%Qc l) = (qsum (map ex l) / zz)%Qc) as SUM by
      (induction l; cbn [map qsum]; [field; auto| rewrite IHl; field; auto]).
    rewrite SUM. fold zz. field. auto.
  - intros x I. apply in_map_iff in I as (y & <- & _). apply Qcmul_pos; auto. now apply Qcinv_pos.
  - intros NC i j I J LT.
    assert (0 < sc)%Qc as SP.
    { set (arg := (nq (length row - 1) / (1 - c) * c)%Qc).
      assert (ex sc = arg) as ES.
      { apply EL. apply Qcmul_pos; auto. apply Qcmul_pos; [apply nq_pos; lia|apply Qcinv_pos; qcl]. }
      assert (1 < arg)%Qc as A1.
      { assert (nq (length row) = 1 + nq (length row - 1))%Qc as EN by (rewrite <- nq_S; f_equal; lia). rewrite EN in NC.
        assert (1 - c <> 0)%Qc by (apply Qcpos_neq; qcl).
        assert (0 < (nq (length row - 1) * c - (1 - c)) * / (1 - c))%Qc.
        { apply Qcmul_pos; [|apply Qcinv_pos; qcl]. assert ((1 + nq (length row - 1)) * c = c + nq (length row - 1) * c)%Qc as X by ring.
          rewrite X in NC. qcl. }
        assert ((nq (length row - 1) * c - (1 - c)) * / (1 - c) = arg - 1)%Qc as X by (unfold arg; field; auto). rewrite X in *. qcl. }
      destruct (Qclt_le_dec 0 sc) as [|LE]; auto. exfalso. destruct (Qcle_lt_or_eq _ _ LE) as [LT'|EQ].
      - apply EM in LT'. rewrite E0, ES in LT'. qcl.
      - rewrite EQ, E0 in ES. rewrite <- ES in A1. qcl. }
    assert (forall k, k < length row -> nth k (map (fun x => ex x / zz)%Qc row') 0%Qc = (ex (nth k row 0 * sc) / zz)%Qc) as N.
    { intros k K. rewrite (nth_indep _ 0%Qc (ex (0 * sc) / zz)%Qc) by (rewrite map_length, LR; auto). unfold row'. rewrite map_map.
      apply (map_nth (fun x => (ex (x * sc) / zz)%Qc)). }
    rewrite !N by auto. assert (nth i row 0 * sc < nth j row 0 * sc)%Qc as LT2 by (apply Qcmult_lt_compat_r; auto).
    apply EM in LT2. unfold Qcdiv. apply Qcmult_lt_compat_r; auto. now apply Qcinv_pos.
Qed.
Print Assumptions C97_probabilities.
(* an extreme actor output: its largest component is chosen with probability exactly choose_max_prob *)
Theorem C97_max_prob : forall ex lg c n k i,
  exp_like ex lg -> 2 <= n -> (0 < c)%Qc -> (c < 1)%Qc -> k < n -> i < n ->
  nth i (soften ex lg c (one_hot n k)) 0%Qc = if i =? k then c else ((1 - c) / nq (n - 1))%Qc.
Proof.
  intros ex lg c n k i (E0 & EP & EM & EL) L C0 C1 K I.
  assert (length (one_hot n k) = n) as LN by (unfold one_hot; now rewrite map_length, seq_length).
  unfold soften. rewrite LN. replace (1 <? n) with true by (symmetry; apply Nat.ltb_lt; lia).
  destruct (Qcltb_spec c 1) as [_|F]; [|contradiction]. cbn [andb]. set (sc := scale lg n c). unfold softmax.
  set (arg := (nq (n - 1) / (1 - c) * c)%Qc).
  assert (ex sc = arg) as ES. { apply EL. apply Qcmul_pos; auto. apply Qcmul_pos; [apply nq_pos; lia|apply Qcinv_pos; qcl]. }
  assert (1 - c <> 0)%Qc as NZ by (apply Qcpos_neq; qcl).
  assert (nq (n - 1) <> 0)%Qc as NZ2 by (apply Qcpos_neq, nq_pos; lia).
  assert (qsum (map ex (map (fun x => x * sc)%Qc (one_hot n k))) = (arg + nq (n - 1))%Qc) as ->.
  { unfold one_hot. rewrite !map_map.
    assert (forall a m, qsum (map (fun x => ex ((if x =? k then 1 else 0) * sc)%Qc) (seq a m)) =
      if (a <=? k) && (k <? a + m) then (arg + nq (m - 1))%Qc else nq m) as SUM.
    { intros a m. revert a. induction m as [|m IH]; intros a.
      - cbn [seq map qsum]. replace ((a <=? k) && (k <? a + 0)) with false; [reflexivity|]. symmetry. apply andb_false_iff.
        destruct (Nat.leb_spec a k); [right; apply Nat.ltb_ge; lia|left; reflexivity].
      - cbn [seq map qsum]. rewrite IH. destruct (Nat.eqb_spec a k) as [->|NE].
        + assert (1 * sc = sc)%Qc as -> by ring. rewrite ES, Nat.leb_refl.
          replace (S k <=? k) with false by (symmetry; apply Nat.leb_gt; lia). replace (k <? k + S m) with true by (symmetry; apply Nat.ltb_lt; lia).
          cbn [andb]. do 2 f_equal. lia.
        + assert (0 * sc = 0)%Qc as -> by ring. rewrite E0. replace (a + S m) with (S a + m) by lia.
          assert ((S a <=? k) = (a <=? k)) as ->.
          { destruct (Nat.leb_spec (S a) k), (Nat.leb_spec a k); auto; lia. }
          destruct ((a <=? k) && (k <? S a + m)) eqn:B.
          * apply andb_true_iff in B as [B1 B2]. apply Nat.leb_le in B1. apply Nat.ltb_lt in B2.
            replace (S m - 1) with (S (m - 1)) by lia. rewrite nq_S. ring.
          * rewrite nq_S. reflexivity. }
    rewrite SUM. replace ((0 <=? k) && (k <? 0 + n)) with true; auto. symmetry. apply andb_true_iff. split; [apply Nat.leb_le|apply Nat.ltb_lt]; lia. }
  set (zz := (arg + nq (n - 1))%Qc).
  rewrite (nth_indep _ 0%Qc (ex (0 * sc) / zz)%Qc) by (rewrite !map_length; lia). rewrite map_map.
  rewrite (map_nth (fun x => (ex (x * sc) / zz)%Qc)). unfold one_hot.
  rewrite (nth_indep _ 0%Qc ((fun i => if i =? k then 1%Qc else 0%Qc) 0)) by (rewrite map_length, seq_length; lia).
  rewrite (map_nth (fun i => if i =? k then 1%Qc else 0%Qc)), seq_nth by lia. cbn [plus].
  assert (zz = (nq (n - 1) / (1 - c))%Qc) as -> by (unfold zz, arg; now field).
  destruct (i =? k).
  - assert (1 * sc = sc)%Qc as -> by ring. rewrite ES. unfold arg. field. auto.
  - assert (0 * sc = 0)%Qc as -> by ring. rewrite E0. field. auto.
Qed.
Print Assumptions C97_max_prob.
Definition ex1 (x : Qc) : Qc := if Qcltb x 0 then (/ (1 - x))%Qc else (1 + x)%Qc.
Definition lg1 (y : Qc) : Qc := if Qcltb y 1 then (1 - / y)%Qc else (y - 1)%Qc.
Lemma ex1_like : exp_like ex1 lg1.
Proof.
  assert (forall x, (x < 0)%Qc -> (0 < / (1 - x))%Qc /\ (/ (1 - x) < 1)%Qc) as P.
  { intros x H. assert (0 < 1 - x)%Qc by qcl. split; [now apply Qcinv_pos|].
    assert (0 < - x * / (1 - x))%Qc by (apply Qcmul_pos; [qcl|now apply Qcinv_pos]).
    assert (- x * / (1 - x) = 1 - / (1 - x))%Qc as X by (field; now apply Qcpos_neq). rewrite X in *. qcl. }
  split; [reflexivity|]. split; [|split].
  - intros x. unfold ex1. destruct (Qcltb_spec x 0); [now apply P|qcl].
  - intros x y L. unfold ex1. destruct (Qcltb_spec x 0), (Qcltb_spec y 0); try qcl.
    + assert (0 < 1 - x)%Qc by qcl. assert (0 < 1 - y)%Qc by qcl.
      assert (0 < (y - x) * (/ (1 - x) * / (1 - y)))%Qc by (apply Qcmul_pos; [qcl|apply Qcmul_pos; now apply Qcinv_pos]).
      assert ((y - x) * (/ (1 - x) * / (1 - y)) = / (1 - y) - / (1 - x))%Qc as X by (field; split; apply Qcpos_neq; auto). rewrite X in *. qcl.
    + destruct (P x); auto. qcl.
  - intros x L. unfold ex1, lg1. destruct (Qcltb_spec x 1).
    + assert (1 < / x)%Qc. { assert (0 < (1 - x) * / x)%Qc by (apply Qcmul_pos; [qcl|now apply Qcinv_pos]).
        assert ((1 - x) * / x = / x - 1)%Qc as X by (field; now apply Qcpos_neq). rewrite X in *. qcl. }
      destruct (Qcltb_spec (1 - / x) 0); [|exfalso; qcl]. assert (1 - (1 - / x) = / x)%Qc as -> by ring. field. split; [now apply Qcpos_neq|discriminate].
    + destruct (Qcltb_spec (x - 1) 0); [exfalso; qcl|ring].
Qed.
Example C97_nonvacuous :
  exp_like ex1 lg1 /\
  map this (soften ex1 lg1 (q 9 10) (one_hot 3 1)) = [QArith_base.Qmake 1 20; QArith_base.Qmake 9 10; QArith_base.Qmake 1 20] /\
  act_discrete_with_noise ex1 lg1 (q 9 10) (fun _ _ _ => 1) [[q 1 2; q 1 2]; [q 1 4; q 3 4]] = Err ERuntime.
Proof. split; [apply ex1_like|]. vm_compute. auto. Qed.

(* C98: new priorities are the absolute temporal difference errors.  Full claim: also in ddpg_per.py. *)
Theorem C98_dqnper_partial : forall (St : Type) argmax (online target : St -> list Qc) discount batch actions i s a b,
  chooses argmax -> 0 < actions -> (forall s, length (online s) = actions /\ length (target s) = actions) ->
  nth_error batch i = Some (s, a, b) ->
  length (dqnper_priorities argmax online target discount batch) = length batch /\
  exists p y, nth_error (dqnper_priorities argmax online target discount batch) i = Some p /\
    p = Qcabs (nth a (online s) 0 - y)%Qc /\
    (terminal b = true -> y = reward b) /\
    (terminal b = false -> exists a', greedy (online (next_state b)) a' /\
       y = (reward b + discount * nth a' (target (next_state b)) 0)%Qc).
Proof.
  intros St argmax online target discount batch actions i s a b CH A SH E.
  destruct (C91_targets St argmax Double online target discount (map snd batch) actions CH A SH) as [L T].
  rewrite map_length in L. destruct (T i b) as (y & EY & Y1 & Y2); [now rewrite nth_error_map, E|].
  unfold dqnper_priorities. split; [rewrite map2_len; lia|].
  exists (Qcabs (nth a (online s) 0 - y)%Qc), y. split; [|auto].
  clear -E EY. revert i E EY. generalize (targets argmax Double online target discount (map snd batch)). intros ys i. revert ys.
  revert i. induction batch as [|x batch IH]; intros i ys E EY; [destruct i; discriminate|].
  destruct ys as [|y0 ys]; [destruct i; discriminate|]. destruct i; cbn in *; [injection E as ->; injection EY as ->; reflexivity|].
  now apply IH.
Qed.
Print Assumptions C98_dqnper_partial.
(* ddpg_per.py: right when the stored action is the one the policy takes now; otherwise unrelated *)
Theorem C98_ddpgper_partial : forall (St Act : Type) (actor : St -> Act) (critic : St -> Act -> Qc) s a y,
  actor s = a -> ddpgper_priority actor critic s y = Qcabs (critic s a - y)%Qc.
Proof. intros St Act actor critic s a y <-. reflexivity. Qed.
Print Assumptions C98_ddpgper_partial.
Theorem C98_refuted : forall p e : Qc, (0 <= p)%Qc -> (0 <= e)%Qc ->
  exists (actor : unit -> bool) (critic : unit -> bool -> Qc) (stored : bool) y,
    ddpgper_priority actor critic tt y = p /\ Qcabs (critic tt stored - y)%Qc = e.
Proof.
  intros p e P E. exists (fun _ => true), (fun _ (a : bool) => if a then p else e), false, 0%Qc. unfold ddpgper_priority.
  assert (forall x : Qc, x - 0 = x)%Qc as X by (intros; ring). rewrite !X. unfold Qcabs. qdec; split; auto; exfalso; qcl.
Qed.
Print Assumptions C98_refuted.
Example C98_nonvacuous :
  let net := fun s : bool => if s then [q 1 1; q 3 1] else [q 5 1; q 0 1] in
  dqnper_priorities first_max net net (q 1 1) [(true, 0, Build_sample (q 1 1) false false); (false, 1, Build_sample (q 2 1) true true)] = [q 5 1; q 2 1].
Proof. reflexivity. Qed.

(* C99: temperature of sac.py *)
Theorem C99_range : forall lo hi step h alpha batches, (lo <= hi)%Qc -> batches <> [] ->
  let a := alpha_run lo hi step true (Some h) alpha batches in (lo <= a)%Qc /\ (a <= hi)%Qc.
Proof.
  intros lo hi step h alpha batches L N. cbv zeta. unfold alpha_run.
  destruct (exists_last N) as (bs & b & ->). rewrite fold_left_app. cbn [fold_left alpha_update].
  split; [apply Qcmax_l|]. unfold Qcmax, Qcmin. qdec; qcl.
Qed.
Print Assumptions C99_range.
(* plain gradient descent: below the target entropy alpha grows, above it shrinks, until the bound *)
Theorem C99_direction : forall lo hi lr h alpha log_probs,
  (0 < lo)%Qc -> (0 < lr)%Qc -> (lo <= alpha)%Qc -> (alpha <= hi)%Qc -> log_probs <> [] ->
  let a := alpha_update lo hi (fun x g => x - lr * g)%Qc true (Some h) alpha log_probs in
  let entropy := mean_of (map (fun l => - l)%Qc log_probs) in
  ((entropy < h)%Qc -> (alpha < a)%Qc \/ (alpha = hi /\ a = hi)) /\
  ((h < entropy)%Qc -> (a < alpha)%Qc \/ (alpha = lo /\ a = lo)) /\ (entropy = h -> a = alpha).
Proof.
  intros lo hi lr h alpha lp L R A1 A2 N. cbv zeta. cbn [alpha_update]. unfold mean_of. rewrite !map_length.
  set (n := nq (length lp)). assert (0 < n)%Qc as NP by (apply nq_pos; destruct lp; [congruence|cbn; lia]).
  assert (n <> 0)%Qc as NZ by now apply Qcpos_neq. assert (0 < alpha)%Qc as AP by qcl. assert (alpha <> 0)%Qc by now apply Qcpos_neq.
  assert (qsum (map (fun l => l + h)%Qc lp) = (n * h - qsum (map (fun l => - l)%Qc lp))%Qc) as ->.
  { unfold n. clear. induction lp; cbn [map qsum length]; [rewrite nq_0; ring|]. rewrite IHlp, nq_S. ring. }
  set (e := (qsum (map (fun l => - l)%Qc lp) / n)%Qc).
  assert (alpha - lr * - ((n * h - qsum (map (fun l => - l)%Qc lp)) / n / alpha) = alpha + (lr * / alpha) * (h - e))%Qc as ->
    by (unfold e; field; auto).
  assert (0 < lr * / alpha)%Qc as K by (apply Qcmul_pos; auto; now apply Qcinv_pos). set (k := (lr * / alpha)%Qc) in *.
  split; [|split].
  - intros E. assert (0 < k * (h - e))%Qc by (apply Qcmul_pos; auto; qcl). set (d := (k * (h - e))%Qc) in *.
    unfold Qcmax, Qcmin. destruct (Qc_eq_dec alpha hi) as [->|NE].
    + right. split; auto. destruct (Qcltb_spec hi (hi + d)); [|exfalso; qcl].
      destruct (Qcltb_spec lo hi); [auto|]. apply Qcle_antisym; qcl.
    + left. assert (alpha < hi)%Qc by (apply Qcle_lt_or_eq in A2 as [|]; [auto|congruence]). qdec; qcl.
  - intros E. assert (0 < k * (e - h))%Qc by (apply Qcmul_pos; auto; qcl).
    assert (k * (h - e) = - (k * (e - h)))%Qc as -> by ring. set (d := (k * (e - h))%Qc) in *.
    unfold Qcmax, Qcmin. destruct (Qc_eq_dec alpha lo) as [->|NE].
    + right. split; auto. destruct (Qcltb_spec hi (lo + - d)); [exfalso; qcl|]. destruct (Qcltb_spec lo (lo + - d)); [exfalso; qcl|auto].
    + left. assert (lo < alpha)%Qc by (apply Qcle_lt_or_eq in A1 as [|]; [auto|congruence]). qdec; qcl.
  - intros <-. assert (alpha + k * (e - e) = alpha)%Qc as -> by ring. unfold Qcmax, Qcmin. destruct (Qcltb_spec hi alpha); [exfalso; qcl|].
    destruct (Qcltb_spec lo alpha); auto. apply Qcle_antisym; qcl.
Qed.
Print Assumptions C99_direction.
Theorem C99_off : forall lo hi step flag h alpha batches,
  flag = false \/ h = None -> alpha_run lo hi step flag h alpha batches = alpha.
Proof.
  intros lo hi step flag h alpha batches H. unfold alpha_run. revert alpha. induction batches as [|b bs IH]; intros alpha; auto.
  cbn [fold_left]. assert (alpha_update lo hi step flag h alpha b = alpha) as -> by (destruct H as [-> | ->]; auto; destruct flag; auto). apply IH.
Qed.
Print Assumptions C99_off.
Example C99_nonvacuous :
  let f := alpha_update (q 1 10) (q 10 1) (fun x g => x - q 1 2 * g)%Qc true (Some (q 1 1)) in
  f (q 1 1) [q 0 1; q (-1) 1] = q 5 4 /\ f (q 1 1) [q (-3) 1; q (-3) 1] = q 1 10 /\ f (q 1 1) [q (-2) 1; q 0 1] = q 1 1.
Proof. repeat split; reflexivity. Qed.

(* C100: after loading, every online network equals its restored target.  Full claim: also in sac.py. *)
Theorem C100_td3_partial : forall s a c c2,
  same_shape (actor s) a -> same_shape (critic s) c -> same_shape (critic2 s) c2 ->
  td3_load s a c c2 = (MkNets a a c c c2 c2, Ok tt).
Proof.
  intros s a c c2 A C C2. unfold td3_load, chain, copy. cbn [fold_left snd fst actor actor_t critic critic_t critic2 critic2_t].
  rewrite (hard_ok A). cbn. rewrite (hard_ok C). cbn. rewrite (hard_ok C2). reflexivity.
Qed.
Print Assumptions C100_td3_partial.
(* sac.py: the first critic gets the second one's parameters and the second critic none *)
Theorem C100_refuted : forall s a c c2,
  same_shape (critic s) c -> same_shape (critic s) c2 ->
  sac_load s a c c2 = (MkNets a (actor_t s) c2 c (critic2 s) c2, Ok tt).
Proof.
  intros s a c c2 C C2. unfold sac_load, chain, copy. cbn [fold_left snd fst actor actor_t critic critic_t critic2 critic2_t].
  rewrite (hard_ok C). cbn. rewrite hard_ok; [reflexivity|]. eapply shape_trans; [apply shape_sym|]; eauto.
Qed.
Print Assumptions C100_refuted.
Example C100_nonvacuous :
  let n x := MkNet [[q x 1]] [] in
  let s := MkNets (n 1%Z) (n 1%Z) (n 2%Z) (n 2%Z) (n 3%Z) (n 3%Z) in
  critic (fst (sac_load s (n 7%Z) (n 8%Z) (n 9%Z))) = n 9%Z /\ critic2 (fst (sac_load s (n 7%Z) (n 8%Z) (n 9%Z))) = n 3%Z /\
  critic2 (fst (td3_load s (n 7%Z) (n 8%Z) (n 9%Z))) = n 9%Z.
Proof. repeat split. Qed.

(* C101: n calls of update_lr_scheduler step every scheduler n times.  Full claim: also in sac.py. *)
Theorem C101_td3_partial : forall n s,
  Nat.iter n td3_update_lr s = MkSch (n_actor s + n) (n_critic s + n) (n_critic2 s + n) (n_alpha s).
Proof.
  induction n; intros s; [destruct s; cbn; f_equal; lia|]. change (Nat.iter (S n) td3_update_lr s) with (td3_update_lr (Nat.iter n td3_update_lr s)).
  rewrite IHn. unfold td3_update_lr. cbn [n_actor n_critic n_critic2 n_alpha]. f_equal; lia.
Qed.
Print Assumptions C101_td3_partial.
Theorem C101_refuted : forall n s,
  Nat.iter n sac_update_lr s = MkSch (n_actor s + n) (n_critic s + n) (n_critic2 s) (n_alpha s).
Proof.
  induction n; intros s; [destruct s; cbn; f_equal; lia|]. change (Nat.iter (S n) sac_update_lr s) with (sac_update_lr (Nat.iter n sac_update_lr s)).
  rewrite IHn. unfold sac_update_lr. cbn [n_actor n_critic n_critic2 n_alpha]. f_equal; lia.
Qed.
Print Assumptions C101_refuted.
Example C101_nonvacuous : Nat.iter 3 sac_update_lr (MkSch 0 0 0 0) = MkSch 3 3 0 0 /\ Nat.iter 3 td3_update_lr (MkSch 0 0 0 0) = MkSch 3 3 3 0.
Proof. split; reflexivity. Qed.
