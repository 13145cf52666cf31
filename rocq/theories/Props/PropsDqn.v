(* C91, C92, C93: DQN, machin/frame/algorithms/dqn.py. *)
From Coq Require Import QArith.
From Verif Require Import Lib.Base Lib.Rat Model.Losses Model.Target Model.Dqn Spec.TargetSpec Proofs.LossTargetProofs.
Close Scope Q_scope.
Open Scope nat_scope.

(* a is a greedy action for the action values l *)
Definition greedy (l : list Qc) (a : nat) : Prop :=
  a < length l /\ forall b, b < length l -> (nth b l 0 <= nth a l 0)%Qc.
Definition chooses (argmax : list Qc -> nat) : Prop := forall l, l <> [] -> greedy l (argmax l).

Lemma row_max_greedy l : l <> [] -> exists a, greedy l a /\ row_max l = nth a l 0%Qc.
Proof.
  induction l as [|x l IH]; intros N; [congruence|]. destruct l as [|y l].
  - exists 0. repeat split; cbn; auto. intros [|b] H; [apply Qcle_refl|lia].
  - destruct IH as (a & [A G] & E); [discriminate|]. change (row_max (x :: y :: l)) with (Qcmax x (row_max (y :: l))).
    rewrite E. unfold Qcmax. destruct (Qcltb_spec x (nth a (y :: l) 0%Qc)) as [L|L].
    + exists (S a). repeat split; [cbn in *; lia|]. intros [|b] H; [cbn [nth] in *; qcl|]. apply G. cbn in *. lia.
    + exists 0. repeat split; [cbn; lia|]. intros [|b] H; [apply Qcle_refl|]. assert (b < length (y :: l)) as B by (cbn in *; lia).
      specialize (G b B). change (nth (S b) (x :: y :: l) 0%Qc) with (nth b (y :: l) 0%Qc).
      change (nth 0 (x :: y :: l) 0%Qc) with x. qcl.
Qed.

(* the networks that choose the next action and that evaluate it *)
Definition chooser {A} (m : mode) (online target : A) : A := match m with Fixed_target => target | _ => online end.
Definition evaluator {A} (m : mode) (online target : A) : A := match m with Vanilla => online | _ => target end.

(* C91 *)
Theorem C91_targets : forall (St : Type) argmax m (online target : St -> list Qc) discount batch actions,
  chooses argmax -> 0 < actions -> (forall s, length (online s) = actions /\ length (target s) = actions) ->
  length (targets argmax m online target discount batch) = length batch /\
  forall i b, nth_error batch i = Some b -> exists y, nth_error (targets argmax m online target discount batch) i = Some y /\
    (terminal b = true -> y = reward b) /\
    (terminal b = false -> exists a, greedy (chooser m online target (next_state b)) a /\
       y = (reward b + discount * nth a (evaluator m online target (next_state b)) 0)%Qc).
Proof.
  intros St argmax m online target discount batch actions CH A SH. unfold targets. split; [apply map_length|].
  intros i b E. eexists. split; [rewrite nth_error_map, E; reflexivity|]. cbv beta. unfold reward_function. split; intros T; rewrite T.
  - ring.
  - assert (forall f : St -> list Qc, (forall s, length (f s) = actions) -> f (next_state b) <> []) as NE.
    { intros f L F. specialize (L (next_state b)). rewrite F in L. cbn in L. lia. }
    assert (online (next_state b) <> []) by (apply NE; intros; apply SH).
    assert (target (next_state b) <> []) by (apply NE; intros; apply SH).
    destruct m; cbn [next_value chooser evaluator].
    + destruct (row_max_greedy (online (next_state b))) as (a & G & ->); auto. exists a. split; auto. ring.
    + destruct (row_max_greedy (target (next_state b))) as (a & G & ->); auto. exists a. split; auto. ring.
    + exists (argmax (online (next_state b))). split; [auto|ring].
Qed.
Print Assumptions C91_targets.
(* the double target is never above the fixed target one *)
Theorem C91_double : forall (St : Type) argmax (online target : St -> list Qc) discount batch actions i y y',
  chooses argmax -> 0 < actions -> (forall s, length (online s) = actions /\ length (target s) = actions) -> (0 <= discount)%Qc ->
  nth_error (targets argmax Double online target discount batch) i = Some y ->
  nth_error (targets argmax Fixed_target online target discount batch) i = Some y' -> (y <= y')%Qc.
Proof.
  intros St argmax online target discount batch actions i y y' CH A SH D E E'.
  unfold targets in E, E'. rewrite nth_error_map in E, E'. destruct (nth_error batch i) as [b|]; [|discriminate].
  cbn in E, E'. injection E as <-. injection E' as <-. unfold reward_function. destruct (terminal b); [qcl|].
  destruct (SH (next_state b)) as [L1 L2].
  destruct (row_max_greedy (target (next_state b))) as (a & [_ G] & ->); [intros F; rewrite F in L2; cbn in L2; lia|].
  assert (argmax (online (next_state b)) < length (target (next_state b))) as B.
  { rewrite L2, <- L1. apply CH. intros F. rewrite F in L1. cbn in L1. lia. }
  specialize (G _ B). assert (0 <= discount * (nth a (target (next_state b)) 0 - nth (argmax (online (next_state b))) (target (next_state b)) 0))%Qc.
  { apply Qcmul_nonneg; auto. qcl. }
  assert (discount * (nth a (target (next_state b)) 0 - nth (argmax (online (next_state b))) (target (next_state b)) 0) =
    discount * nth a (target (next_state b)) 0 - discount * nth (argmax (online (next_state b))) (target (next_state b)) 0)%Qc as X by ring.
  rewrite X in H. assert (discount * 1 = discount)%Qc as Y by ring. rewrite !Y. qcl.
Qed.
Print Assumptions C91_double.
Definition q (a : Z) (b : positive) : Qc := Q2Qc (QArith_base.Qmake a b).
Fixpoint first_max (l : list Qc) : nat :=
  match l with [] => 0 | x :: r => if Qcleb (row_max r) x then 0 else match r with [] => 0 | _ => S (first_max r) end end.
Example C91_nonvacuous :
  let online := fun s : bool => if s then [q 1 1; q 3 1] else [q 5 1; q 0 1] in
  let target := fun s : bool => if s then [q 4 1; q 2 1] else [q 1 1; q 7 1] in
  let b := [Build_sample (q 1 1) true false; Build_sample (q 2 1) false true] in
  map this (targets first_max Vanilla online target (q 1 2) b) = [QArith_base.Qmake 5 2; QArith_base.Qmake 2 1]%Z /\
  map this (targets first_max Fixed_target online target (q 1 2) b) = [QArith_base.Qmake 3 1; QArith_base.Qmake 2 1]%Z /\
  map this (targets first_max Double online target (q 1 2) b) = [QArith_base.Qmake 2 1; QArith_base.Qmake 2 1]%Z.
Proof. vm_compute. auto. Qed.

(* C92 *)
Fixpoint power (x : Qc) (n : nat) : Qc := match n with O => 1%Qc | S m => (x * power x m)%Qc end.
Definition decays {St} (cs : list (call St)) : nat := length (filter c_decay cs).
Lemma power_add x a b : power x (a + b) = (power x a * power x b)%Qc.
Proof. induction a; cbn; [ring|rewrite IHa; ring]. Qed.
Lemma act_run_eps {St} argmax d (cs : list (call St)) : forall e, fst (act_run argmax e d cs) = (e * power d (decays cs))%Qc.
Proof.
  induction cs as [|c cs IH]; intros e; [cbn; ring|]. cbn [act_run]. unfold act_noise.
  destruct (act_run argmax (if c_decay c then (e * d)%Qc else e) d cs) as [e' rest] eqn:E. cbn [fst].
  specialize (IH (if c_decay c then (e * d)%Qc else e)). rewrite E in IH. cbn [fst] in IH. rewrite IH.
  unfold decays. cbn [filter]. destruct (c_decay c); cbn [length power]; ring.
Qed.
Lemma act_run_app {St} argmax d (cs1 cs2 : list (call St)) e :
  act_run argmax e d (cs1 ++ cs2) =
  let (e1, a1) := act_run argmax e d cs1 in let (e2, a2) := act_run argmax e1 d cs2 in (e2, a1 ++ a2).
Proof.
  revert e. induction cs1 as [|c cs IH]; intros e; cbn [act_run app].
  - now destruct (act_run argmax e d cs2).
  - destruct (act_noise _ _ _ _ _ _ _) as [e' a]. rewrite IH. destruct (act_run argmax e' d cs) as [e1 a1].
    now destruct (act_run argmax e1 d cs2).
Qed.
Lemma act_run_length {St} argmax d (cs : list (call St)) e : length (snd (act_run argmax e d cs)) = length cs.
Proof.
  revert e. induction cs as [|c cs IH]; intros e; auto. cbn [act_run]. destruct (act_noise _ _ _ _ _ _ _) as [e' a].
  specialize (IH e'). destruct (act_run argmax e' d cs). cbn in *. now rewrite IH.
Qed.
(* call number i of a run: epsilon is the decay rate to the power of the number of earlier decaying
   calls; below it the draws are used, otherwise greedy actions *)
Theorem C92_epsilon_greedy : forall (St : Type) argmax decay_rate actions (cs : list (call St)) i c,
  chooses argmax -> 0 < actions ->
  (forall c, In c cs -> (forall s, length (c_net c s) = actions) /\
     length (c_draws c) = length (c_states c) /\ forall a, In a (c_draws c) -> a < actions) ->
  nth_error cs i = Some c ->
  let eps := power decay_rate (decays (firstn i cs)) in
  exists result, nth_error (snd (act_from_start argmax decay_rate cs)) i = Some result /\
    length result = length (c_states c) /\ (forall a, In a result -> a < actions) /\
    ((c_u c < eps)%Qc -> result = c_draws c) /\
    (~ (c_u c < eps)%Qc -> forall j s, nth_error (c_states c) j = Some s ->
       exists a, nth_error result j = Some a /\ greedy (c_net c s) a).
Proof.
  intros St argmax d actions cs i c CH A H E eps.
  destruct (nth_error_split cs i E) as (l1 & l2 & EC & L).
  assert (In c cs) as IN by (eapply nth_error_In; eauto). destruct (H c IN) as (N & DL & DA).
  assert (firstn i cs = l1) as F by (rewrite EC, <- L, firstn_app, Nat.sub_diag, firstn_all; cbn; apply app_nil_r).
  exists (if Qcltb (c_u c) eps then c_draws c else act_discrete argmax (c_net c) (c_states c)). split.
  - unfold act_from_start. rewrite EC, act_run_app. destruct (act_run argmax 1%Qc d l1) as [e1 a1] eqn:E1.
    pose proof (act_run_eps argmax d l1 1%Qc) as EP. pose proof (act_run_length argmax d l1 1%Qc) as AL. rewrite E1 in EP, AL. cbn [fst snd] in EP, AL.
    assert (e1 = eps) as -> by (unfold eps; rewrite F, EP; ring).
    cbn [act_run]. unfold act_noise. destruct (act_run argmax _ d l2) as [e2 a2]. cbn [snd].
    rewrite nth_error_app2 by lia. rewrite AL, L, Nat.sub_diag. reflexivity.
  - assert (forall s, greedy (c_net c s) (argmax (c_net c s))) as G.
    { intros s. apply CH. intros Z. specialize (N s). rewrite Z in N. cbn in N. lia. }
    destruct (Qcltb_spec (c_u c) eps) as [B|B].
    + split; auto. split; auto. split; auto. intros X. contradiction.
    + unfold act_discrete. split; [apply map_length|]. split.
      * intros a I. apply in_map_iff in I as (s & <- & I). rewrite <- (N s). apply G.
      * split; [intros X; contradiction|]. intros _ j s J. exists (argmax (c_net c s)). split; [now rewrite nth_error_map, J|apply G].
Qed.
Print Assumptions C92_epsilon_greedy.
(* for a decay rate in [0, 1] epsilon stays in [0, 1] and never grows; without decay it does not change *)
Theorem C92_bounds : forall (St : Type) argmax d (cs more : list (call St)), (0 <= d)%Qc -> (d <= 1)%Qc ->
  let e := fst (act_from_start argmax d cs) in let e' := fst (act_from_start argmax d (cs ++ more)) in
  (0 <= e')%Qc /\ (e' <= e)%Qc /\ (e <= 1)%Qc /\ ((forall c, In c more -> c_decay c = false) -> e' = e).
Proof.
  intros St argmax d cs more D0 D1. cbv zeta. unfold act_from_start. rewrite !act_run_eps.
  assert (decays (cs ++ more) = decays cs + decays more) as -> by (unfold decays; rewrite filter_app, app_length; auto).
  rewrite power_add.
  assert (forall n, (0 <= power d n)%Qc /\ (power d n <= 1)%Qc) as P.
  { induction n as [|n [P0 P1]]; [cbn; split; discriminate|]. cbn [power]. split; [now apply Qcmul_nonneg|].
    assert (d * power d n <= 1 * power d n)%Qc by (apply Qcmult_le_compat_r; auto). qcl. }
  destruct (P (decays cs)) as [A0 A1]. destruct (P (decays more)) as [B0 B1].
  assert (power d (decays more) * power d (decays cs) <= 1 * power d (decays cs))%Qc by (apply Qcmult_le_compat_r; auto).
  assert (0 <= power d (decays cs) * power d (decays more))%Qc by now apply Qcmul_nonneg.
  assert (power d (decays more) * power d (decays cs) = power d (decays cs) * power d (decays more))%Qc as X by ring.
  rewrite X in H. repeat split; try qcl. intros F.
  assert (decays more = 0) as ->; [|cbn; ring]. unfold decays. clear -F. induction more as [|c more IH]; auto. cbn.
  rewrite (F c) by (cbn; auto). apply IH. intros. apply F. cbn. auto.
Qed.
Print Assumptions C92_bounds.
Example C92_nonvacuous :
  let net := fun s : bool => if s then [q 1 1; q 3 1; q 2 1] else [q 5 1; q 0 1; q 1 1] in
  let c u := Build_call u true [2; 2] net [true; false] in
  let r := act_from_start first_max (q 1 2) [c (q 3 4); c (q 3 4); c (q 1 8)] in
  this (fst r) = (QArith_base.Qmake 1 8)%Z /\ snd r = [[2; 2]; [1; 0]; [2; 2]].
Proof. vm_compute. auto. Qed.

(* C93: in every mode and under both update schemes the target network follows the online one.  Full
   claim: with update_steps = k, in mode fixed_target too, the k-th, 2k-th, ... update copies the online network. *)
Lemma soft_opt_none t s : n_params t <> [] -> n_params s <> [] -> soft_update_opt None t s = (t, Err EType).
Proof. destruct t as [tp tb], s as [sp sb]. cbn. destruct tp, sp; intros; try congruence. reflexivity. Qed.
Lemma dq_run_app m r k st xs ys : dq_run m r k st (xs ++ ys) = dq_run m r k (dq_run m r k st xs) ys.
Proof. apply fold_left_app. Qed.
Definition starts (m : mode) (online target : net) : net := match m with Vanilla => online | _ => target end.
(* what construction and the updates establish, for update_rate = tau *)
Theorem C93_rate_partial : forall m tau online target xs x,
  same_shape online target -> (forall y, In y (xs ++ [x]) -> same_shape online (fst y)) ->
  let st0 := dq_new m (Some tau) None online target in
  let st := dq_run m (Some tau) None (fst st0) xs in
  let st' := dq_run m (Some tau) None (fst st0) (xs ++ [x]) in
  st0 = (MkDqn (starts m online target) (starts m online target) 0, Ok tt) /\
  snd (dq_update m (Some tau) None st x) = Ok tt /\ q_online st' = fst x /\
  match m with
  | Vanilla => q_target st' = q_online st'
  | _ => n_bufs (q_target st') = n_bufs target /\
  forall i j, has (n_params target) i j ->
           elem (n_params (q_target st')) i j =
           if snd x then ((1 - tau) * elem (n_params (q_target st)) i j + tau * elem (n_params (fst x)) i j)%Qc
           else elem (n_params (q_target st)) i j
  end.
Proof.
  intros m tau online target xs [o fl] SH H. cbv zeta.
  assert (dq_new m (Some tau) None online target = (MkDqn (starts m online target) (starts m online target) 0, Ok tt)) as E0.
  { unfold dq_new, starts. destruct m; [rewrite hard_ok by (split; auto)| rewrite hard_ok by auto | rewrite hard_ok by auto]; reflexivity. }
  rewrite E0. cbn [fst]. split; auto. rewrite dq_run_app. set (s0 := MkDqn _ _ 0).
  assert (same_shape online o) as SO by (apply (H (o, fl)); apply in_or_app; cbn; auto).
  destruct m.
  - cbn. auto.
  - assert (I : same_shape online (q_target (dq_run Fixed_target (Some tau) None s0 xs)) /\
      n_bufs (q_target (dq_run Fixed_target (Some tau) None s0 xs)) = n_bufs target).
    { assert (forall y, In y xs -> same_shape online (fst y)) as HX by (intros; apply H; apply in_or_app; auto).
      clear H. induction xs as [|[o1 f1] xs IH] using rev_ind.
      - cbn. auto.
      - rewrite dq_run_app. destruct IH as [I1 I2]; [intros; apply HX; apply in_or_app; auto|].
        assert (same_shape online o1) as S1 by (apply (HX (o1, f1)); apply in_or_app; cbn; auto).
        set (st := dq_run Fixed_target (Some tau) None s0 xs) in *. unfold dq_run, dq_update. cbn [fold_left fst]. destruct f1; cbn [fst q_target]; auto.
        unfold soft_update_opt. assert (same_shape (q_target st) o1) as S2 by (eapply shape_trans; [apply shape_sym|]; eauto).
        pose proof (soft_shape tau S2) as S3. unfold soft_update in S3 |- *. destruct (copy_zip _ _ _) as [p e]. cbn [fst q_target n_bufs] in *.
        split; [exact (shape_trans I1 S3)|exact I2]. }
    destruct I as [I1 I2]. set (st := dq_run Fixed_target (Some tau) None s0 xs) in *.
    assert (same_shape (q_target st) o) as S2 by (eapply shape_trans; [apply shape_sym|]; eauto).
    pose proof (soft_ok tau S2) as OK. pose proof (soft_shape tau S2) as S3.
    unfold dq_run, dq_update. cbn [fold_left fst snd]. destruct fl; [|cbn; auto]. unfold soft_update_opt.
    destruct (soft_update tau (q_target st) o) as [t e] eqn:U. injection OK as Et Ee. subst e. cbn [fst snd q_online q_target].
    repeat split; [rewrite Et; cbn; auto|]. intros i j B. assert (has (n_params (q_target st)) i j) as B2.
    { eapply has_shape; [|exact B]. eapply shape_trans; [apply shape_sym|]; eauto. }
    pose proof (@elem_soft tau (q_target st) o i j S2 B2) as X. rewrite U in X. cbn [fst] in X. rewrite X. unfold mix. ring.
  - assert (I : same_shape online (q_target (dq_run Double (Some tau) None s0 xs)) /\
      n_bufs (q_target (dq_run Double (Some tau) None s0 xs)) = n_bufs target).
    { assert (forall y, In y xs -> same_shape online (fst y)) as HX by (intros; apply H; apply in_or_app; auto).
      clear H. induction xs as [|[o1 f1] xs IH] using rev_ind.
      - cbn. auto.
      - rewrite dq_run_app. destruct IH as [I1 I2]; [intros; apply HX; apply in_or_app; auto|].
        assert (same_shape online o1) as S1 by (apply (HX (o1, f1)); apply in_or_app; cbn; auto).
        set (st := dq_run Double (Some tau) None s0 xs) in *. unfold dq_run, dq_update. cbn [fold_left fst]. destruct f1; cbn [fst q_target]; auto.
        assert (same_shape (q_target st) o1) as S2 by (eapply shape_trans; [apply shape_sym|]; eauto).
        pose proof (soft_shape tau S2) as S3. unfold soft_update in S3 |- *. destruct (copy_zip _ _ _) as [p e]. cbn [fst q_target n_bufs] in *.
        split; [exact (shape_trans I1 S3)|exact I2]. }
    destruct I as [I1 I2]. set (st := dq_run Double (Some tau) None s0 xs) in *.
    assert (same_shape (q_target st) o) as S2 by (eapply shape_trans; [apply shape_sym|]; eauto).
    pose proof (soft_ok tau S2) as OK. pose proof (soft_shape tau S2) as S3.
    unfold dq_run, dq_update. cbn [fold_left fst snd]. destruct fl; [|cbn; auto].
    destruct (soft_update tau (q_target st) o) as [t e] eqn:U. injection OK as Et Ee. subst e. cbn [fst snd q_online q_target].
    repeat split; [rewrite Et; cbn; auto|]. intros i j B. assert (has (n_params (q_target st)) i j) as B2.
    { eapply has_shape; [|exact B]. eapply shape_trans; [apply shape_sym|]; eauto. }
    pose proof (@elem_soft tau (q_target st) o i j S2 B2) as X. rewrite U in X. cbn [fst] in X. rewrite X. unfold mix. ring.
Qed.
Print Assumptions C93_rate_partial.
(* mode fixed_target with update_steps: the constructor accepts it, but in every run every update with
   update_target set raises after the online network has changed, and the target stays what it was at construction *)
Theorem C93_steps_refuted : forall steps online target xs x,
  same_shape online target -> n_params target <> [] -> (forall y, In y (xs ++ [x]) -> n_params (fst y) <> []) ->
  let st0 := dq_new Fixed_target None steps online target in
  let st := dq_run Fixed_target None steps (fst st0) xs in
  let st' := dq_run Fixed_target None steps (fst st0) (xs ++ [x]) in
  snd st0 = Ok tt /\ q_online st' = fst x /\ q_target st' = target /\
  snd (dq_update Fixed_target None steps st x) = if snd x then Err EType else Ok tt.
Proof.
  intros steps online target xs [o fl] SH NE H. cbv zeta.
  assert (dq_new Fixed_target None steps online target = (MkDqn target target 0, Ok tt)) as ->.
  { unfold dq_new. rewrite hard_ok by auto. destruct steps; reflexivity. }
  cbn [fst snd]. split; auto. rewrite dq_run_app. set (s0 := MkDqn _ _ 0).
  assert (I : q_target (dq_run Fixed_target None steps s0 xs) = target).
  { assert (forall y, In y xs -> n_params (fst y) <> []) as HX by (intros; apply H; apply in_or_app; auto).
    clear H. induction xs as [|[o1 f1] xs IH] using rev_ind; auto. rewrite dq_run_app.
    assert (n_params o1 <> []) as N1 by (apply (HX (o1, f1)); apply in_or_app; cbn; auto).
    specialize (IH (fun y i => HX y (in_or_app _ _ _ (or_introl i)))).
    set (st := dq_run Fixed_target None steps s0 xs) in *. unfold dq_run, dq_update. cbn [fold_left fst].
    destruct f1; auto. rewrite soft_opt_none; auto. now rewrite IH. }
  assert (n_params o <> []) as N1 by (apply (H (o, fl)); apply in_or_app; cbn; auto).
  set (st := dq_run Fixed_target None steps s0 xs) in *. unfold dq_run, dq_update. cbn [fold_left fst snd].
  destruct fl; cbn [fst snd q_online q_target]; auto. rewrite soft_opt_none by (rewrite ?I; auto). cbn. auto.
Qed.
Print Assumptions C93_steps_refuted.
(* mode double with update_steps = k: the k-th, 2k-th, ... update with update_target set copies the online network,
   the others leave the target as it was *)
Definition asked (xs : list (net * bool)) : nat := length (filter snd xs).
Theorem C93_double_steps : forall k online target xs x, k <> 0 ->
  same_shape online target -> (forall y, In y (xs ++ [x]) -> same_shape online (fst y)) ->
  let st0 := dq_new Double None (Some k) online target in
  let st := dq_run Double None (Some k) (fst st0) xs in
  let st' := dq_run Double None (Some k) (fst st0) (xs ++ [x]) in
  snd st0 = Ok tt /\ q_target (fst st0) = target /\ snd (dq_update Double None (Some k) st x) = Ok tt /\
  q_online st' = fst x /\
  ((exists j, asked (xs ++ [x]) = k * j) -> snd x = true -> q_target st' = fst x) /\
  ((forall j, asked (xs ++ [x]) <> k * j) \/ snd x = false -> q_target st' = q_target st).
Proof.
  intros k online target xs [o fl] K SH H. cbv zeta.
  assert (dq_new Double None (Some k) online target = (MkDqn target target 0, Ok tt)) as ->.
  { unfold dq_new. rewrite hard_ok by auto. reflexivity. }
  cbn [fst snd q_target]. split; auto. split; auto. rewrite dq_run_app. set (s0 := MkDqn _ _ 0).
  assert (I : forall xs, (forall y, In y xs -> same_shape online (fst y)) ->
    same_shape online (q_target (dq_run Double None (Some k) s0 xs)) /\ q_count (dq_run Double None (Some k) s0 xs) = asked xs).
  { clear xs H. intros xs HX. induction xs as [|[o1 f1] xs IH] using rev_ind.
    - cbn. auto.
    - destruct IH as [I1 I2]; [intros; apply HX; apply in_or_app; auto|]. rewrite dq_run_app.
      assert (same_shape online o1) as S1 by (apply (HX (o1, f1)); apply in_or_app; cbn; auto).
      unfold asked in *. rewrite filter_app, app_length, <- I2. set (st := dq_run Double None (Some k) s0 xs) in *.
      assert (same_shape (q_target st) o1) as S2 by (eapply shape_trans; [apply shape_sym|]; eauto).
      unfold dq_run, dq_update. cbn [fold_left fst filter snd]. destruct f1; cbn [length]; [|rewrite Nat.add_0_r; auto].
      destruct k as [|k]; [congruence|]. destruct ((q_count st + 1) mod S k =? 0); [rewrite hard_ok by auto|]; cbn; auto. }
  destruct (I xs) as [I1 I2]; [intros; apply H; apply in_or_app; auto|].
  set (st := dq_run Double None (Some k) s0 xs) in *.
  assert (same_shape online o) as S1 by (apply (H (o, fl)); apply in_or_app; cbn; auto).
  assert (same_shape (q_target st) o) as S2 by (eapply shape_trans; [apply shape_sym|]; eauto).
  assert (A : asked (xs ++ [(o, fl)]) = q_count st + if fl then 1 else 0).
  { unfold asked in *. rewrite filter_app, app_length, I2. destruct fl; reflexivity. }
  rewrite A. unfold dq_run, dq_update. cbn [fold_left fst snd]. destruct fl; [|cbn; repeat split; auto; discriminate].
  destruct k as [|k]; [congruence|]. destruct (Nat.eqb_spec ((q_count st + 1) mod S k) 0) as [E|E].
  - rewrite hard_ok by auto. cbn. repeat split; auto. intros [D|D]; [|discriminate].
    apply Nat.mod_divides in E; [|lia]. destruct E as (j & E). exfalso. apply (D j). exact E.
  - cbn. repeat split; auto. intros (j & D) _. exfalso. apply E. replace (q_count st + 1) with (j * S k) by lia. apply Nat.mod_mul. lia.
Qed.
Print Assumptions C93_double_steps.
(* neither scheme given: accepted, then every update of the target raises (both modes with a target) *)
Theorem C93_unset_refuted : forall m online target st o,
  m <> Vanilla -> same_shape online target -> n_params (q_target st) <> [] -> n_params o <> [] ->
  snd (dq_new m None None online target) = Ok tt /\ snd (dq_update m None None st (o, true)) = Err EType /\
  q_target (fst (dq_update m None None st (o, true))) = q_target st.
Proof.
  intros m online target st o M SH N1 N2. destruct m; [congruence| |]; unfold dq_new; rewrite hard_ok by auto; unfold dq_update.
  - rewrite soft_opt_none; auto.
  - auto.
Qed.
Print Assumptions C93_unset_refuted.
Example C93_nonvacuous :
  let n x := MkNet [[q x 1]] [] in
  let run m r k xs := let s := dq_run m r k (fst (dq_new m r k (n 9%Z) (n 0%Z))) xs in map this (concat (n_params (q_target s))) in
  let xs := [(n 4%Z, true); (n 2%Z, true); (n 8%Z, false); (n 6%Z, true)] in
  run Fixed_target (Some (q 1 2)) None xs = [QArith_base.Qmake 4 1]%Z /\
  run Double (Some (q 1 2)) None xs = [QArith_base.Qmake 4 1]%Z /\
  run Double None (Some 2) xs = [QArith_base.Qmake 2 1]%Z /\
  run Fixed_target None (Some 2) xs = [QArith_base.Qmake 0 1]%Z /\
  run Vanilla None (Some 2) xs = [QArith_base.Qmake 6 1]%Z.
Proof. vm_compute. repeat split. Qed.
