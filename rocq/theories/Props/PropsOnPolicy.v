(* C102-C107: ppo.py, gail.py, maddpg.py. *)
From Coq Require Import QArith Field.
From Verif Require Import Lib.Base Lib.Rat Model.Losses Model.ActorCritic Model.OnPolicy Props.PropsDqn Props.PropsActorCritic.
Close Scope Q_scope.
Open Scope nat_scope.

(* C102: the clipped surrogate *)
Theorem C102_surrogate : forall clip r a, (0 <= clip)%Qc ->
  let s := surrogate clip r a in
  ((0 <= a)%Qc -> (r <= 1 + clip)%Qc -> s = (r * a)%Qc) /\
  ((0 <= a)%Qc -> (1 + clip <= r)%Qc -> s = ((1 + clip) * a)%Qc) /\
  ((a <= 0)%Qc -> (1 - clip <= r)%Qc -> s = (r * a)%Qc) /\
  ((a <= 0)%Qc -> (r <= 1 - clip)%Qc -> s = ((1 - clip) * a)%Qc).
Proof.
  intros clip r a C. cbv zeta. unfold surrogate.
  assert (forall x y, (x <= y)%Qc -> (0 <= a)%Qc -> Qcmin (x * a) (y * a) = (x * a)%Qc /\ Qcmin (y * a) (x * a) = (x * a)%Qc) as MP.
  { intros x y L A. assert (x * a <= y * a)%Qc by (apply Qcmult_le_compat_r; auto). unfold Qcmin.
    split; qdec; auto; apply Qcle_antisym; qcl. }
  assert (forall x y, (x <= y)%Qc -> (a <= 0)%Qc -> Qcmin (x * a) (y * a) = (y * a)%Qc /\ Qcmin (y * a) (x * a) = (y * a)%Qc) as MN.
  { intros x y L A. assert (x * (- a) <= y * (- a))%Qc as X by (apply Qcmult_le_compat_r; auto; qcl).
    assert (forall z, z * (- a) = - (z * a))%Qc as E by (intros; ring). rewrite !E in X. unfold Qcmin.
    split; qdec; auto; apply Qcle_antisym; qcl. }
  assert ((r <= 1 - clip)%Qc -> clamp (1 - clip) (1 + clip) r = (1 - clip)%Qc) as K1.
  { intros. unfold clamp, Qcmin, Qcmax. qdec; try (apply Qcle_antisym; qcl); auto; qcl. }
  assert ((1 - clip <= r)%Qc -> (r <= 1 + clip)%Qc -> clamp (1 - clip) (1 + clip) r = r) as K2.
  { intros. unfold clamp, Qcmin, Qcmax. qdec; auto; apply Qcle_antisym; qcl. }
  assert ((1 + clip <= r)%Qc -> clamp (1 - clip) (1 + clip) r = (1 + clip)%Qc) as K3.
  { intros. unfold clamp, Qcmin, Qcmax. qdec; auto; apply Qcle_antisym; qcl. }
  repeat split; intros A B.
  - destruct (Qclt_le_dec r (1 - clip)); [rewrite K1 by qcl; apply MP; auto; qcl|rewrite K2; auto; unfold Qcmin; qdec; auto].
  - rewrite K3 by auto. now apply MP.
  - destruct (Qclt_le_dec (1 + clip) r); [rewrite K3 by qcl; apply MN; auto; qcl|rewrite K2; auto; unfold Qcmin; qdec; auto].
  - rewrite K1 by auto. now apply MN.
Qed.
Print Assumptions C102_surrogate.
Theorem C102_loss : forall clip w entropies ratios advs n,
  0 < n -> length ratios = n -> length advs = n ->
  let total := sumn (fun i => - surrogate clip (nth i ratios 0) (nth i advs 0))%Qc 0 n in
  (nq n * ppo_policy_loss clip None ratios advs = total)%Qc /\
  (nq n * ppo_policy_loss clip (Some (w, entropies)) ratios advs = total + nq n * w * mean_of entropies)%Qc.
Proof.
  intros clip w es rs advs n N L1 L2. cbv zeta. unfold ppo_policy_loss. set (rows := map2 _ rs advs).
  assert (length rows = n) as LR by (unfold rows; rewrite map2_len; lia).
  assert (qsum rows = sumn (fun i => - surrogate clip (nth i rs 0) (nth i advs 0))%Qc 0 n) as E.
  { rewrite <- sumn_qsum, LR. apply sumn_ext. intros k K. unfold rows. clear -K L1 L2. revert advs n k L1 L2 K.
    induction rs as [|r rs IH]; intros advs n k L1 L2 K; [cbn in *; lia|]. destruct advs, n; cbn in L1, L2; try lia.
    cbn [map2]. destruct k; [reflexivity|]. cbn [nth]. apply (IH advs n); lia. }
  assert (rows <> []) as NE by (destruct rows; cbn in *; [lia|congruence]). rewrite <- E. split.
  - rewrite <- LR. now apply mean_total.
  - set (rows' := map _ rows). assert (length rows' = n) as LR' by (unfold rows'; now rewrite map_length).
    rewrite <- LR' at 1. rewrite mean_total by (unfold rows'; destruct rows; [congruence|discriminate]).
    unfold rows'. rewrite <- LR. clear. induction rows as [|x rows IH]; cbn [map qsum length]; [rewrite nq_0; ring|].
    rewrite IH, nq_S. ring.
Qed.
Print Assumptions C102_loss.
Example C102_nonvacuous :
  surrogate (q 1 5) (q 2 1) (q 3 1) = q 18 5 /\ surrogate (q 1 5) (q 2 1) (q (-3) 1) = q (-6) 1 /\
  surrogate (q 1 5) (q 1 2) (q (-5) 1) = q (-4) 1 /\ surrogate (q 1 5) (q 1 2) (q 5 1) = q 5 2 /\
  ppo_policy_loss (q 1 5) (Some (q 2 1, [q 1 1; q 3 1])) [q 2 1; q 2 1] [q 3 1; q (-3) 1] = q 26 5.
Proof. repeat split; apply Qc_is_canon; reflexivity. Qed.

(* C103: every pass compares the actor with the one from before the update.  Full claim: and self.actor is the
   framework's own network again when update() ends, also when it ends with an exception. *)
Section C103.
  Context {N B : Type} (ok : N -> B -> bool) (train : N -> N -> B -> N).
  (* the actor after some passes *)
  Fixpoint trained (flag : bool) (old cur : N) (bs : list B) : N :=
    match bs with [] => cur | b :: r => trained flag old (if flag then train old cur b else cur) r end.
  Lemma passes_ok flag old bs : forall cur ev,
    (forall b, In b bs -> ok old b = true) -> (forall i b, nth_error bs i = Some b -> ok (trained flag old cur (firstn i bs)) b = true) ->
    ppo_passes ok train flag (MkPpo cur old Own Copy ev) bs =
    (MkPpo (trained flag old cur bs) old Own Copy (ev ++ map (fun i => (old, trained flag old cur (firstn i bs))) (seq 0 (length bs))), Ok tt).
  Proof.
    induction bs as [|b bs IH]; intros cur ev O W; [cbn; now rewrite app_nil_r|].
    cbn [ppo_passes]. unfold ppo_pass, swap. cbn [get at_actor at_tmp own cop evals].
    rewrite (O b) by (cbn; auto). rewrite (W 0 b eq_refl : ok cur b = true).
    assert (forall st' : N, st' = (if flag then train old cur b else cur) ->
      ppo_passes ok train flag (MkPpo st' old Own Copy (ev ++ [(old, cur)])) bs =
      (MkPpo (trained flag old cur (b :: bs)) old Own Copy
        (ev ++ map (fun i => (old, trained flag old cur (firstn i (b :: bs)))) (seq 0 (length (b :: bs)))), Ok tt)) as G.
    { intros st' ->. rewrite IH.
      - cbn [length seq map trained firstn]. rewrite <- seq_shift, map_map, <- app_assoc. reflexivity.
      - intros; apply O; cbn; auto.
      - intros i c E. apply (W (S i) c E). }
    destruct flag; apply G; reflexivity.
  Qed.
End C103.
Theorem C103_partial : forall (N B : Type) ok train flag (actor : N) (bs : list B),
  (forall b, In b bs -> ok actor b = true) ->
  (forall i b, nth_error bs i = Some b -> ok (trained train flag actor actor (firstn i bs)) b = true) ->
  exists s, ppo_actor_updates ok train flag actor bs = (s, Ok tt) /\ at_actor s = Own /\
    own s = trained train flag actor actor bs /\ length (evals s) = length bs /\
    forall i e, nth_error (evals s) i = Some e -> e = (actor, trained train flag actor actor (firstn i bs)).
Proof.
  intros N B ok train flag actor bs O W. unfold ppo_actor_updates. rewrite passes_ok by auto. eexists. split; [reflexivity|].
  cbn [at_actor own evals app]. repeat split; auto; [now rewrite map_length, seq_length|].
  intros i e E. rewrite nth_error_map in E. destruct (nth_error (seq 0 (length bs)) i) as [k|] eqn:K; [|discriminate].
  cbn in E. injection E as <-. assert (i < length (seq 0 (length bs))) as I by (apply nth_error_Some; congruence). rewrite seq_length in I.
  apply nth_error_nth with (d := 0) in K. rewrite seq_nth in K by auto. now subst k.
Qed.
Print Assumptions C103_partial.
Lemma ppo_passes_app (N B : Type) ok train flag bs (s : @ppo N) (cs : list B) :
  ppo_passes ok train flag s (bs ++ cs) =
  match ppo_passes ok train flag s bs with (s', Ok _) => ppo_passes ok train flag s' cs | (s', Err e) => (s', Err e) end.
Proof.
  revert s. induction bs as [|b bs IH]; intros s; auto. cbn [app ppo_passes].
  destruct (ppo_pass ok train flag s b) as [s' [[]|e]]; auto.
Qed.
(* an exception in the evaluation of the old policy leaves the framework with the copy: it acts with the old
   parameters from then on, while the optimizer owns the other network *)
Theorem C103_refuted : forall (N B : Type) ok train flag (actor : N) (bs rest : list B) b,
  (forall b, In b bs -> ok actor b = true) ->
  (forall i c, nth_error bs i = Some c -> ok (trained train flag actor actor (firstn i bs)) c = true) ->
  ok actor b = false ->
  exists s, ppo_actor_updates ok train flag actor (bs ++ b :: rest) = (s, Err ERuntime) /\ at_actor s = Copy /\
    get s (at_actor s) = actor /\ own s = trained train flag actor actor bs.
Proof.
  intros N B ok train flag actor bs rest b O W F. unfold ppo_actor_updates. rewrite ppo_passes_app, passes_ok by auto.
  cbn [ppo_passes]. unfold ppo_pass, swap. cbn [get at_actor at_tmp own cop evals]. rewrite F. eexists. split; [reflexivity|]. cbn. auto.
Qed.
Print Assumptions C103_refuted.
Example C103_nonvacuous :
  let ok := fun (n b : nat) => negb (b =? 9) in let train := fun old cur b : nat => cur + b in
  evals (fst (ppo_actor_updates ok train true 1 [2; 3; 4])) = [(1, 1); (1, 3); (1, 6)] /\
  own (fst (ppo_actor_updates ok train true 1 [2; 3; 4])) = 10 /\
  at_actor (fst (ppo_actor_updates ok train true 1 [2; 9; 4])) = Copy.
Proof. repeat split. Qed.

(* C104: normalised advantages are numbers that add up to zero.  Full claim: for every batch. *)
Theorem C104_partial : forall std eps adv, 2 <= length adv -> (std adv + eps <> 0)%Qc ->
  exists l, normalize std eps adv = map Some l /\ length l = length adv /\ qsum l = 0%Qc /\
    forall i, i < length adv -> (nth i l 0 * (std adv + eps) = nth i adv 0 - mean_of adv)%Qc.
Proof.
  intros std eps adv L NZ. unfold normalize. destruct (Nat.leb_spec (length adv) 1); [lia|].
  exists (map (fun a => (a - mean_of adv) / (std adv + eps))%Qc adv). set (d := (std adv + eps)%Qc) in *. set (m := mean_of adv).
  split; [now rewrite map_map|]. split; [apply map_length|]. split.
  - assert (forall l, qsum (map (fun a => (a - m) / d)%Qc l) = ((qsum l - nq (length l) * m) / d)%Qc) as SUM.
    { induction l as [|x l IH]; cbn [map qsum length]; [rewrite nq_0; field; auto|]. rewrite IH, nq_S. field. auto. }
    rewrite SUM. unfold m. rewrite mean_total by (destruct adv; [cbn in L; lia|discriminate]). field. auto.
  - intros i I. rewrite (nth_indep _ 0%Qc ((fun a => (a - m) / d)%Qc 0%Qc)) by (now rewrite map_length).
    rewrite (map_nth (fun a => (a - m) / d)%Qc). field. auto.
Qed.
Print Assumptions C104_partial.
(* a batch of one sample gives not a number, whatever eps *)
Theorem C104_refuted : forall std eps a, normalize std eps [a] = [None].
Proof. reflexivity. Qed.
Print Assumptions C104_refuted.
Example C104_nonvacuous : map (option_map this) (normalize (fun _ => q 1 1) (q 1 1) [q 1 1; q 5 1]) =
  [Some (QArith_base.Qmake (-1) 1); Some (QArith_base.Qmake 1 1)].
Proof. vm_compute. reflexivity. Qed.

(* C105: the discriminator of gail.py is trained and the actor is left alone.  Refuted: it is the other way round. *)
Theorem C105_refuted : forall (P G : Type) (step : P -> G -> P) grads s,
  let s' := disc_updates step true grads s in
  g_disc s' = g_disc s /\ g_actor s' = Nat.iter (length grads) (fun p => step p (g_actor_grad s)) (g_actor s) /\
  g_actor_grad s' = g_actor_grad s.
Proof.
  intros P G step grads. cbv zeta. unfold disc_updates.
  assert (forall n (f : P -> P) x, Nat.iter n f (f x) = f (Nat.iter n f x)) as IT.
  { induction n; intros; auto. change (Nat.iter (S n) f (f x)) with (f (Nat.iter n f (f x))). now rewrite IHn. }
  induction grads as [|g gs IH]; intros s; cbn [fold_left]; auto.
  destruct (IH (disc_pass step g s)) as (A & B & C). rewrite A, B, C. unfold disc_pass, optim_step, disc_optim.
  cbn [g_disc g_actor g_actor_grad length]. repeat split. apply (IT (length gs) (fun p => step p (g_actor_grad s))).
Qed.
Print Assumptions C105_refuted.
(* with update_discriminator off nothing happens *)
Theorem C105_off_partial : forall (P G : Type) (step : P -> G -> P) grads s, disc_updates step false grads s = s.
Proof. reflexivity. Qed.
Print Assumptions C105_off_partial.
Example C105_nonvacuous :
  let s := disc_updates (fun p g : nat => p + g) true [fun p => p + 1; fun p => p + 2] (MkPar 10 3 20 0) in
  g_disc s = 20 /\ g_actor s = 16.
Proof. split; reflexivity. Qed.

(* C106: every transition of an expert episode is stored.  Full claim: also those given as ExpertTransition, which
   the signature allows. *)
Definition content {T} (g : given T) : T := match g with AsDict t => t | AsTransition t => t end.
Definition is_dict {T} (g : given T) : bool := match g with AsDict _ => true | AsTransition _ => false end.
Theorem C106_partial : forall (T : Type) (episode : list (given T)),
  episode <> [] -> (forall g, In g episode -> is_dict g = true) -> store_expert_episode episode = Ok (map content episode).
Proof.
  intros T ep N H. unfold store_expert_episode. assert (expert_episode ep = map content ep) as ->.
  { clear N. induction ep as [|[t|t] ep IH]; auto; [|specialize (H _ (or_introl eq_refl)); discriminate].
    cbn. rewrite <- IH by (intros; apply H; cbn; auto). reflexivity. }
  destruct ep; [congruence|reflexivity].
Qed.
Print Assumptions C106_partial.
Theorem C106_refuted : forall (T : Type) (episode : list (given T)),
  store_expert_episode episode = (if existsb is_dict episode then Ok (map content (filter is_dict episode)) else Err EValue).
Proof.
  intros T ep. unfold store_expert_episode.
  assert (expert_episode ep = map content (filter is_dict ep)) as -> by (induction ep as [|[t|t] ep IH]; cbn; auto; now rewrite <- IH).
  assert (filter is_dict ep = [] <-> existsb is_dict ep = false) as F.
  { induction ep as [|[t|t] ep IH]; cbn; [tauto|split; discriminate|auto]. }
  destruct (existsb is_dict ep).
  - destruct (filter is_dict ep); [exfalso; assert (true = false) by (apply F; auto); discriminate|reflexivity].
  - destruct F as [_ F]. rewrite F; auto.
Qed.
Print Assumptions C106_refuted.
Example C106_nonvacuous :
  store_expert_episode [AsDict 1; AsTransition 2; AsDict 3] = Ok [1; 3] /\ store_expert_episode [AsTransition 2] = Err EValue.
Proof. split; reflexivity. Qed.

(* C107: assigning the optimizers of maddpg.py.  Full claim: setting what was read changes nothing. *)
Lemma get_optimizers_eq {O} (s : optims O) : get_optimizers s = critic_optims s ++ concat (actor_optims s).
Proof.
  unfold get_optimizers. generalize (critic_optims s). induction (actor_optims s) as [|a l IH]; intros c; cbn; [now rewrite app_nil_r|].
  now rewrite IH, app_assoc.
Qed.
Lemma set_list_ok {O} (l new rest : list O) : length new = length l -> set_list l (new ++ rest) = (new, rest, Ok tt).
Proof.
  revert new. induction l as [|x l IH]; intros [|n new] H; try discriminate; auto. cbn [set_list app].
  rewrite IH by (cbn in H; lia). reflexivity.
Qed.
Lemma set_lists_ok {O} (ls : list (list O)) : forall new rest, map (@length O) new = map (@length O) ls ->
  set_lists ls (concat new ++ rest) = (new, rest, Ok tt).
Proof.
  induction ls as [|l ls IH]; intros [|n new] rest H; try discriminate; auto. cbn [set_lists concat]. injection H as H1 H2.
  rewrite <- app_assoc, set_list_ok by auto. rewrite IH; auto.
Qed.
Theorem C107_partial : forall (O : Type) (s s' : optims O),
  map (@length O) (actor_optims s') = map (@length O) (actor_optims s) -> length (critic_optims s') = length (critic_optims s) ->
  set_optimizers s (concat (actor_optims s') ++ critic_optims s') = (s', Ok tt).
Proof.
  intros O s s' A C. unfold set_optimizers. rewrite set_lists_ok by auto.
  pose proof (set_list_ok (critic_optims s) (critic_optims s') [] C) as E. rewrite app_nil_r in E. rewrite E. now destruct s'.
Qed.
Print Assumptions C107_partial.
(* the critics come first when reading and last when writing: the first actor is given the first critic's optimizer *)
Theorem C107_refuted : forall (O : Type) (s : optims O) a rest ls c cs,
  actor_optims s = (a :: rest) :: ls -> critic_optims s = c :: cs ->
  exists s' a' rest' ls', set_optimizers s (get_optimizers s) = (s', Ok tt) /\ actor_optims s' = (a' :: rest') :: ls' /\ a' = c /\
    (a <> c -> s' <> s).
Proof.
  intros O s a rest ls c cs EA EC. rewrite get_optimizers_eq.
  assert (forall l : list O, length (concat (actor_optims s)) + length (critic_optims s) = length l ->
    exists new cr, l = concat new ++ cr /\ map (@length O) new = map (@length O) (actor_optims s) /\ length cr = length (critic_optims s)) as SPLIT.
  { generalize (actor_optims s) (length (critic_optims s)). clear. induction l as [|x ls IH]; intros n l H.
    - exists [], l. cbn in *. auto.
    - cbn in H. rewrite app_length in H. destruct (IH n (skipn (length x) l)) as (new & cr & E & M & L).
      { rewrite skipn_length. lia. }
      exists (firstn (length x) l :: new), cr. cbn. rewrite <- app_assoc, <- E, firstn_skipn, M. repeat split; auto.
      f_equal. apply firstn_length_le. lia. }
  destruct (SPLIT (critic_optims s ++ concat (actor_optims s))) as (new & cr & E & M & L); [rewrite app_length; lia|].
  rewrite E. exists (MkOpt new cr). rewrite EA in M. destruct new as [|n0 new]; [discriminate|]. destruct n0 as [|a' r']; [discriminate|].
  exists a', r', new. split; [|split; [reflexivity|]].
  - apply (C107_partial O s (MkOpt ((a' :: r') :: new) cr)); auto. cbn [actor_optims]. now rewrite EA.
  - rewrite EC in E. cbn in E. injection E as -> E. split; auto. intros NE F. rewrite <- F in EA. cbn in EA. injection EA as ->. now apply NE.
Qed.
Print Assumptions C107_refuted.
Example C107_nonvacuous :
  set_optimizers (MkOpt [[1; 2]; [3]] [4; 5]) (get_optimizers (MkOpt [[1; 2]; [3]] [4; 5])) = (MkOpt [[4; 5]; [1]] [2; 3], Ok tt).
Proof. reflexivity. Qed.
