(* C164: which exception a malformed argument raises, and what was changed before it was raised. *)
From Coq Require Import QArith Qcanon.
From Verif Require Import Lib.Base Lib.Rat Model.Losses Model.Target.
From Verif Require Model.OnPolicy Model.Returns Model.ActorCritic Model.GymData Model.ParallelEnv Model.DdpInit Model.LoadSave
  Model.Launch Model.Servers Model.ResNet Model.Ars Model.Maddpg Model.RnnBuffer.
Close Scope Q_scope.
Open Scope nat_scope.
Set Implicit Arguments.

(* soft_update: RuntimeError at the first pair of parameters of different size; the pairs before it have been
   updated, the others have not *)
Lemma copy_zip_err f ts : forall ss ts' e, copy_zip f ts ss = (ts', Err e) ->
  e = ERuntime /\ exists i a b, nth_error ts i = Some a /\ nth_error ss i = Some b /\ length a <> length b /\
    length ts' = length ts /\ (forall j, i <= j -> nth_error ts' j = nth_error ts j) /\
    (forall j x y, j < i -> nth_error ts j = Some x -> nth_error ss j = Some y ->
       length x = length y /\ nth_error ts' j = Some (map2 f x y)).
Proof.
  induction ts as [|t ts IH]; intros [|s ss] ts' e; cbn [copy_zip]; try discriminate.
  destruct (Nat.eqb_spec (length t) (length s)) as [L|L].
  - destruct (copy_zip f ts ss) as [r x] eqn:E. intros H. injection H as <- ->.
    destruct (IH _ _ _ E) as (-> & i & a & b & A & B & N & LL & K & P). split; auto.
    exists (S i), a, b. split; [exact A|]. split; [exact B|]. split; [exact N|]. split; [cbn; congruence|]. split.
    + intros [|j] H; [lia|]. apply K. lia.
    + intros [|j] x y H X Y; [|apply P; auto; lia]. cbn in X, Y. injection X as ->. injection Y as ->. auto.
  - intros H. injection H as <- <-. split; auto. exists 0, t, s. repeat split; auto; intros; lia.
Qed.
Theorem C164_soft_update : forall rate t s t' e, soft_update rate t s = (t', Err e) ->
  e = ERuntime /\ n_bufs t' = n_bufs t /\
  exists i a b, nth_error (n_params t) i = Some a /\ nth_error (n_params s) i = Some b /\ length a <> length b /\
    forall j, i <= j -> nth_error (n_params t') j = nth_error (n_params t) j.
Proof.
  intros rate t s t' e. unfold soft_update. destruct (copy_zip _ _ _) as [p x] eqn:E. intros H. injection H as <- ->.
  destruct (copy_zip_err _ _ _ E) as (-> & i & a & b & A & B & N & _ & K & _). split; auto. split; auto.
  exists i, a, b. auto.
Qed.
Print Assumptions C164_soft_update.

(* MADDPG.optimizers = list: IndexError iff the list is too short; the ones that were given are installed *)
Lemma set_list_err {O} (l : list O) : forall new,
  length new < length l -> Model.OnPolicy.set_list l new = (new ++ skipn (length new) l, [], Err EIndex).
Proof.
  induction l as [|x l IH]; intros [|n new] H; cbn in *; try lia; auto. rewrite IH by lia. reflexivity.
Qed.
Lemma set_list_len {O} (l : list O) : forall new, length l <= length new ->
  Model.OnPolicy.set_list l new = (firstn (length l) new, skipn (length l) new, Ok tt).
Proof. induction l as [|x l IH]; intros [|n new] H; cbn in *; try lia; auto. rewrite IH by lia. reflexivity. Qed.
Lemma set_lists_err {O} (ls : list (list O)) : forall new,
  if length new <? length (concat ls) then snd (Model.OnPolicy.set_lists ls new) = Err EIndex
  else exists ls', Model.OnPolicy.set_lists ls new = (ls', skipn (length (concat ls)) new, Ok tt).
Proof.
  induction ls as [|l ls IH]; intros new; cbn [concat]; [cbn; eauto|]. rewrite app_length. cbn [Model.OnPolicy.set_lists].
  destruct (Nat.ltb_spec (length new) (length l + length (concat ls))) as [H|H].
  - destruct (Nat.ltb_spec (length new) (length l)) as [K|K]; [now rewrite set_list_err|].
    rewrite set_list_len by auto. specialize (IH (skipn (length l) new)).
    destruct (Nat.ltb_spec (length (skipn (length l) new)) (length (concat ls))) as [Q|Q]; [|rewrite skipn_length in Q; lia].
    destruct (Model.OnPolicy.set_lists ls _) as [[a b] c]. cbn in *. auto.
  - rewrite set_list_len by lia. specialize (IH (skipn (length l) new)).
    destruct (Nat.ltb_spec (length (skipn (length l) new)) (length (concat ls))) as [Q|Q]; [rewrite skipn_length in Q; lia|].
    destruct IH as (ls' & ->). exists (firstn (length l) new :: ls'). f_equal. f_equal.
    assert (SK : forall a b (l : list O), skipn b (skipn a l) = skipn (a + b) l).
    { induction a; intros b m; cbn; auto. destruct m; cbn; auto. now destruct b. }
    apply SK.
Qed.
Theorem C164_optimizers : forall O (s : Model.OnPolicy.optims O) new,
  let n := length (concat (Model.OnPolicy.actor_optims s)) + length (Model.OnPolicy.critic_optims s) in
  snd (Model.OnPolicy.set_optimizers s new) = if length new <? n then Err EIndex else Ok tt.
Proof.
  intros O s new. unfold Model.OnPolicy.set_optimizers. pose proof (set_lists_err (Model.OnPolicy.actor_optims s) new) as H.
  destruct (Nat.ltb_spec (length new) (length (concat (Model.OnPolicy.actor_optims s)))) as [L|L].
  - destruct (Model.OnPolicy.set_lists _ _) as [[a b] c]. cbn [snd] in H. subst c. cbn [snd].
    cbv zeta. destruct (Nat.ltb_spec (length new) (length (concat (Model.OnPolicy.actor_optims s)) + length (Model.OnPolicy.critic_optims s))); [auto|lia].
  - destruct H as (ls' & ->). cbv zeta.
    destruct (Nat.ltb_spec (length new) (length (concat (Model.OnPolicy.actor_optims s)) + length (Model.OnPolicy.critic_optims s))) as [Q|Q].
    + rewrite set_list_err; [reflexivity|]. rewrite skipn_length. lia.
    + rewrite set_list_len; [reflexivity|]. rewrite skipn_length. lia.
Qed.
Print Assumptions C164_optimizers.

(* Tensors of different sizes cannot be reduced: RuntimeError; nothing to reduce: RuntimeError *)
Theorem C164_reduce : forall m l e, Model.Servers.reduce_tensors m l = Err e ->
  e = ERuntime /\ (l = [] \/ exists a b, In a l /\ In b l /\ length a <> length b).
Proof.
  intros m [|x r] e; cbn [Model.Servers.reduce_tensors]; [intros H; injection H as <-; auto|].
  destruct (forallb (fun y : list Qc => length y =? length x) r) eqn:F; [discriminate|]. intros H. injection H as <-. split; auto. right.
  assert (G : exists y, In y r /\ length y <> length x).
  { revert F. clear. induction r as [|y r IH]; cbn; [discriminate|]. destruct (Nat.eqb_spec (length y) (length x)) as [E|E]; cbn.
    - intros F. destruct (IH F) as (z & I & N). eauto.
    - eauto. }
  destruct G as (y & I & N). exists y, x. split; [now right|]. split; [now left|exact N].
Qed.
Print Assumptions C164_reduce.

(* RAINBOW with one atom divides by zero, whatever the batch; other errors of the projection are indexes that are out of range *)
Lemma index_add_err idx : forall t src e, index_add t idx src = Err e ->
  e = EIndex /\ exists i, In i idx /\ ~ (0 <= i < Z.of_nat (length t))%Z.
Proof.
  induction idx as [|i idx IH]; intros t [|x src] e; cbn [index_add]; try discriminate.
  destruct (Z.ltb_spec i 0) as [A|A]; cbn [orb]; [intros H; injection H as <-; split; auto; exists i; split; [now left|lia]|].
  destruct (Z.leb_spec (Z.of_nat (length t)) i) as [B|B]; [intros H; injection H as <-; split; auto; exists i; split; [now left|lia]|].
  intros H. apply IH in H as (-> & j & J & N). rewrite upd_length in N. split; auto. exists j. split; [now right|auto].
Qed.
Theorem C164_projection : forall v_min v_max eps gamma_n atoms rows e,
  Model.Losses.project v_min v_max eps gamma_n atoms rows = Err e ->
  (atoms = 1 /\ e = EZeroDiv) \/ (atoms <> 1 /\ e = EIndex).
Proof.
  intros v_min v_max eps gamma_n atoms rows e. unfold project. destruct (Nat.eqb_spec atoms 1) as [->|N].
  - intros H. injection H as <-. auto.
  - intros H. right. split; auto. cbv zeta in H. destruct (index_add (repeat 0%Qc _) _ _) as [t1|e'] eqn:E1; cbn [bind] in H.
    + now apply index_add_err in H as (-> & _).
    + injection H as ->. now apply index_add_err in E1 as (-> & _).
Qed.
Print Assumptions C164_projection.
Theorem C164_one_atom : forall v_min v_max eps gamma_n rows,
  Model.Losses.project v_min v_max eps gamma_n 1 rows = Err EZeroDiv.
Proof. reflexivity. Qed.
Print Assumptions C164_one_atom.

(* IMPALA: the batch must consist of whole episodes *)
Theorem C164_impala : forall S discount clip_c clip_rho (V : S -> Qc) sim batch,
  let lengths := map (@Model.Returns.tr_len S) batch in
  (fold_right Nat.add 0 lengths <> length batch ->
     Model.Returns.im_targets discount clip_c clip_rho V sim batch = Err ERuntime) /\
  (fold_right Nat.add 0 lengths = length batch ->
     exists r, Model.Returns.im_targets discount clip_c clip_rho V sim batch = Ok r) /\
  Model.Returns.im_store (S := S) [] = Err EValue.
Proof.
  intros S discount clip_c clip_rho V sim batch lengths.
  assert (E : fold_right Nat.add 0 (filter (fun n => negb (n =? 0)) lengths) = fold_right Nat.add 0 lengths).
  { clearbody lengths. induction lengths as [|[|n] r IH]; cbn; auto. }
  unfold Model.Returns.im_targets. fold lengths. rewrite E. repeat split.
  - intros N. destruct (Nat.eqb_spec (fold_right Nat.add 0 lengths) (length batch)); [congruence|reflexivity].
  - intros ->. rewrite Nat.eqb_refl. cbn. eauto.
Qed.
Print Assumptions C164_impala.

(* actions of unusable shape *)
Definition elements {X} (t : Model.GymData.tensor X) : nat :=
  match t with
  | Model.GymData.Sca _ => 1 | Model.GymData.Vec l => length l | Model.GymData.Mat l => length (concat l)
  end.
Lemma item_err {X} (t : Model.GymData.tensor X) : elements t <> 1 -> Model.GymData.item t = Err EValue.
Proof.
  destruct t as [x|[|x [|y l]]|[|[|x [|y l]] [|b m]]]; cbn; try reflexivity; try (intros H; exfalso; apply H; reflexivity).
Qed.
Theorem C164_actions : forall X (k : Model.GymData.kind),
  (In k [Model.GymData.KA2c; Model.GymData.KPpo; Model.GymData.KSac; Model.GymData.KGail; Model.GymData.KA3c; Model.GymData.KImpala] ->
     Model.GymData.disc_choose (X := X) k (Model.GymData.Tup []) = Err EIndex /\
     forall t rest, elements t <> 1 -> Model.GymData.disc_choose (X := X) k (Model.GymData.Tup (t :: rest)) = Err EValue) /\
  (In k [Model.GymData.KDdpg; Model.GymData.KDdpgPer; Model.GymData.KHddpg; Model.GymData.KTd3; Model.GymData.KDdpgApex] ->
     (forall x, Model.GymData.disc_choose (X := X) k (Model.GymData.Bare (Model.GymData.Sca x)) = Err EType) /\
     (forall l, length l <> 2 -> Model.GymData.disc_choose (X := X) k (Model.GymData.Tup l) = Err EValue) /\
     (forall a b, elements a <> 1 -> Model.GymData.disc_choose (X := X) k (Model.GymData.Tup [a; b]) = Err EValue)) /\
  (In k [Model.GymData.KDqn; Model.GymData.KDqnPer; Model.GymData.KDqnApex; Model.GymData.KRainbow; Model.GymData.KArs] ->
     (forall l, Model.GymData.disc_choose (X := X) k (Model.GymData.Tup l) = Err EAttr) /\
     (forall t, elements t <> 1 -> Model.GymData.disc_choose (X := X) k (Model.GymData.Bare t) = Err EValue)) /\
  (forall l, Model.GymData.cont_choose (X := X) Model.GymData.KArs (Model.GymData.Tup l) = Err EAttr).
Proof.
  intros X k. repeat split.
  - destruct H as [<-|[<-|[<-|[<-|[<-|[<-|[]]]]]]]; reflexivity.
  - intros t rest N. destruct H as [<-|[<-|[<-|[<-|[<-|[<-|[]]]]]]]; cbn; rewrite (item_err t N); reflexivity.
  - intros x. destruct H as [<-|[<-|[<-|[<-|[<-|[]]]]]]; reflexivity.
  - intros l N. assert (Model.GymData.unpack2 (Model.GymData.Tup l) = Err EValue) as E
      by (destruct l as [|a [|b [|c r]]]; cbn in *; auto; lia).
    destruct H as [<-|[<-|[<-|[<-|[<-|[]]]]]]; cbn [Model.GymData.disc_choose]; rewrite E; reflexivity.
  - intros a b N. destruct H as [<-|[<-|[<-|[<-|[<-|[]]]]]]; cbn; rewrite (item_err a N); reflexivity.
  - intros l. destruct H as [<-|[<-|[<-|[<-|[<-|[]]]]]]; reflexivity.
  - intros t N. destruct H as [<-|[<-|[<-|[<-|[<-|[]]]]]]; cbn; rewrite (item_err t N); reflexivity.
Qed.
Print Assumptions C164_actions.

(* a call of environments that do not exist, or with too few commands: IndexError *)
Theorem C164_environments : forall (S Cmd R X : Type) (exec : nat -> S -> Cmd -> S * (R + X)) idxs cmds sched s,
  (exists i, In i idxs /\ length (Model.ParallelEnv.workers s) <= i) \/ length cmds < length idxs ->
  snd (Model.ParallelEnv.call exec idxs cmds sched s) = Model.ParallelEnv.PyError EIndex.
Proof.
  intros S Cmd R X exec idxs cmds sched s H. unfold Model.ParallelEnv.call.
  assert (G : snd (Model.ParallelEnv.put_all idxs cmds s) = Err EIndex).
  { revert cmds s H. induction idxs as [|i idxs IH]; intros [|c cmds] s H; cbn [Model.ParallelEnv.put_all].
    - destruct H as [(i & [] & _)|H]; cbn in H; lia.
    - destruct H as [(i & [] & _)|H]; cbn in H; lia.
    - reflexivity.
    - destruct (nth_error (Model.ParallelEnv.workers s) i) as [[e q]|] eqn:E; [|reflexivity].
      apply IH. cbn [Model.ParallelEnv.workers]. rewrite upd_length. destruct H as [(j & [<-|J] & L)|H]; eauto.
      + apply nth_error_None in L. congruence.
      + right. cbn in H. lia. }
  destruct (Model.ParallelEnv.put_all idxs cmds s) as [s' [u|e]]; cbn in *; congruence.
Qed.
Print Assumptions C164_environments.

(* no rank anywhere *)
Theorem C164_no_rank : forall c a p n size, Model.DdpInit.c_addr c = Some a -> Model.DdpInit.c_port c = Some p ->
  Model.DdpInit.c_size c = Some n -> Model.DdpInit.c_rank c = None ->
  Model.DdpInit.init_ddp_connection c false None size = Err EType.
Proof. intros c a p n size A P N R. unfold Model.DdpInit.init_ddp_connection. now rewrite A, P, N, R. Qed.
Print Assumptions C164_no_rank.

(* nothing to load: TypeError unless a version is named *)
Theorem C164_load_nothing : forall (C : Type) (d : Model.LoadSave.dir C) quiet st,
  Model.LoadSave.prep_load_model (Some d) [] None quiet st = (st, Err EType) /\
  forall z, Model.LoadSave.prep_load_model (Some d) [] (Some z) quiet st = (st, Ok tt).
Proof. split; reflexivity. Qed.
Print Assumptions C164_load_nothing.

(* empty episodes and batches *)
Theorem C164_empty : forall O (b : list O), Model.Launch.op_store b [] = (b, Err EIndex) /\
  Model.ActorCritic.ddpg_policy_loss [] = Err EValue /\
  forall n is, Model.Maddpg.sample_joint (T := O) n is [] = Err EIndex.
Proof. repeat split. Qed.
Print Assumptions C164_empty.

(* A network built by new() raises only RuntimeError on images of the right size, or ZeroDivisionError for pools of size 0 *)
Section ResNet.
  Import Model.ResNet.
  Lemma conv_err cin cout k s p x e : conv cin cout k s p x = Err e -> e = ERuntime.
  Proof. unfold conv. destruct (_ : bool); [discriminate|]. congruence. Qed.
  Lemma norm_err n c x e : norm_layer n c x = Err e -> e = ERuntime.
  Proof. destruct n; cbn; try discriminate. destruct (_ =? _)%Z; congruence. Qed.
  Lemma bind_err {A B} (a : res A) (f : A -> res B) e :
    (forall x, a = Err x -> x = ERuntime) -> (forall y x, f y = Err x -> x = ERuntime) -> bind a f = Err e -> e = ERuntime.
  Proof. destruct a; cbn; intros H1 H2 H; [eauto|]. injection H as ->. auto. Qed.
  Lemma block_err k n cin planes stride x e : block k n cin planes stride x = Err e -> e = ERuntime.
  Proof.
    unfold block. apply bind_err.
    - intros e'. destruct k; cbn [main_path]; repeat match goal with
        | |- bind _ _ = Err _ -> _ => apply bind_err; [intros e2 E2; first [exact (conv_err _ _ _ _ _ _ E2)|exact (norm_err _ _ _ E2)]|intros ? ?]
        end; intros E2; exact (norm_err _ _ _ E2).
    - intros y e'. apply bind_err.
      + intros e1. unfold shortcut. destruct (_ : bool); [|discriminate].
        apply bind_err; [intros; eapply conv_err; eassumption|intros; eapply norm_err; eassumption].
      + intros z e1. destruct (seqb y z); congruence.
  Qed.
  Lemma blocks_err k n planes bs : forall x e, run_blocks k n planes bs x = Err e -> e = ERuntime.
  Proof.
    induction bs as [|[c s] bs IH]; intros x e; cbn; [discriminate|].
    apply bind_err; [intros; eapply block_err; eassumption|intros; eapply IH; eassumption].
  Qed.
  Lemma layers_err k n ls : forall cur x e, run_layers k n cur ls x = Err e -> e = ERuntime.
  Proof.
    induction ls as [|[[planes num] stride] ls IH]; intros cur x e; cbn [run_layers]; [discriminate|].
    destruct (layer_blocks k cur planes (strides stride num)) as [bs c].
    apply bind_err; [intros; eapply blocks_err; eassumption|intros; eapply IH; eassumption].
  Qed.
  Theorem C164_resnet r x e : hh x = 224%Z -> ww x = 224%Z -> fst (r_pool r) <> 0%Z -> snd (r_pool r) <> 0%Z ->
    forward r x = Err e -> e = ERuntime.
  Proof.
    intros H W P Q. unfold forward. rewrite H, W. cbn [Z.eqb Pos.eqb andb].
    apply bind_err; [intros; eapply conv_err; eassumption|intros x1 e1].
    apply bind_err; [intros; eapply norm_err; eassumption|intros x2 e2].
    apply bind_err; [unfold maxpool; intros x3; destruct (_ : bool); congruence|intros x3 e3].
    apply bind_err; [intros; eapply layers_err; eassumption|intros x4 e4].
    rewrite (proj2 (Z.eqb_neq _ _) P), (proj2 (Z.eqb_neq _ _) Q). cbn [orb].
    apply bind_err; [unfold avgpool; intros x5; destruct (_ : bool); congruence|intros x5 e5].
    destruct (_ =? _)%Z; congruence.
  Qed.
End ResNet.
Print Assumptions C164_resnet.

(* ARS: members of which some have a filter and some have none, or a member without observations *)
Theorem C164_filters : forall D (sd : Qc -> D) ms e, Model.Ars.filter_round sd ms = Err e ->
  (e = EKey /\ In None ms /\ exists f, In (Some f) ms) \/
  (e = EOther /\ exists g, In (Some g) ms /\ Model.Ars.rn (Model.Ars.f_local g) = 0).
Proof.
  intros D sd [|mg ws] e; cbn [Model.Ars.filter_round]; [discriminate|].
  assert (SA : forall mf vs x, Model.Ars.sync_all sd mf vs = Err x -> x = EKey /\ mf = None /\ exists f, In (Some f) vs).
  { intros mf. induction vs as [|w r IH]; intros x; cbn; [discriminate|]. destruct w as [f|]; cbn.
    - destruct mf as [g|]; cbn.
      + destruct (Model.Ars.sync_all sd (Some g) r) eqn:E; cbn; [discriminate|]. intros H. injection H as ->.
        destruct (IH _ eq_refl) as (-> & Q & _). discriminate.
      + intros H. injection H as <-. eauto.
    - destruct (Model.Ars.sync_all sd mf r) eqn:E; cbn; [discriminate|]. intros H. injection H as ->.
      destruct (IH _ eq_refl) as (-> & -> & f & I). eauto. }
  destruct mg as [f|].
  - match goal with |- context [Model.Ars.collect_all ?a ?b] => destruct (Model.Ars.collect_all a b) eqn:C end.
    + intros H. injection H as <-. left. split; auto.
      assert (G : forall (l : list (Model.Ars.member D)) f0, Model.Ars.collect_all f0 l = Model.Ars.CErr D -> In None l).
      { induction l as [|[g|] l IH]; intros f0; cbn; [discriminate| |auto].
        destruct (Model.Ars.collect f0 g); [|discriminate]. eauto. }
      split; [eapply G; eauto|]. exists f. now left.
    + intros H. injection H as <-. right. split; auto.
      assert (G : forall (l : list (Model.Ars.member D)) f0, Model.Ars.collect_all f0 l = Model.Ars.CNan D -> exists g, In (Some g) l /\
                    Model.Ars.rn (Model.Ars.f_local g) = 0).
      { induction l as [|[g|] l IH]; intros f0; cbn; try discriminate. unfold Model.Ars.collect at 1.
        destruct (Model.Ars.merge (Model.Ars.f_rs f0) (Model.Ars.f_local g)) eqn:E.
        - intros H. destruct (IH _ H) as (g' & I & M). eauto.
        - intros _. exists g. split; auto. unfold Model.Ars.merge in E. cbv zeta in E.
          destruct (Nat.eqb_spec (Model.Ars.rn (Model.Ars.f_rs f0) + Model.Ars.rn (Model.Ars.f_local g)) 0); [lia|discriminate]. }
      eauto.
    + cbv zeta. destruct (Model.Ars.sync_all sd _ ws) eqn:E; cbn; [discriminate|]. apply SA in E as (_ & Q & _). discriminate.
  - destruct (Model.Ars.sync_all sd None ws) eqn:E; cbn; [discriminate|]. intros H. injection H as ->.
    apply SA in E as (-> & _ & f & I). left. split; auto. split; [now left|]. exists f. now right.
Qed.
Print Assumptions C164_filters.

Example C164_nonvacuous :
  Model.OnPolicy.set_optimizers (Model.OnPolicy.MkOpt [[1; 2]; [3]] [4]) [7; 8] =
    (Model.OnPolicy.MkOpt [[7; 8]; [3]] [4], Err EIndex) /\
  snd (soft_update 1%Qc (MkNet [[0%Qc]; [0%Qc; 0%Qc]] []) (MkNet [[1%Qc]; [1%Qc]] [])) = Err ERuntime /\
  Model.Servers.reduce_tensors Model.Servers.RSum [[1%Qc]; []] = Err ERuntime /\
  Model.GymData.disc_choose Model.GymData.KDqn (Model.GymData.Bare (Model.GymData.Vec [1; 2])) = Err EValue.
Proof. repeat split. Qed.
