(* C121-C123: constructors, configuration keys and learning rate schedulers. *)
From Coq Require Import Lia.
From Verif Require Import Lib.Base Model.Construct.
Set Implicit Arguments.

(* the number of argument tuples an algorithm uses *)
Definition tuples (a : algo) : nat :=
  match a with
  | Dqn | DqnPer | Rainbow | DqnApex | Ars | Gail => 1
  | Ddpg | DdpgPer | Hddpg | DdpgApex | A2c | Ppo | Trpo | Impala => 2
  | Td3 | Sac => 3
  end.
(* which of them belongs to each optimizer: one tuple per network (SAC: the two critics share one) *)
Definition tuple_of (a : algo) (o : nat) : nat := match a, o with Sac, 2 => 1 | Sac, 3 => 2 | _, o => o end.
Definition optimizers (a : algo) : nat := match a with Sac => 4 | _ => tuples a end.

Section C121.
  Context {A KW : Type} (a0 : A) (k0 : KW).
  (* ---- C121: a scheduler class without arguments means a scheduler with no extra arguments for every optimizer ---- *)
  Definition plain (a : algo) : list (nat * A * KW) := map (fun o => (o, a0, k0)) (seq 0 (optimizers a)).
  Theorem C121_none_partial a : a <> Impala -> schedulers a0 k0 a None None = Ok (plain a).
  Proof. destruct a; intros N; try reflexivity. congruence. Qed.
  Theorem C121_default_partial a : ~ In a [DqnApex; DdpgApex; Ppo; Trpo; Impala] -> schedulers_default a0 k0 a = Ok (plain a).
  Proof. destruct a; intros N; try reflexivity; exfalso; apply N; cbn; tauto. Qed.
  Theorem C121_refuted a : In a [DqnApex; DdpgApex; Ppo; Trpo; Impala] -> schedulers_default a0 k0 a = Err EIndex.
  Proof. intros [<-|[<-|[<-|[<-|[<-|[]]]]]]; reflexivity. Qed.
  Theorem C121_impala_refuted kwargs : schedulers a0 k0 Impala None kwargs = Err EType.
  Proof. reflexivity. Qed.
End C121.
Print Assumptions C121_none_partial.
Print Assumptions C121_default_partial.
Print Assumptions C121_refuted.
Print Assumptions C121_impala_refuted.
Example C121_nonvacuous :
  schedulers_default 0 0 A2c = Ok [(0, 0, 0); (1, 0, 0)] /\ schedulers_default 0 0 Ppo = Err EIndex /\ plain 0 0 Sac = [(0, 0, 0); (1, 0, 0); (2, 0, 0); (3, 0, 0)].
Proof. repeat split; reflexivity. Qed.

Section C122.
  Context {A KW : Type} (a0 : A) (k0 : KW).
  Lemma index_ok {B} (l : list B) i : i < length l -> exists x, index (Some l) i = Ok x /\ nth_error l i = Some x.
  Proof.
    intros H. unfold index. destruct (nth_error l i) as [x|] eqn:E; [eauto|]. apply nth_error_None in E. lia.
  Qed.
  (* ---- C122: every optimizer's scheduler gets the arguments at its position ---- *)
  Lemma fill_given {B} (d : B) n l : fill d n (Some l) = Some l.
  Proof. destruct n; reflexivity. Qed.
  Lemma wire_ok (args : list A) (kwargs : list KW) w : (forall o i, In (o, i) w -> i < length args /\ i < length kwargs) ->
    exists l, wire (Some args) (Some kwargs) w = Ok l /\ map (fun x => fst (fst x)) l = map fst w /\
      Forall2 (fun (x : nat * A * KW) (oi : nat * nat) => nth_error args (snd oi) = Some (snd (fst x)) /\ nth_error kwargs (snd oi) = Some (snd x)) l w.
  Proof.
    induction w as [|[o i] w IH]; intros H; [exists []; cbn; auto|].
    destruct (H o i (or_introl eq_refl)) as [Ha Hk].
    destruct (index_ok args Ha) as (a & Ea & Na). destruct (index_ok kwargs Hk) as (k & Ek & Nk).
    destruct IH as (l & El & Ml & Fl); [intros; apply (H o0); now right|].
    exists ((o, a, k) :: l). cbn [wire]. rewrite Ea. cbn [bind]. rewrite Ek. cbn [bind]. rewrite El. cbn.
    split; [reflexivity|]. split; [now rewrite Ml|]. constructor; cbn; auto.
  Qed.
  Theorem C122_positions_partial a args kwargs : tuples a <= length args -> tuples a <= length kwargs ->
    exists l, schedulers a0 k0 a (Some args) (Some kwargs) = Ok l /\
      map (fun x => fst (fst x)) l = seq 0 (optimizers a) /\
      forall o x k, In (o, x, k) l -> nth_error args (tuple_of a o) = Some x /\ nth_error kwargs (tuple_of a o) = Some k.
  Proof.
    intros Ha Hk. unfold schedulers. rewrite !fill_given.
    destruct (@wire_ok args kwargs (wiring a)) as (l & El & Ml & Fl).
    { intros o i Hi. assert (i < tuples a); [|lia].
      destruct a; cbn in Hi |- *; repeat (destruct Hi as [E|Hi]; [injection E as <- <-; lia|]); contradiction. }
    exists l. split; [exact El|]. split; [rewrite Ml; destruct a; reflexivity|].
    intros o x k Hin.
    assert (W : Forall (fun oi => snd oi = tuple_of a (fst oi)) (wiring a)) by (destruct a; cbn; repeat constructor).
    revert Hin Ml W. clear - Fl. induction Fl as [|[[o' x'] k'] [o2 i2] l w [H1 H2] Fl IH]; intros Hin Ml W; [destruct Hin|].
    inversion W as [|? ? W1 W2]; subst. cbn in *. injection Ml as -> Ml. destruct Hin as [E|Hin].
    - injection E as -> -> ->. subst i2. auto.
    - apply IH; auto.
  Qed.
  (* missing tuples: IndexError before any training *)
  Theorem C122_too_short a args kwargs : length args < tuples a -> schedulers a0 k0 a (Some args) kwargs = Err EIndex \/
    schedulers a0 k0 a (Some args) kwargs = Err EType.
  Proof.
    intros H. unfold schedulers. rewrite fill_given.
    destruct (fill k0 (none_length a) kwargs) as [ks|].
    - left. destruct args as [|x [|y [|z args]]]; destruct a; cbn in H |- *; try lia; auto;
        destruct ks as [|? [|? [|? ?]]]; reflexivity.
    - destruct args as [|x args]; [left|right]; destruct a; cbn in H |- *; try lia; reflexivity.
  Qed.
End C122.
Print Assumptions C122_positions_partial.
Print Assumptions C122_too_short.

(* MADDPG: the keyword arguments of a scheduler *)
Section Maddpg.
  Context {V K : Type}.
  (* the intended call: positional arguments and keyword arguments of the tuple at the agent's position *)
  Definition intended (args : list V) (kwargs : list (K * V)) (o : nat) : call := MkCall o (map (@PVal V K) args) kwargs.
  Theorem C122_maddpg_partial (optims : list nat) (args : list (list V)) : length args = length optims ->
    maddpg_critic_scheds optims args (repeat (@nil (K * V)) (length optims)) = map (fun x => intended (snd x) [] (fst x)) (combine optims args).
  Proof.
    revert args. induction optims as [|o os IH]; intros [|a args] H; try discriminate; [reflexivity|].
    cbn in *. rewrite <- IH by lia. unfold maddpg_critic_scheds at 1. cbn. unfold maddpg_call, intended. rewrite app_nil_r. reflexivity.
  Qed.
  Theorem C122_maddpg_actor_partial (optims : list (list nat)) (args : list (list V)) : length args = length optims ->
    maddpg_actor_scheds optims args (repeat (@nil (K * V)) (length optims)) =
    flat_map (fun x => map (intended (snd x) []) (fst x)) (combine optims args).
  Proof.
    revert args. induction optims as [|o os IH]; intros [|a args] H; try discriminate; [reflexivity|].
    cbn in *. rewrite <- IH by lia. unfold maddpg_actor_scheds at 1. cbn. f_equal. apply map_ext. intros x.
    unfold maddpg_call, intended. now rewrite app_nil_r.
  Qed.
  (* any keyword argument: its value reaches no scheduler, and its key arrives as a positional argument *)
  Theorem C122_refuted (args : list V) (kwargs : list (K * V)) o : kwargs <> [] ->
    maddpg_call args kwargs o <> intended args kwargs o /\ c_kw (maddpg_call args kwargs o) = [] /\
    (forall k v, In (k, v) kwargs -> In (PKey k) (c_pos (maddpg_call args kwargs o))) /\
    length (c_pos (maddpg_call args kwargs o)) = length args + length kwargs.
  Proof.
    intros N. repeat split.
    - intros E. apply N. unfold maddpg_call, intended in E. congruence.
    - intros k v H. cbn. apply in_or_app. right. change (PKey k) with ((fun kv : K * V => @PKey V K (fst kv)) (k, v)). now apply in_map.
    - cbn. now rewrite app_length, !map_length.
  Qed.
  (* fewer tuples than agents: the remaining agents silently have no scheduler *)
  Theorem C122_maddpg_short_refuted (optims : list nat) (args : list (list V)) (kwargs : list (list (K * V))) :
    length args < length optims -> length (maddpg_critic_scheds optims args kwargs) < length optims.
  Proof.
    intros H. unfold maddpg_critic_scheds. rewrite map_length.
    assert (L : length (zip3s optims args kwargs) <= length args); [|lia].
    clear H. revert args kwargs. induction optims as [|o os IH]; intros [|a args] [|k kwargs]; cbn; try lia.
    specialize (IH args kwargs). lia.
  Qed.
End Maddpg.
Print Assumptions C122_maddpg_partial.
Print Assumptions C122_maddpg_actor_partial.
Print Assumptions C122_refuted.
Print Assumptions C122_maddpg_short_refuted.
Example C122_nonvacuous :
  schedulers 0 0 Sac (Some [10; 20; 30]) (Some [1; 2; 3]) = Ok [(0, 10, 1); (1, 20, 2); (2, 20, 2); (3, 30, 3)] /\
  maddpg_critic_scheds [0; 1] [[5]; [6]] [[(100, 7)]; []] = [MkCall 0 [PVal 5; PKey 100] []; MkCall 1 [PVal 6] []].
Proof. split; reflexivity. Qed.

(* ---- C123: configuration keys and constructor parameters ---- *)
Section Keys.
  Context {K V : Type} `{Eqb K}.
  Implicit Types (sig kwargs : list (K * V)).
  Lemma bind_get sig kwargs k : dget k (bind_kwargs sig kwargs) =
    match dget k sig with None => None | Some d => Some (match dget k kwargs with Some v => v | None => d end) end.
  Proof.
    unfold bind_kwargs. induction sig as [|[k' d] sig IH]; [reflexivity|]. cbn [map fst snd dget].
    destruct (eqb_spec k k') as [->|N]; [reflexivity|exact IH].
  Qed.
  (* a key of the signature arrives, whatever the order and whatever else is in the configuration *)
  Theorem C123_arrives_partial sig kwargs k v : dget k sig <> None -> dget k kwargs = Some v ->
    dget k (bind_kwargs sig kwargs) = Some v.
  Proof. intros S E. rewrite bind_get, E. destruct (dget k sig); congruence. Qed.
  Theorem C123_default_partial sig kwargs k d : dget k sig = Some d -> dget k kwargs = None ->
    dget k (bind_kwargs sig kwargs) = Some d.
  Proof. intros S E. now rewrite bind_get, S, E. Qed.
  (* a key that is not a parameter is swallowed: changing it changes nothing *)
  Lemma bind_ignores sig kwargs k v : dget k sig = None -> bind_kwargs sig (dset k v kwargs) = bind_kwargs sig kwargs.
  Proof.
    intros N. unfold bind_kwargs. apply map_ext_in. intros [q d] Hin. cbn [fst snd]. f_equal.
    rewrite dget_dset_other; [reflexivity|]. intros E. subst q. revert N Hin.
    clear. induction sig as [|[a b] sig IH]; intros N Hin; [destruct Hin|]. cbn [dget] in N. destruct (eqb_spec k a) as [Ea|Na]; [discriminate|].
    destruct Hin as [E|Hin]; [congruence|auto].
  Qed.
End Keys.

(* every key of the generated configuration of DDPGApex but learning_rate sets its parameter *)
Theorem C123_ddpg_apex_partial {V} (default : ckey -> V) config k v : In k ddpg_apex_keys -> k <> KLearningRate ->
  dget k config = Some v -> dget k (ddpg_apex_init default config) = Some v.
Proof.
  intros Hk N E. apply C123_arrives_partial; [|exact E].
  destruct k; try congruence; cbn in Hk |- *; intuition congruence.
Qed.
(* learning_rate: whatever it is set to, the constructor's arguments, in particular both learning rates, are the same *)
Theorem C123_refuted {V} (default : ckey -> V) config v : In KLearningRate ddpg_apex_keys /\
  ddpg_apex_init default (dset KLearningRate v config) = ddpg_apex_init default config.
Proof. split; [cbn; auto 10|]. apply bind_ignores. reflexivity. Qed.
Print Assumptions C123_arrives_partial.
Print Assumptions C123_default_partial.
Print Assumptions C123_ddpg_apex_partial.
Print Assumptions C123_refuted.
Example C123_nonvacuous :
  let default k := match k with KActorLr => 5 | KCriticLr => 10 | _ => 0 end in
  dget KActorLr (ddpg_apex_init default [(KLearningRate, 77); (KBatchSize, 3)]) = Some 5 /\
  dget KCriticLr (ddpg_apex_init default [(KLearningRate, 77); (KBatchSize, 3)]) = Some 10 /\
  dget KBatchSize (ddpg_apex_init default [(KLearningRate, 77); (KBatchSize, 3)]) = Some 3.
Proof. repeat split; reflexivity. Qed.
