(* C158 - C161: the order of operations in update(). *)
From Verif Require Export Model.UpdateTrace.
From Coq Require Import Lia.
Set Implicit Arguments.

(* ---- specification ---- *)
(* the optimizer steps asked for, as (network, pass), in the order of the losses *)
Definition passes (n : net) (k : nat) : list (net * nat) := map (fun i => (n, i)) (seq 0 k).
Definition wanted (f : flags) (a : alg) : list (net * nat) :=
  let v l := if f_value f then l else [] in
  let p l := if f_policy f then l else [] in
  match a with
  | DqnVanilla | DqnFixed | DqnDouble | DqnPer | Rainbow => v (passes Qnet 1)
  | Ddpg | Hddpg | DdpgPer => v (passes Critic 1) ++ p (passes Actor 1)
  | Td3 => v (passes Critic 1 ++ passes Critic2 1) ++ p (passes Actor 1)
  | Sac la => v (passes Critic 1 ++ passes Critic2 1) ++ p (passes Actor 1)
      ++ (if f_alpha f && la then passes Alpha 1 else [])
  | A2c ka kc | Ppo ka kc => p (passes Actor ka) ++ v (passes Critic kc)
  | Trpo z kc => if f_policy f && z then [] else v (passes Critic kc)
  | Impala => p (passes Actor 1) ++ v (passes Critic 1)
  end.
(* a step of a network: with the gradient of its own loss only, clipped; the temperature of SAC is not clipped *)
Definition fresh (x : net * nat) : net * list (net * nat) * bool :=
  (fst x, [x], match fst x with Alpha => false | _ => true end).
Definition due_targets (f : flags) (a : alg) : list net :=
  if f_target f && due f then
    match a with
    | DqnVanilla | A2c _ _ | Ppo _ _ | Trpo _ _ | Impala => []
    | DqnFixed | DqnDouble | DqnPer | Rainbow => [Qnet]
    | Ddpg | Hddpg | DdpgPer => [Actor; Critic]
    | Td3 => [Actor; Critic; Critic2]
    | Sac _ => [Critic; Critic2]
    end
  else [].
Definition is_trpo (a : alg) : bool := match a with Trpo _ _ => true | _ => false end.
Definition custom_alg (a : alg) : bool := match a with DqnVanilla | Td3 | Sac _ => false | _ => true end.
Definition on_policy (a : alg) : bool := match a with A2c _ _ | Ppo _ _ | Trpo _ _ => true | _ => false end.
Definition stopped (f : flags) (a : alg) : bool := match a with Trpo z _ => f_policy f && z | _ => false end.
Definition nets_of (a : alg) : list net :=
  match a with
  | DqnVanilla | DqnFixed | DqnDouble | DqnPer | Rainbow => [Qnet]
  | Td3 | Sac _ => [Actor; Critic; Critic2]
  | _ => [Actor; Critic]
  end.

(* ---- general facts about the machine ---- *)
Section General.
  Variables N L : Type.
  Context {EN : Eqb N} {EL : Eqb L}.
  Implicit Types (s : state N L) (os : list (op N L)).

  Lemma exec_app os1 os2 s : exec (os1 ++ os2) s = bind (exec os1 s) (exec os2).
  Proof. revert s. induction os1; intros s; cbn; auto. destruct (exec1 s a); cbn; auto. Qed.

  Definition changes (o : op N L) (n : N) : nat :=
    match o with Step m | Assign m => if eqb n m then 1 else 0 | _ => 0 end.
  Fixpoint total (os : list (op N L)) (n : N) : nat := match os with [] => 0 | o :: r => changes o n + total r n end.
  Definition mode1 (o : op N L) (n : N) (b : bool) : bool :=
    match o with Train m => if eqb n m then true else b | Evl m => if eqb n m then false else b | _ => b end.
  Fixpoint mode (os : list (op N L)) (n : N) (b : bool) : bool := match os with [] => b | o :: r => mode r n (mode1 o n b) end.
  Definition is_clear (o : op N L) : bool := match o with Clear => true | _ => false end.

  Lemma exec1_ok s o s' : exec1 s o = Ok s' ->
    (forall n, version s' n = version s n + changes o n) /\ (forall n, training s' n = mode1 o n (training s n))
    /\ cleared s' = cleared s || is_clear o.
  Proof.
    destruct s as [v g c gr tr cl st ba tg], o; cbn; intros H;
    repeat match type of H with context [match ?x with _ => _ end] => destruct x; try discriminate end;
    inversion H; subst; cbn; unfold fset; repeat split; intros; try lia; try (rewrite orb_false_r; auto);
    try (destruct (eqb n0 n) eqn:E; destruct (eqb_spec n0 n); subst; try lia; congruence); auto.
  Qed.
  Lemma exec_ok os s s' : exec os s = Ok s' ->
    (forall n, version s' n = version s n + total os n) /\ (forall n, training s' n = mode os n (training s n))
    /\ cleared s' = cleared s || existsb is_clear os.
  Proof.
    revert s. induction os as [|o os IH]; cbn; intros s H.
    - inversion H; subst. repeat split; intros; try lia. rewrite orb_false_r. auto.
    - destruct (exec1 s o) as [s1|] eqn:E; cbn in H; [|discriminate].
      destruct (exec1_ok _ _ E) as (A & B & C). destruct (IH _ H) as (A' & B' & C').
      repeat split; intros.
      + rewrite A', A. lia.
      + rewrite B', B. auto.
      + rewrite C', C. destruct (cleared s), (is_clear o); auto.
  Qed.
  Lemma total_app os1 os2 n : total (os1 ++ os2) n = total os1 n + total os2 n.
  Proof. induction os1; cbn; auto. lia. Qed.
  Lemma mode_app os1 os2 n b : mode (os1 ++ os2) n b = mode os2 n (mode os1 n b).
  Proof. revert b. induction os1; cbn; auto. Qed.

  (* what a piece of code adds to the records, from every state *)
  Definition adds (os : list (op N L)) (st : list (N * list L * bool)) (ba : list (L * bool)) (tg : list N) : Prop :=
    forall s, exists s', exec os s = Ok s' /\ steps s' = steps s ++ st /\ backs s' = backs s ++ ba
      /\ targets s' = targets s ++ tg.
  Lemma adds_nil : adds [] [] [] [].
  Proof. intros s. exists s. cbn. rewrite !app_nil_r. auto. Qed.
  Lemma adds_app os1 os2 st1 st2 ba1 ba2 tg1 tg2 :
    adds os1 st1 ba1 tg1 -> adds os2 st2 ba2 tg2 -> adds (os1 ++ os2) (st1 ++ st2) (ba1 ++ ba2) (tg1 ++ tg2).
  Proof.
    intros A B s. destruct (A s) as (s1 & E1 & H1 & H2 & H3). destruct (B s1) as (s2 & E2 & K1 & K2 & K3).
    exists s2. rewrite exec_app, E1. cbn. rewrite K1, K2, K3, H1, H2, H3, !app_assoc. auto.
  Qed.
  Lemma adds_flat {A} (h : A -> list (op N L)) st ba l :
    (forall x, adds (h x) (st x) (ba x) []) -> adds (flat_map h l) (flat_map st l) (flat_map ba l) [].
  Proof.
    intros H. induction l; cbn; [apply adds_nil|]. change (@nil N) with (@nil N ++ []) at 1. apply adds_app; auto.
  Qed.
End General.

Ltac whole := intros [v g c gr tr cl st ba tg]; eexists;
  repeat (cbn; unfold fset, unclip, add_grad; cbn; rewrite ?Nat.eqb_refl); cbn;
  split; [reflexivity|]; cbn; repeat split; rewrite ?app_nil_r, <- ?app_assoc; reflexivity.

Lemma pass_adds b n i :
  adds (pass b n i) (if b then [(n, [(n, i)], true)] else []) (if b then [((n, i), true)] else []) [].
Proof.
  destruct b, n; intros [v g c gr tr cl st ba tg]; eexists;
  repeat (cbn; unfold fset, unclip, add_grad; cbn; rewrite ?Nat.eqb_refl); cbn;
  (split; [reflexivity|]); cbn; rewrite ?Nat.eqb_refl, ?app_nil_r; repeat split; reflexivity.
Qed.

Definition back_of (a : alg) (x : net * nat) : (net * nat) * bool := (x, custom_alg a).

Lemma flat_one {A B} (h : A -> B) l : flat_map (fun x => [h x]) l = map h l.
Proof. induction l; cbn; congruence. Qed.
Lemma flat_none {A B} (l : list A) : flat_map (fun _ => @nil B) l = [].
Proof. induction l; auto. Qed.
Lemma loop_adds b n k : n <> Alpha ->
  adds (flat_map (pass b n) (seq 0 k)) (map fresh (if b then passes n k else []))
    (map (fun x => (x, true)) (if b then passes n k else [])) [].
Proof.
  intros Hn. assert (H := @adds_flat net (net * nat) _ _ nat (pass b n) _ _ (seq 0 k) (fun i => pass_adds b n i)).
  destruct b.
  - rewrite !flat_one in H. unfold passes. rewrite !map_map. unfold fresh. cbn.
    destruct n; try congruence; exact H.
  - rewrite !flat_none in H. exact H.
Qed.

Lemma adds_eq (os : list (op net (net * nat))) st ba tg st' ba' tg' :
  adds os st ba tg -> st = st' -> ba = ba' -> tg = tg' -> adds os st' ba' tg'.
Proof. intros H <- <- <-. exact H. Qed.

Lemma a2c_adds f ka kc : adds (a2c_update f ka kc) (map fresh (wanted f (A2c ka kc)))
  (map (fun x => (x, true)) (wanted f (A2c ka kc))) [].
Proof.
  eapply adds_eq.
  - unfold a2c_update. eapply (adds_app (st1 := []) (ba1 := []) (tg1 := [])); [whole|].
    eapply adds_app; [apply loop_adds; discriminate|].
    eapply (adds_app (st2 := []) (ba2 := []) (tg2 := [])); [apply loop_adds; discriminate|whole].
  - cbn [wanted]. rewrite map_app, app_nil_r. reflexivity.
  - cbn [wanted]. rewrite map_app, app_nil_r. reflexivity.
  - reflexivity.
Qed.
Lemma adds_eq' (os os' : list (op net (net * nat))) st ba tg st' ba' tg' :
  adds os st ba tg -> os = os' -> st = st' -> ba = ba' -> tg = tg' -> adds os' st' ba' tg'.
Proof. intros H <- <- <- <-. exact H. Qed.
Lemma quiet_adds (os : list (op net (net * nat))) :
  Forall (fun o => match o with Train _ | Evl _ => True | _ => False end) os -> adds os [] [] [].
Proof.
  induction 1 as [|o os Ho _ IH]; [apply adds_nil|]. change (o :: os) with ([o] ++ os).
  apply (adds_app (st1 := []) (ba1 := []) (tg1 := [])); [|exact IH]. destruct o; try contradiction; whole.
Qed.
Lemma target_adds b (ns : list net) : adds (cond b (map (@Target net (net * nat)) ns)) [] [] (if b then ns else []).
Proof.
  destruct b; [|apply adds_nil]. cbn. induction ns as [|n ns IH]; [apply adds_nil|]. cbn [map].
  change (Target n :: map Target ns) with ([@Target net (net * nat) n] ++ map Target ns).
  apply (adds_app (st1 := []) (ba1 := []) (tg1 := [n])); [whole|exact IH].
Qed.
Lemma one_adds cu b n ns : match n, ns with
    | Qnet, [Qnet] | Actor, [Actor] | Critic, [Critic] | Actor, [Actor; Critic] | Actor, [Actor; Critic; Critic2] => True
    | _, _ => False end ->
  adds (Compute (n, 0) ns :: cond b (train_net cu n (n, 0))) (if b then [(n, [(n, 0)], true)] else [])
    (if b then [((n, 0), cu)] else []) [].
Proof.
  intros H. destruct n; try contradiction; repeat (destruct ns as [|[] ns]; try contradiction); destruct b; whole.
Qed.
Lemma twin_adds b :
  adds ([Compute (Critic, 0) [Critic]; Compute (Critic2, 0) [Critic2]]
        ++ cond b (train_net false Critic (Critic, 0) ++ train_net false Critic2 (Critic2, 0)))
    (if b then [(Critic, [(Critic, 0)], true); (Critic2, [(Critic2, 0)], true)] else [])
    (if b then [((Critic, 0), false); ((Critic2, 0), false)] else []) [].
Proof. destruct b; whole. Qed.
Lemma pair_adds bp bv :
  adds ([Compute (Actor, 0) [Actor]; Compute (Critic, 0) [Critic]]
        ++ cond bp (train_net true Actor (Actor, 0)) ++ cond bv (train_net true Critic (Critic, 0)))
    ((if bp then [(Actor, [(Actor, 0)], true)] else []) ++ (if bv then [(Critic, [(Critic, 0)], true)] else []))
    ((if bp then [((Actor, 0), true)] else []) ++ (if bv then [((Critic, 0), true)] else [])) [].
Proof. destruct bp, bv; whole. Qed.
Lemma alpha_adds b :
  adds (cond b [Compute (Alpha, 0) [Alpha]; Zero Alpha; Back false (Alpha, 0); Step Alpha])
    (if b then [(Alpha, [(Alpha, 0)], false)] else []) (if b then [((Alpha, 0), false)] else []) [].
Proof. destruct b; [whole|apply adds_nil]. Qed.
Lemma q_adds f c t : adds (q_update f c t) (if f_value f then [(Qnet, [(Qnet, 0)], true)] else [])
  (if f_value f then [((Qnet, 0), c)] else []) (if t && f_target f && due f then [Qnet] else []).
Proof.
  eapply adds_eq'.
  - eapply adds_app; [apply (quiet_adds (os := [Train Qnet])); repeat constructor|].
    eapply adds_app; [apply (one_adds c (f_value f) Qnet [Qnet]); exact I|].
    eapply adds_app; [apply (target_adds (t && f_target f && due f) [Qnet])|].
    apply (quiet_adds (os := [Evl Qnet])); repeat constructor.
  - reflexivity.
  - rewrite !app_nil_r. reflexivity.
  - rewrite !app_nil_r. reflexivity.
  - rewrite app_nil_r. reflexivity.
Qed.
Lemma update_adds f a : adds (update f a) (map fresh (wanted f a)) (map (back_of a) (wanted f a)) (due_targets f a).
Proof.
  assert (D : forall f, (if f_target f && due f then [] else []) = @nil net) by (intros f'; destruct (_ && _); auto).
  destruct a as [| | | | | | | | |la|ka kc|ka kc|z kc|].
  1-5: eapply adds_eq; [apply q_adds| | |]; destruct f as [fv fp ft fa du]; destruct fv, ft, du; reflexivity.
  1-3: (eapply adds_eq';
    [eapply adds_app; [apply (quiet_adds (os := [Train Actor; Train Critic])); repeat constructor|];
     eapply adds_app; [apply (one_adds true (f_value f) Critic [Critic]); exact I|];
     eapply adds_app; [apply (one_adds true (f_policy f) Actor [Actor; Critic]); exact I|];
     eapply adds_app; [apply (target_adds (f_target f && due f) [Actor; Critic])|];
     apply (quiet_adds (os := [Evl Actor; Evl Critic])); repeat constructor| | | |];
    destruct f as [fv fp ft fa du]; destruct fv, fp, ft, du; reflexivity).
  - eapply adds_eq';
    [eapply adds_app; [apply (quiet_adds (os := [Train Actor; Train Critic; Train Critic2])); repeat constructor|];
     eapply adds_app; [apply (twin_adds (f_value f))|];
     eapply adds_app; [apply (one_adds false (f_policy f) Actor [Actor; Critic]); exact I|];
     eapply adds_app; [apply (target_adds (f_target f && due f) [Actor; Critic; Critic2])|];
     apply (quiet_adds (os := [Evl Actor; Evl Critic; Evl Critic2])); repeat constructor| | | |];
    destruct f as [fv fp ft fa du]; destruct fv, fp, ft, du; reflexivity.
  - eapply adds_eq';
    [eapply adds_app; [apply (quiet_adds (os := [Train Actor; Train Critic; Train Critic2])); repeat constructor|];
     eapply adds_app; [apply (twin_adds (f_value f))|];
     eapply adds_app; [apply (one_adds false (f_policy f) Actor [Actor; Critic; Critic2]); exact I|];
     eapply adds_app; [apply (target_adds (f_target f && due f) [Critic; Critic2])|];
     eapply adds_app; [apply (alpha_adds (f_alpha f && la))|];
     apply (quiet_adds (os := [Evl Actor; Evl Critic; Evl Critic2])); repeat constructor| | | |];
    destruct f as [fv fp ft fa du]; destruct fv, fp, ft, du, fa, la; reflexivity.
  - eapply adds_eq; [apply (a2c_adds f ka kc)| | |]; unfold due_targets; rewrite ?D; reflexivity.
  - eapply adds_eq; [apply (a2c_adds f ka kc)| | |]; unfold due_targets; rewrite ?D; reflexivity.
  - eapply adds_eq.
    + unfold update, trpo_update. eapply (adds_app (st1 := []) (ba1 := []) (tg1 := [])); [whole|].
      instantiate (1 := []).
      instantiate (1 := map (fun x => (x, true)) (wanted f (Trpo z kc))).
      instantiate (1 := map fresh (wanted f (Trpo z kc))). cbn [wanted].
      destruct (f_policy f && z) eqn:E; [whole|].
      eapply (adds_app (st1 := []) (ba1 := []) (tg1 := [])); [destruct (f_policy f); whole|].
      eapply adds_eq; [eapply (adds_app (st2 := []) (ba2 := []) (tg2 := [])); [apply loop_adds; discriminate|whole]| | |];
      rewrite ?app_nil_r; reflexivity.
    + reflexivity.
    + reflexivity.
    + unfold due_targets. rewrite D. reflexivity.
  - eapply adds_eq';
    [eapply adds_app; [apply (quiet_adds (os := [Train Actor; Train Critic])); repeat constructor|];
     eapply adds_app; [apply (pair_adds (f_policy f) (f_value f))|];
     apply (quiet_adds (os := [Evl Actor; Evl Critic])); repeat constructor| | | |];
    destruct f as [fv fp ft fa du]; destruct fv, fp, ft, du; reflexivity.
Qed.

(* ---- C158 ---- *)
Theorem C158_steps : forall (a : alg) (f : flags) (s : state net (net * nat)),
  exists s', exec (update f a) s = Ok s'
    /\ steps s' = steps s ++ map fresh (wanted f a) /\ targets s' = targets s ++ due_targets f a.
Proof. intros a f s. destruct (update_adds f a s) as (s' & H & H1 & H2 & H3). eauto. Qed.
Print Assumptions C158_steps.

Lemma total_loop b n k m o : total (flat_map (pass b n) (seq o k)) m = if b && eqb m n then k else 0.
Proof.
  revert o. induction k; intros o; cbn [seq flat_map]; [destruct (_ && _); auto|].
  rewrite total_app, IHk. destruct b; cbn; [|auto]. destruct (match m with Qnet => _ | _ => _ end); auto.
Qed.
(* the parameters of a network change exactly with its own steps (and the line search of TRPO for the actor) *)
Theorem C158_only : forall (a : alg) (f : flags) (s s' : state net (net * nat)) (n : net),
  exec (update f a) s = Ok s' ->
  version s' n = version s n + length (filter (fun x => eqb (fst x) n) (wanted f a))
    + (if is_trpo a && eqb n Actor && f_policy f && negb (stopped f a) then 1 else 0).
Proof.
  intros a f s s' n H. destruct (exec_ok _ _ H) as (V & _). rewrite V. clear V H. rewrite <- Nat.add_assoc. f_equal.
  assert (P : forall m k, length (filter (fun x : net * nat => eqb (fst x) n) (passes m k)) = if eqb m n then k else 0).
  { intros m k. unfold passes. generalize 0 at 1 as o. induction k; intros o; cbn [seq map filter fst].
    - destruct (eqb m n); auto.
    - destruct (eqb m n) eqn:E; cbn [length]; rewrite IHk; auto. }
  assert (Y : forall m, eqb n m = eqb m n) by (intros m; destruct (eqb_spec n m), (eqb_spec m n); congruence).
  destruct f as [fv fp ft fa du], a as [| | | | | | | | |la|ka kc|ka kc|z kc|].
  1-9: destruct fv, fp, ft, du, n; reflexivity.
  - destruct fv, fp, ft, fa, du, la, n; reflexivity.
  - unfold update, a2c_update. rewrite !total_app, !total_loop. cbn [wanted]. rewrite filter_app, app_length.
    cbn [f_policy f_value is_trpo andb]. destruct fp, fv; rewrite ?P; destruct n; cbn; lia.
  - unfold update, a2c_update. rewrite !total_app, !total_loop. cbn [wanted]. rewrite filter_app, app_length.
    cbn [f_policy f_value is_trpo andb]. destruct fp, fv; rewrite ?P; destruct n; cbn; lia.
  - unfold update, trpo_update. rewrite total_app. destruct z.
    + destruct fp; cbn [f_policy andb].
      * destruct n; reflexivity.
      * rewrite !total_app, total_loop. cbn [wanted f_policy f_value andb]. destruct fv; rewrite ?P; destruct n; cbn; lia.
    + rewrite andb_false_r. rewrite !total_app, total_loop. cbn [wanted f_policy f_value andb]. rewrite andb_false_r.
      destruct fv, fp; rewrite ?P; destruct n; cbn; lia.
  - destruct fv, fp, ft, du, n; reflexivity.
Qed.
Print Assumptions C158_only.

(* ---- C159 ---- *)
Lemma mode_loop b n k m x : mode (flat_map (pass b n) (seq 0 k)) m x = x.
Proof.
  revert x. generalize 0 as o. induction k; intros o x; cbn [seq flat_map]; auto. rewrite mode_app, IHk. destruct b; reflexivity.
Qed.
Lemma clear_loop b n k : existsb (@is_clear net (net * nat)) (flat_map (pass b n) (seq 0 k)) = false.
Proof.
  generalize 0 as o. induction k; intros o; cbn [seq flat_map]; auto. rewrite existsb_app, IHk. destruct b; reflexivity.
Qed.
Theorem C159_partial : forall (a : alg) (f : flags) (s s' : state net (net * nat)),
  exec (update f a) s = Ok s' -> stopped f a = false ->
  (forall n, In n (nets_of a) -> training s' n = false)
  /\ (forall n, ~ In n (nets_of a) -> training s' n = training s n)
  /\ cleared s' = (cleared s || on_policy a).
Proof.
  intros a f s s' H Hs. destruct (exec_ok _ _ H) as (_ & T & C). clear H.
  setoid_rewrite T. rewrite C. clear T C.
  destruct f as [fv fp ft fa du], a as [| | | | | | | | |la|ka kc|ka kc|z kc|].
  Ltac finite := split; [intros n Hn; cbn in Hn; intuition (subst; reflexivity) |
     split; [intros n Hn; destruct n; cbn in Hn; tauto || reflexivity | reflexivity]].
  1-9, 14: destruct fv, fp, ft, du; finite.
  - destruct fv, fp, ft, du, fa, la; finite.
  - unfold update, a2c_update. rewrite !existsb_app, !clear_loop. setoid_rewrite mode_app. setoid_rewrite mode_app.
    setoid_rewrite mode_app. setoid_rewrite mode_loop. setoid_rewrite mode_loop.
    split; [intros n [<-|[<-|[]]]; reflexivity|]. split; [|reflexivity]. intros n Hn. destruct n; cbn in Hn; tauto || reflexivity.
  - unfold update, a2c_update. rewrite !existsb_app, !clear_loop. setoid_rewrite mode_app. setoid_rewrite mode_app.
    setoid_rewrite mode_app. setoid_rewrite mode_loop. setoid_rewrite mode_loop.
    split; [intros n [<-|[<-|[]]]; reflexivity|]. split; [|reflexivity]. intros n Hn. destruct n; cbn in Hn; tauto || reflexivity.
  - cbn [stopped f_policy] in Hs. unfold update, trpo_update. cbn [f_policy]. rewrite Hs.
    rewrite !existsb_app, !clear_loop. setoid_rewrite mode_app. setoid_rewrite mode_app. setoid_rewrite mode_app.
    setoid_rewrite mode_loop.
    destruct fp; (split; [intros n [<-|[<-|[]]]; reflexivity|]; split;
      [intros n Hn; destruct n; cbn in Hn; tauto || reflexivity | reflexivity]).
Qed.
Print Assumptions C159_partial.
(* TRPO with a zero policy gradient: the networks are left in training mode, the buffer is not cleared, and the critic
   is not trained though it was asked for *)
Theorem C159_refuted : forall (kc : nat) (f : flags) (s : state net (net * nat)),
  f_policy f = true ->
  exists s', exec (update f (Trpo true kc)) s = Ok s'
    /\ training s' Actor = true /\ training s' Critic = true /\ cleared s' = cleared s
    /\ steps s' = steps s /\ version s' Critic = version s Critic.
Proof.
  intros kc [fv fp ft fa du] [v g c gr tr cl st ba tg] E. cbn in E. subst fp. cbn.
  eexists. split; [reflexivity|]. cbn. auto.
Qed.
Print Assumptions C159_refuted.

(* ---- C161 ---- *)
Theorem C161_exact : forall (a : alg) (f : flags) (s : state net (net * nat)),
  exists s', exec (update f a) s = Ok s'
    /\ backs s' = backs s ++ map (fun x => (x, custom_alg a)) (wanted f a).
Proof. intros a f s. destruct (update_adds f a s) as (s' & H & H1 & H2 & H3). eauto. Qed.
Print Assumptions C161_exact.
Theorem C161_partial : forall (a : alg) (f : flags) (s s' : state net (net * nat)),
  a <> DqnVanilla -> a <> Td3 -> (forall la, a <> Sac la) ->
  exec (update f a) s = Ok s' ->
  exists new, backs s' = backs s ++ new /\ map fst new = wanted f a /\ (forall x, In x new -> snd x = true).
Proof.
  intros a f s s' H1 H2 H3 E. destruct (C161_exact a f s) as (s2 & E2 & B). rewrite E2 in E. inversion E; subst.
  exists (map (fun x => (x, custom_alg a)) (wanted f a)). split; [exact B|]. split.
  - rewrite map_map. cbn. apply map_id.
  - intros x Hx. apply in_map_iff in Hx. destruct Hx as (y & <- & _). cbn.
    destruct a; try reflexivity; exfalso; first [now apply H1 | now apply H2 | now apply (H3 _ eq_refl)].
Qed.
Print Assumptions C161_partial.
(* in these frameworks no loss ever goes through the function that was set *)
Theorem C161_refuted : forall (a : alg) (f : flags) (s : state net (net * nat)),
  (a = DqnVanilla \/ a = Td3 \/ exists la, a = Sac la) -> f_value f = true ->
  exists s' new, exec (update f a) s = Ok s' /\ backs s' = backs s ++ new /\ new <> []
    /\ (forall x, In x new -> snd x = false).
Proof.
  intros a f s Ha Hv. destruct (C161_exact a f s) as (s' & E & B). do 2 eexists. split; [exact E|]. split; [exact B|].
  split.
  - destruct Ha as [->|[->|[la ->]]]; cbn; rewrite Hv; cbn; discriminate.
  - intros x Hx. apply in_map_iff in Hx. destruct Hx as (y & <- & _). cbn.
    destruct Ha as [->|[->|[la ->]]]; reflexivity.
Qed.
Print Assumptions C161_refuted.

(* GAIL: the losses of the discriminator go through it, those of the framework inside never do *)
Lemma inner_app os1 os2 : inner_backs (os1 ++ os2) = inner_backs os1 ++ inner_backs os2.
Proof. apply map_app. Qed.
Section Inner.
  Definition strip (x : (net * nat) * bool) : (net * nat) * bool := (fst x, false).
  (* everything but the way of the backward pass *)
  Definition same (s t : state net (net * nat)) : Prop :=
    version s = version t /\ grads s = grads t /\ clipped s = clipped t /\ graph s = graph t /\ steps s = steps t
    /\ targets s = targets t /\ training s = training t /\ cleared s = cleared t.
  Lemma inner_exec : forall os s t s', same s t -> exec os s = Ok s' ->
    exists t', exec (inner_backs os) t = Ok t' /\ same s' t'
      /\ forall ba new, backs t = ba -> backs s' = backs s ++ new -> backs t' = ba ++ map strip new.
  Proof.
    induction os as [|o os IH]; intros s t s' S H; cbn [inner_backs map exec] in *.
    - inversion H; subst. exists t. split; auto. split; auto. intros ba new <- E.
      assert (new = []) as -> by (apply app_inv_head with (l := backs s'); rewrite app_nil_r; auto).
      cbn. rewrite app_nil_r. auto.
    - destruct (exec1 s o) as [s1|] eqn:E; cbn [bind] in H; [|discriminate].
      assert (exists t1 add, exec1 t (match o with Back _ l => Back false l | _ => o end) = Ok t1 /\ same s1 t1
        /\ backs s1 = backs s ++ add /\ backs t1 = backs t ++ map strip add) as (t1 & add & E1 & S1 & B1 & B2).
      { destruct s as [v g c gr tr cl st ba tg], t as [v2 g2 c2 gr2 tr2 cl2 st2 ba2 tg2].
        destruct S as (P1 & P2 & P3 & P4 & P5 & P6 & P7 & P8). cbn in P1, P2, P3, P4, P5, P6, P7, P8. subst.
        destruct o; cbn in E |- *;
        try (inversion E; subst; eexists; exists []; cbn; rewrite !app_nil_r; repeat split; fail).
        destruct (gr2 l) as [ns|]; [|discriminate]. destruct (forallb _ ns); [|discriminate].
        inversion E; subst. eexists. exists [(l, custom)]. cbn. repeat split. }
      rewrite E1. cbn [bind]. destruct (IH s1 t1 s' S1 H) as (t' & E2 & S2 & B3). exists t'. split; [exact E2|]. split; [exact S2|].
      intros ba new <- En.
      assert (G : exists new', backs s' = backs s1 ++ new').
      { clear -H. revert s1 H. induction os as [|o os IH]; intros s1 H; cbn in H.
        - inversion H; subst. exists []. rewrite app_nil_r. auto.
        - destruct (exec1 s1 o) as [s2|] eqn:E; cbn in H; [|discriminate]. destruct (IH _ H) as (n & ->).
          destruct s1 as [v g c gr tr cl st ba tg], o; cbn in E; try (inversion E; subst; cbn; eauto; fail).
          destruct (gr l) as [ns|]; [|discriminate]. destruct (forallb _ ns); [|discriminate]. inversion E; subst.
          cbn. exists ([(l, custom)] ++ n). rewrite app_assoc. auto. }
      destruct G as (new' & Gn). rewrite (B3 _ _ eq_refl Gn), B2, <- app_assoc, <- map_app. do 2 f_equal.
      rewrite Gn, B1, <- app_assoc in En. apply app_inv_head in En. auto.
  Qed.
End Inner.
Theorem C161_gail_refuted : forall (f : flags) (kd : nat) (fd : bool) (inner : alg) (s : state net (net * nat)),
  exists s', exec (gail_update f kd fd inner) s = Ok s'
    /\ backs s' = backs s ++ map (fun i => ((Discriminator, i), true)) (if fd then seq 0 kd else [])
         ++ map (fun x => (x, false)) (wanted f inner).
Proof.
  intros f kd fd inner s. unfold gail_update.
  assert (D : forall (l : list nat) (s : state net (net * nat)), exists s', exec (flat_map (fun i => Compute (Discriminator, i) [Discriminator]
         :: cond fd [Zero Discriminator; Back true (Discriminator, i); Clip Discriminator; Step Actor]) l) s = Ok s'
      /\ backs s' = backs s ++ map (fun i => ((Discriminator, i), true)) (if fd then l else [])).
  { clear. induction l as [|i l IH]; intros s.
    - exists s. cbn. destruct fd; cbn; rewrite app_nil_r; auto.
    - cbn [flat_map]. rewrite exec_app.
      assert (S : exists s1, exec (Compute (Discriminator, i) [Discriminator]
         :: cond fd [Zero Discriminator; Back true (Discriminator, i); Clip Discriminator; Step Actor]) s = Ok s1
         /\ backs s1 = backs s ++ (if fd then [((Discriminator, i), true)] else [])).
      { destruct s as [v g c gr tr cl st ba tg], fd; eexists;
        repeat (cbn; unfold fset, unclip, add_grad; cbn; rewrite ?Nat.eqb_refl); cbn;
        (split; [reflexivity|]); cbn; rewrite ?app_nil_r; reflexivity. }
      destruct S as (s1 & E1 & B1). rewrite E1. cbn [bind]. destruct (IH s1) as (s' & E & B).
      exists s'. split; [exact E|]. rewrite B, B1, <- app_assoc. destruct fd; reflexivity. }
  rewrite exec_app.
  destruct s as [v g c gr tr cl st ba tg]. cbn [exec exec1 bind].
  rewrite exec_app.
  match goal with |- context [exec (flat_map _ _) ?s] => destruct (D (seq 0 kd) s) as (s1 & E1 & B1) end.
  rewrite E1. cbn [bind]. rewrite exec_app.
  destruct (update_adds f inner s1) as (s2 & E2 & _ & B2 & _).
  destruct (inner_exec (update f inner) (t := s1) (conj eq_refl (conj eq_refl (conj eq_refl (conj eq_refl (conj eq_refl (conj eq_refl (conj eq_refl eq_refl))))))) E2) as (t2 & E3 & _ & B3).
  rewrite E3. cbn [bind].
  specialize (B3 _ _ eq_refl B2).
  destruct t2 as [v2 g2 c2 gr2 tr2 cl2 st2 ba2 tg2]. cbn [exec exec1 bind]. eexists. split; [reflexivity|].
  cbn [backs] in *. rewrite B3, B1, <- app_assoc. do 2 f_equal. rewrite map_map. apply map_ext. reflexivity.
Qed.
Print Assumptions C161_gail_refuted.

(* ---- C160 ---- *)
Notation mstate := (state mnet mloss).
Notation mop := (op mnet mloss).
Definition agent (n : mnet) : nat := match n with MActor a _ => a | MCritic a => a end.
Definition lagent (l : mloss) : nat := match l with MPolicy a _ => a | MValue a _ => a end.
Definition steps_of (a : nat) (s : mstate) : list (mnet * list mloss * bool) :=
  filter (fun x => agent (fst (fst x)) =? a) (steps s).
(* the steps of one job *)
Definition expected (f : flags) (a e : nat) : list (mnet * list mloss * bool) :=
  (if f_value f then [(MCritic a, [MValue a e], true)] else [])
  ++ (if f_policy f then [(MActor a e, [MPolicy a e], true)] else []).

Lemma job_adds f a e : exists ba tg, adds (job f a e) (expected f a e) ba tg.
Proof.
  exists ((if f_value f then [(MValue a e, true)] else []) ++ (if f_policy f then [(MPolicy a e, true)] else [])).
  exists (if f_target f && due f then [MActor a e; MCritic a] else []).
  destruct f as [fv fp ft fa du]. unfold expected. cbn.
  destruct fv, fp, ft, du; intros [v g c gr tr cl st ba tg]; eexists;
  repeat (cbn; unfold fset, unclip, add_grad; cbn; rewrite ?Nat.eqb_refl); cbn;
  (split; [reflexivity|]); cbn; repeat split; rewrite ?Nat.eqb_refl, ?app_nil_r, <- ?app_assoc; cbn; reflexivity.
Qed.

(* one job after the other: every step is as it should be, for every ensemble size *)
Theorem C160_serial_partial : forall (f : flags) (agents ensemble : nat) (s : mstate),
  exists s', exec (concat (jobs f agents ensemble)) s = Ok s'
    /\ steps s' = steps s ++ flat_map (fun e => flat_map (fun a => expected f a e) (seq 0 agents)) (seq 0 ensemble).
Proof.
  intros f agents ensemble s. unfold jobs.
  assert (A : forall e l, exists ba tg, adds (concat (map (fun a => job f a e) l)) (flat_map (fun a => expected f a e) l) ba tg).
  { induction l as [|a l (ba & tg & IH)]; cbn [map concat flat_map]; [do 2 eexists; apply adds_nil|].
    destruct (job_adds f a e) as (ba' & tg' & J). do 2 eexists. eapply adds_app; eauto. }
  assert (B : forall l, exists ba tg, adds (concat (flat_map (fun e => map (fun a => job f a e) (seq 0 agents)) l))
     (flat_map (fun e => flat_map (fun a => expected f a e) (seq 0 agents)) l) ba tg).
  { induction l as [|e l (ba & tg & IH)]; cbn [flat_map concat]; [do 2 eexists; apply adds_nil|].
    rewrite concat_app. destruct (A e (seq 0 agents)) as (ba' & tg' & J). do 2 eexists. eapply adds_app; eauto. }
  destruct (B (seq 0 ensemble)) as (ba & tg & H). destruct (H s) as (s' & E & S & _). eauto.
Qed.
Print Assumptions C160_serial_partial.

(* one policy per agent: the jobs do not disturb each other *)
Definition rel (a : nat) (s t : mstate) : Prop :=
  (forall n, agent n = a -> version s n = version t n /\ grads s n = grads t n /\ clipped s n = clipped t n)
  /\ (forall l, lagent l = a -> graph s l = graph t l)
  /\ steps_of a s = steps_of a t.
Definition owned (s : mstate) : Prop :=
  forall l g x, graph s l = Some g -> In x g -> agent (fst x) = lagent l.
Definition okop (a : nat) (o : mop) : Prop :=
  match o with
  | Compute l ns => lagent l = a /\ (forall n, In n ns -> agent n = a)
  | Back _ l => lagent l = a
  | Zero n | Clip n | Step n | Assign n | Target n | Train n | Evl n => agent n = a
  | Clear => False
  end.
Lemma job_ok f a e o : In o (job f a e) -> okop a o.
Proof.
  destruct f as [fv fp ft fa du]. unfold job. cbn. rewrite !in_app_iff.
  destruct fv, fp, ft, du; cbn; intuition (subst; cbn; auto);
  try (split; auto; intros n Hn; cbn in Hn; intuition (subst; auto)).
Qed.
Lemma rel_refl a s : rel a s s.
Proof. repeat split. Qed.
Lemma rel_trans a s t u : rel a s t -> rel a t u -> rel a s u.
Proof.
  intros (A & B & C) (A' & B' & C'). repeat split; intros.
  - destruct (A n H) as (-> & _). apply A'; auto.
  - destruct (A n H) as (_ & -> & _). apply A'; auto.
  - destruct (A n H) as (_ & _ & ->). apply A'; auto.
  - rewrite B; auto.
  - congruence.
Qed.
Lemma owned_step a o s s' : okop a o -> owned s -> exec1 s o = Ok s' -> owned s'.
Proof.
  intros Ho Hs E l g x. destruct s as [v gd c gr tr cl st ba tg]. unfold owned in Hs. cbn in Hs.
  destruct o; cbn in E; try (inversion E; subst; cbn; apply Hs; fail).
  - inversion E; subst. cbn. unfold fset. destruct (eqb_spec l l0) as [->|N].
    + intros H Hx. inversion H; subst. apply in_map_iff in Hx. destruct Hx as (n & <- & Hn). cbn.
      destruct Ho as (-> & Ho). auto.
    + apply Hs.
  - destruct (gr l0) as [ns|]; [|discriminate]. destruct (forallb _ ns); [|discriminate]. inversion E; subst. cbn.
    unfold fset. destruct (eqb_spec l l0); [discriminate|apply Hs].
Qed.
Lemma rel_other a b o s s' : a <> b -> okop b o -> owned s -> exec1 s o = Ok s' -> rel a s' s.
Proof.
  intros N Ho Hs E. destruct s as [v gd c gr tr cl st ba tg].
  assert (Q : forall n m, agent n = a -> agent m = b -> eqb n m = false)
    by (intros n m H1 H2; destruct (eqb_spec n m); auto; subst; congruence).
  assert (Ql : forall n m, lagent n = a -> lagent m = b -> eqb n m = false)
    by (intros n m H1 H2; destruct (eqb_spec n m); auto; subst; congruence).
  destruct o; cbn [okop] in Ho; cbn [exec1] in E.
  3: { destruct (gr l) as [ns|] eqn:G; [|discriminate]. destruct (forallb _ ns); [|discriminate]. inversion E; subst.
       assert (X : forall n, agent n = a -> existsb (fun x : mnet * nat => eqb n (fst x)) ns = false).
       { intros n Hn. apply not_true_is_false. intros X. apply existsb_exists in X. destruct X as (x & Hx & X).
         assert (H := Hs l ns x G Hx). destruct (eqb_spec n (fst x)) as [->|]; congruence. }
       repeat split; cbn; unfold add_grad, unclip, fset; rewrite ?(X n H); auto.
       intros l0 Hl. rewrite (Ql l0 l); auto. }
  1: { destruct Ho as (Ho & _). inversion E; subst. repeat split; cbn; auto. intros l0 Hl. unfold fset. rewrite (Ql l0 l); auto. }
  all: try (destruct Ho; fail).
  all: inversion E; subst; repeat split; cbn; auto; unfold fset;
    try match goal with |- context [eqb ?x ?y] => rewrite (Q x y); auto end.
  - unfold steps_of. cbn. rewrite filter_app. cbn. destruct (Nat.eqb_spec (agent n) a); [congruence|]. apply app_nil_r.
Qed.
Lemma rel_own a o s t t' : okop a o -> owned s -> rel a s t -> exec1 t o = Ok t' ->
  exists s', exec1 s o = Ok s' /\ rel a s' t'.
Proof.
  intros Ho Hs (A & B & C) E. destruct s as [v gd c gr tr cl st ba tg], t as [v2 gd2 c2 gr2 tr2 cl2 st2 ba2 tg2].
  cbn in A, B. unfold steps_of in C. cbn in C.
  assert (A1 : forall n, agent n = a -> v n = v2 n) by (intros n H; apply (A n H)).
  assert (A2 : forall n, agent n = a -> gd n = gd2 n) by (intros n H; apply (A n H)).
  assert (A3 : forall n, agent n = a -> c n = c2 n) by (intros n H; apply (A n H)). clear A.
  destruct o; cbn [okop] in Ho; cbn [exec1] in E |- *.
  3: { rewrite (B l Ho). destruct (gr2 l) as [ns|] eqn:G; [|discriminate].
       assert (F : forallb (fun x : mnet * nat => v (fst x) =? snd x) ns = forallb (fun x : mnet * nat => v2 (fst x) =? snd x) ns).
       { assert (Own : forall x, In x ns -> agent (fst x) = a).
         { intros x Hx. rewrite <- Ho. apply (Hs l ns x); [|auto]. cbn. rewrite B; auto. }
         clear -Own A1. induction ns; cbn; auto. rewrite IHns by (intros; apply Own; right; auto).
         rewrite (A1 (fst a0)); auto. apply Own. left. auto. }
       rewrite F. destruct (forallb _ ns); [|discriminate]. inversion E; subst. eexists. split; [reflexivity|].
       repeat split; cbn; unfold add_grad, unclip, fset; auto.
       - destruct (existsb _ ns); rewrite A2; auto.
       - destruct (existsb _ ns); auto.
       - intros l0 Hl. destruct (eqb l0 l); auto. }
  1: { destruct Ho as (Ho & Hn). inversion E; subst. eexists. split; [reflexivity|]. repeat split; cbn; auto.
       intros l0 Hl. unfold fset. destruct (eqb l0 l); auto. f_equal. apply map_ext_in. intros n H. rewrite A1; auto. }
  all: try (destruct Ho; fail).
  all: inversion E; subst; eexists; (split; [reflexivity|]); repeat split; cbn; unfold fset; auto;
    try (match goal with |- context [eqb ?x ?y] => destruct (eqb_spec x y) end; subst; rewrite ?A1; auto; fail).
  - unfold steps_of. cbn. rewrite !filter_app, C. cbn. rewrite A2, A3; auto.
Qed.

Lemma exec_prefix (os1 os2 : list mop) s s' : exec (os1 ++ os2) s = Ok s' ->
  exists t, exec os1 s = Ok t /\ exec os2 t = Ok s'.
Proof. rewrite exec_app. destruct (exec os1 s) as [t|]; cbn; [eauto|discriminate]. Qed.
Lemma steps_grow (os : list mop) s s' : exec os s = Ok s' -> exists x, steps s' = steps s ++ x.
Proof.
  revert s. induction os as [|o os IH]; intros s H; cbn in H.
  - inversion H; subst. exists []. rewrite app_nil_r. auto.
  - destruct (exec1 s o) as [s1|] eqn:E; cbn in H; [|discriminate]. destruct (IH _ H) as (x & ->).
    destruct s as [v g c gr tr cl st ba tg], o; cbn in E;
    repeat match type of E with context [match ?y with _ => _ end] => destruct y; try discriminate end;
    inversion E; subst; cbn; eauto. eexists. rewrite <- app_assoc. reflexivity.
Qed.

Section One.
  Variables (f : flags) (s0 : mstate).
  Definition inv (agents : nat) (c : list (list mop) * mstate) : Prop :=
    length (fst c) = agents /\ owned (snd c)
    /\ forall a, exists don rest t, exec don s0 = Ok t /\ rel a (snd c) t
         /\ (a < agents -> nth_error (fst c) a = Some rest /\ don ++ rest = job f a 0)
         /\ (agents <= a -> don = []).
  Lemma inv_step agents c j : inv agents c -> exists c', sched1 c j = Ok c' /\ inv agents c'.
  Proof.
    intros (Hl & Ho & Hi). unfold sched1. destruct (nth_error (fst c) j) as [[|o r]|] eqn:E;
      [exists c; repeat split; auto| |exists c; repeat split; auto].
    assert (Hj : j < agents) by (rewrite <- Hl; apply nth_error_Some; congruence).
    destruct (Hi j) as (don & rest & t & Et & R & K & _). destruct (K Hj) as (Kn & Kd).
    rewrite E in Kn. inversion Kn; subst rest.
    destruct (job_adds f j 0) as (ba & tg & J). destruct (J s0) as (sf & Ef & _).
    rewrite <- Kd in Ef. change (don ++ o :: r) with (don ++ [o] ++ r) in Ef. rewrite app_assoc in Ef.
    destruct (exec_prefix _ _ _ Ef) as (t1 & Et1 & _).
    destruct (exec_prefix _ _ _ Et1) as (t2 & Et2 & Eo). rewrite Et in Et2. inversion Et2; subst t2.
    cbn in Eo. destruct (exec1 t o) as [t3|] eqn:Et3; [|discriminate]. cbn in Eo. inversion Eo; subst t3.
    assert (Oo : okop j o) by (apply (@job_ok f j 0); rewrite <- Kd; apply in_or_app; right; left; auto).
    destruct (@rel_own _ _ _ _ _ Oo Ho R Et3) as (s' & Es & R').
    rewrite Es. cbn [bind]. eexists. split; [reflexivity|]. split; [cbn; rewrite upd_length; auto|].
    split; [cbn; eapply owned_step; eauto|]. intros a. cbn [fst snd]. destruct (Nat.eq_dec a j) as [->|N].
    - exists (don ++ [o]), r, t1. split; [exact Et1|]. split; [exact R'|]. split.
      + intros _. split; [|rewrite <- app_assoc; exact Kd]. apply upd_same. rewrite Hl. exact Hj.
      + lia.
    - destruct (Hi a) as (don' & rest' & t' & F1 & F2 & F3 & F4). exists don', rest', t'. split; [exact F1|]. split.
      + eapply rel_trans; [|exact F2]. eapply rel_other; eauto.
      + split; [|exact F4]. rewrite upd_other; auto.
  Qed.
  Lemma inv_sched agents js c : inv agents c -> exists c', sched c js = Ok c' /\ inv agents c'.
  Proof.
    revert c. induction js as [|j js IH]; intros c H; cbn; [eauto|].
    destruct (inv_step j H) as (c1 & -> & H1). cbn. auto.
  Qed.
End One.

Lemma jobs_one f agents : jobs f agents 1 = map (fun a => job f a 0) (seq 0 agents).
Proof. unfold jobs. cbn. apply app_nil_r. Qed.
Lemma nth_jobs f agents e a : a < agents -> nth_error (map (fun a => job f a e) (seq 0 agents)) a = Some (job f a e).
Proof.
  intros H. rewrite nth_error_map. assert (E : nth_error (seq 0 agents) a = Some a).
  { rewrite (nth_error_nth' _ 0) by (rewrite seq_length; auto). rewrite seq_nth; auto. }
  rewrite E. auto.
Qed.
Theorem C160_partial : forall (f : flags) (agents : nat) (s : mstate) (js : list nat),
  (forall l, graph s l = None) ->
  exists c' s', sched (jobs f agents 1, s) js = Ok (c', s')
    /\ (forall a, a < agents -> exists pre post, pre ++ post = expected f a 0
          /\ steps_of a s' = steps_of a s ++ pre /\ (nth_error c' a = Some [] -> post = []))
    /\ (forall a, agents <= a -> steps_of a s' = steps_of a s).
Proof.
  intros f agents s js Hg.
  assert (I : inv f s agents (jobs f agents 1, s)).
  { rewrite jobs_one. split; [cbn; rewrite map_length, seq_length; auto|]. split.
    - intros l g x H. cbn in H. rewrite Hg in H. discriminate.
    - intros a. exists [], (job f a 0), s. split; [reflexivity|]. split; [apply rel_refl|]. split; auto.
      intros H. split; auto. cbn. apply nth_jobs. exact H. }
  destruct (inv_sched js I) as ((c' & s') & E & (Hl & Ho & Hi)). exists c', s'. split; [exact E|]. cbn [fst snd] in *. split.
  - intros a Ha. destruct (Hi a) as (don & rest & t & Et & R & K & _). destruct (K Ha) as (Kn & Kd).
    destruct (job_adds f a 0) as (ba & tg & J). destruct (J s) as (sf & Ef & Sf & _). rewrite <- Kd in Ef.
    destruct (exec_prefix _ _ _ Ef) as (t' & Et' & Er). rewrite Et in Et'. inversion Et'; subst t'.
    destruct (steps_grow _ _ Et) as (x & Hx). destruct (steps_grow _ _ Er) as (y & Hy).
    exists x, y. assert (Hxy : x ++ y = expected f a 0).
    { rewrite Hy, Hx, <- app_assoc in Sf. apply app_inv_head in Sf. exact Sf. }
    split; [exact Hxy|]. split.
    + destruct R as (_ & _ & ->). unfold steps_of. rewrite Hx, filter_app. f_equal.
      assert (Q : forall z, In z (expected f a 0) -> agent (fst (fst z)) =? a = true).
      { intros z Hz. unfold expected in Hz. destruct (f_value f), (f_policy f); cbn in Hz;
        intuition (subst; cbn; apply Nat.eqb_refl). }
      rewrite <- Hxy in Q. clear -Q. induction x as [|z x IH]; cbn; auto. rewrite Q by (left; auto). f_equal. apply IH.
      intros w Hw. apply Q. right. exact Hw.
    + rewrite Kn. intros H. inversion H; subst rest. cbn in Er. inversion Er; subst.
      apply (app_inv_head (steps sf)). rewrite app_nil_r. symmetry. exact Hy.
  - intros a Ha. destruct (Hi a) as (don & rest & t & Et & R & _ & K). rewrite (K Ha) in Et. cbn in Et. inversion Et; subst.
    apply R.
Qed.
Print Assumptions C160_partial.

(* two policies of one agent: their jobs train the same critic *)
Definition sched2 (c : list mop * list mop * mstate) (b : bool) : res (list mop * list mop * mstate) :=
  let '(x, y, s) := c in
  match b, x, y with
  | true, o :: r, _ => bind (exec1 s o) (fun s => Ok (r, y, s))
  | false, _, o :: r => bind (exec1 s o) (fun s => Ok (x, r, s))
  | _, _, _ => Ok c
  end.
Fixpoint run2 (c : list mop * list mop * mstate) (bs : list bool) : res (list mop * list mop * mstate) :=
  match bs with [] => Ok c | b :: r => bind (sched2 c b) (fun c' => run2 c' r) end.
Lemma run2_sched j1 j2 bs : j1 <> j2 -> forall c x y s, nth_error c j1 = Some x -> nth_error c j2 = Some y ->
  match run2 (x, y, s) bs with
  | Err e => sched (c, s) (map (fun b : bool => if b then j1 else j2) bs) = Err e
  | Ok (_, _, s') => exists c', sched (c, s) (map (fun b : bool => if b then j1 else j2) bs) = Ok (c', s')
  end.
Proof.
  intros N. induction bs as [|b bs IH]; intros c x y s H1 H2; cbn [run2 map sched]; [eauto|].
  unfold sched1, sched2. cbn [fst snd].
  assert (L1 : j1 < length c) by (apply nth_error_Some; congruence).
  assert (L2 : j2 < length c) by (apply nth_error_Some; congruence).
  destruct b.
  - rewrite H1. destruct x as [|o r]; [cbn [bind]; apply IH; auto|].
    destruct (exec1 s o) as [s1|e]; cbn [bind]; [|auto]. apply IH.
    + apply upd_same; auto.
    + rewrite upd_other; auto.
  - rewrite H2. destruct x as [|o' r'], y as [|o r]; try (cbn [bind]; apply IH; auto; fail);
    (destruct (exec1 s o) as [s1|e]; cbn [bind]; [|auto]); apply IH; try (rewrite upd_other; auto; fail); apply upd_same; auto.
Qed.
Lemma nth_ens f agents ens e a : a < agents -> e < ens ->
  nth_error (jobs f agents ens) (e * agents + a) = Some (job f a e).
Proof.
  intros Ha He. unfold jobs.
  assert (G : forall k o i, i < k -> nth_error (flat_map (fun e => map (fun a => job f a e) (seq 0 agents)) (seq o k)) (i * agents + a)
    = Some (job f a (o + i))).
  { induction k; intros o i Hi; [lia|]. cbn [seq flat_map]. destruct i.
    - rewrite nth_error_app1 by (rewrite map_length, seq_length; cbn; lia). cbn [Nat.mul Nat.add]. rewrite nth_jobs; auto.
      rewrite Nat.add_0_r. auto.
    - rewrite nth_error_app2 by (rewrite map_length, seq_length; cbn; lia). rewrite map_length, seq_length.
      replace (S i * agents + a - agents) with (i * agents + a) by (cbn; lia). rewrite IHk by lia. do 2 f_equal. lia. }
  apply (G ens 0 e He).
Qed.

Theorem C160_refuted : forall (f : flags) (agents ensemble a e1 e2 : nat) (s : mstate),
  f_value f = true -> a < agents -> e1 < ensemble -> e2 < ensemble -> e1 <> e2 ->
  (* one step of the critic with the gradients of both losses *)
  (exists js c' s', sched (jobs f agents ensemble, s) js = Ok (c', s')
     /\ steps s' = steps s ++ [(MCritic a, [MValue a e1; MValue a e2], true)])
  (* one with none *)
  /\ (exists js c' s', sched (jobs f agents ensemble, s) js = Ok (c', s')
     /\ steps s' = steps s ++ [(MCritic a, [], true)])
  (* and one policy's step breaks the graph of the other *)
  /\ (exists js, sched (jobs f agents ensemble, s) js = Err ERuntime).
Proof.
  intros f agents ensemble a e1 e2 s Hv Ha H1 H2 N.
  assert (Q : e1 * agents + a <> e2 * agents + a) by (intros X; apply N; nia).
  assert (R := fun bs => @run2_sched _ _ bs Q (jobs f agents ensemble) _ _ s (nth_ens f Ha H1) (nth_ens f Ha H2)).
  assert (B1 : e1 =? e2 = false) by (apply Nat.eqb_neq; auto).
  assert (B2 : e2 =? e1 = false) by (apply Nat.eqb_neq; auto).
  destruct f as [fv fp ft fa du]. cbn in Hv. subst fv. destruct s as [v g c gr tr cl st ba tg].
  split; [|split].
  - specialize (R [true; true; true; true; false; false; false; false; true; false; true; true]).
    unfold job in R. cbn [f_value cond app train_net] in R.
    cbn [run2 sched2 bind exec1] in R. unfold fset in R at 1.
    match type of R with match ?r with _ => _ end => set (x := r) in R end.
    assert (E : exists r1 r2 s', x = Ok (r1, r2, s') /\ steps s' = st ++ [(MCritic a, [MValue a e1; MValue a e2], true)]).
    { subst x. repeat (cbn; unfold fset, add_grad, unclip; cbn; rewrite ?Nat.eqb_refl, ?B1, ?B2).
      do 3 eexists. split; [reflexivity|]. cbn. rewrite ?Nat.eqb_refl. cbn. reflexivity. }
    destruct E as (r1 & r2 & s' & E & S). rewrite E in R. destruct R as (c' & R). do 3 eexists. split; [exact R|]. exact S.
  - specialize (R [true; true; true; true; true; false; false; false; false; true; true]).
    unfold job in R. cbn [f_value cond app train_net] in R.
    match type of R with match ?r with _ => _ end => set (x := r) in R end.
    assert (E : exists r1 r2 s', x = Ok (r1, r2, s') /\ steps s' = st ++ [(MCritic a, [], true)]).
    { subst x. repeat (cbn; unfold fset, add_grad, unclip; cbn; rewrite ?Nat.eqb_refl, ?B1, ?B2).
      do 3 eexists. split; [reflexivity|]. cbn. rewrite ?Nat.eqb_refl. cbn. reflexivity. }
    destruct E as (r1 & r2 & s' & E & S). rewrite E in R. destruct R as (c' & R). do 3 eexists. split; [exact R|]. exact S.
  - specialize (R [true; true; true; false; false; false; false; false; false; false; true; true]).
    unfold job in R. cbn [f_value cond app train_net] in R.
    match type of R with match ?r with _ => _ end => set (x := r) in R end.
    assert (E : x = Err ERuntime).
    { subst x. repeat (cbn; unfold fset, add_grad, unclip; cbn; rewrite ?Nat.eqb_refl, ?B1, ?B2).
      assert (Z : match v (MCritic a) with 0 => false | S m' => v (MCritic a) =? m' end = false)
        by (destruct (v (MCritic a)) as [|m]; [reflexivity|]; apply Nat.eqb_neq; lia).
      rewrite Z. reflexivity. }
    rewrite E in R. eexists. exact R.
Qed.
Print Assumptions C160_refuted.

(* ---- concrete executions ---- *)
Definition s_dirty : state net (net * nat) :=
  MkU (fun _ => 3) (fun _ => [(Qnet, 9)]) (fun _ => false) (fun _ => None) (fun _ => true) false [] [] [].
Definition all_on : flags := MkF true true true true true.
Example C158_nonvacuous :
  (exists s', exec (update all_on Ddpg) s_dirty = Ok s'
    /\ steps s' = [(Critic, [(Critic, 0)], true); (Actor, [(Actor, 0)], true)] /\ targets s' = [Actor; Critic])
  /\ (exists s', exec (update (MkF true false false false false) (Ppo 2 2)) s_dirty = Ok s'
    /\ steps s' = [(Critic, [(Critic, 0)], true); (Critic, [(Critic, 1)], true)] /\ version s' Actor = 3).
Proof. split; eexists; (split; [reflexivity|]); cbn; auto. Qed.
Example C159_nonvacuous :
  (exists s', exec (update all_on (A2c 1 2)) s_dirty = Ok s' /\ training s' Actor = false /\ cleared s' = true)
  /\ (exists s', exec (update all_on (Trpo true 2)) s_dirty = Ok s' /\ training s' Actor = true /\ cleared s' = false).
Proof. split; eexists; (split; [reflexivity|]); cbn; auto. Qed.
Definition m_clean : mstate :=
  MkU (fun _ => 0) (fun _ => []) (fun _ => false) (fun _ => None) (fun _ => false) false [] [] [].
Example C160_nonvacuous :
  exists c' s', sched (jobs all_on 2 1, m_clean)
      (flat_map (fun _ => [0; 1]) (seq 0 16)) = Ok (c', s')
    /\ c' = [[]; []]
    /\ steps s' = [(MCritic 0, [MValue 0 0], true); (MCritic 1, [MValue 1 0], true);
                   (MActor 0 0, [MPolicy 0 0], true); (MActor 1 0, [MPolicy 1 0], true)].
Proof. do 2 eexists. split; [reflexivity|]. split; reflexivity. Qed.
Example C161_nonvacuous :
  (exists s', exec (update all_on Td3) s_dirty = Ok s'
    /\ backs s' = [((Critic, 0), false); ((Critic2, 0), false); ((Actor, 0), false)])
  /\ (exists s', exec (update all_on Impala) s_dirty = Ok s' /\ backs s' = [((Actor, 0), true); ((Critic, 0), true)])
  /\ (exists s', exec (gail_update all_on 1 true (Ppo 1 1)) s_dirty = Ok s'
    /\ backs s' = [((Discriminator, 0), true); ((Actor, 0), false); ((Critic, 0), false)]).
Proof. split; [|split]; eexists; (split; [reflexivity|]); cbn; auto. Qed.
