(* C203, C204: update() without anything to sample, and with no passes. *)
From Coq Require Import Lia.
From Verif Require Import Model.UpdateEmpty Props.PropsUpdateTrace.
Set Implicit Arguments.

(* ---- specification ---- *)
(* the operations without sampling and quotients *)
Definition plain (o : uop) : list (op net loss) := match o with Do o => [o] | _ => [] end.
(* whether update() samples at all *)
Definition samples (a : alg) : bool := match a with A2c ka kc | Ppo ka kc => negb (ka + kc =? 0) | _ => true end.
(* the numbers the returned values are divided by *)
Definition divisors (f : flags) (a : alg) : list nat :=
  match a with
  | A2c ka kc | Ppo ka kc => [ka; kc]
  | Trpo z kc => if f_policy f && z then [] else [kc]
  | _ => []
  end.
Definition dqn_like (a : alg) : bool := match a with DqnVanilla | DqnFixed | DqnDouble => true | _ => false end.
(* nothing was trained and nothing forgotten *)
Definition untrained (s s' : state net loss) : Prop :=
  version s' = version s /\ grads s' = grads s /\ clipped s' = clipped s /\ cleared s' = cleared s /\
  steps s' = steps s /\ backs s' = backs s /\ targets s' = targets s.
Definition in_training (ns : list net) (s s' : state net loss) : Prop :=
  (forall n, In n ns -> training s' n = true) /\ forall n, ~ In n ns -> training s' n = training s n.

(* ---- general facts ---- *)
Lemma plain_map os : flat_map plain (map Do os) = os.
Proof. induction os; cbn; congruence. Qed.
Lemma plain_loop b n k o : flat_map plain (flat_map (spass b n) (seq o k)) = flat_map (pass b n) (seq o k).
Proof.
  revert o. induction k; intros o; cbn [seq flat_map]; auto. rewrite flat_map_app. rewrite IHk. f_equal.
  unfold spass. cbn [flat_map plain app]. apply plain_map.
Qed.
(* the operations are those of Model/UpdateTrace.v *)
Lemma full_plain f a : flat_map plain (full f a) = update f a.
Proof.
  assert (S : forall k os, flat_map plain (sample_at k os) = os).
  { intros k os. unfold sample_at. rewrite flat_map_app. cbn [flat_map plain app]. rewrite !plain_map. apply firstn_skipn. }
  destruct a; cbn [full]; rewrite ?S; auto; unfold a2c_full, trpo_full; cbn [update].
  1-2: unfold a2c_update; rewrite !flat_map_app, !plain_loop, !plain_map; cbn [flat_map plain app]; now rewrite ?app_nil_r.
  unfold trpo_update. rewrite !flat_map_app. cbn [flat_map plain map app]. destruct (_ && _); auto.
  rewrite !flat_map_app, plain_loop, !plain_map. cbn [flat_map plain app map]. now rewrite ?app_nil_r.
Qed.

Definition clears (o : uop) : bool := match o with Do Clear => true | _ => false end.
Lemma exec1_cleared (s s' : state net loss) o : exec1 s o = Ok s' -> clears (Do o) = false -> cleared s' = cleared s.
Proof.
  destruct s as [v g c gr tr cl st ba tg]. destruct o; cbn; intros H C; try discriminate;
    try (injection H as <-; reflexivity).
  destruct (gr l) as [ns|]; [|discriminate]. destruct (forallb _ ns); [|discriminate]. now injection H as <-.
Qed.
Lemma run_app ne os1 os2 s : run ne (os1 ++ os2) s =
  match run ne os1 s with (s', Ok tt) => run ne os2 s' | (s', Err e) => (s', Err e) end.
Proof.
  revert s. induction os1 as [|o r IH]; intros s; cbn [app run]; auto.
  destruct o as [o|x|k].
  - destruct (exec1 s o); auto.
  - destruct (if x then ne else cleared s); auto.
  - destruct (k =? 0); auto.
Qed.
Definition is_quot (o : uop) : bool := match o with Quot _ => true | _ => false end.
(* while the buffer is not empty, sampling changes nothing *)
Lemma run_plain ne os (s s' : state net loss) :
  cleared s = false -> forallb (fun o => negb (clears o) && negb (is_quot o)) os = true ->
  (ne = true -> forallb (fun o => match o with Sample true => false | _ => true end) os = true) ->
  exec (flat_map plain os) s = Ok s' -> run ne os s = (s', Ok tt) /\ cleared s' = false.
Proof.
  revert s. induction os as [|o r IH]; intros s C F X E; cbn in E.
  - injection E as <-. auto.
  - cbn [forallb] in F. apply andb_prop in F as [F1 F2]. apply andb_prop in F1 as [F1 F3].
    assert (XR : ne = true -> forallb (fun o => match o with Sample true => false | _ => true end) r = true).
    { intros N. specialize (X N). cbn in X. now apply andb_prop in X. }
    destruct o as [o|x|k]; cbn [run].
    + cbn in E. destruct (exec1 s o) as [s1|e] eqn:Q; [|discriminate]. cbn [bind] in E.
      assert (C1 : cleared s1 = false).
      { rewrite (exec1_cleared _ _ Q); auto. now destruct (clears (Do o)). }
      apply IH; auto.
    + destruct x; [|rewrite C; apply IH; auto]. destruct ne; [specialize (X eq_refl); discriminate|]. apply IH; auto.
    + discriminate.
Qed.
Lemma run_do ne os (s s' : state net loss) : exec os s = Ok s' -> run ne (map Do os) s = (s', Ok tt).
Proof.
  revert s. induction os as [|o r IH]; intros s E; cbn in *; [now injection E as <-|].
  destruct (exec1 s o); [|discriminate]. cbn in E. auto.
Qed.

(* every update is a body without quotients, then a clean-up without samples, then the quotients *)
Lemma shape f a : exists body tail,
  full f a = body ++ map Do tail ++ map Quot (divisors f a) /\
  forallb (fun o => negb (clears o) && negb (is_quot o)) body = true /\
  forallb (fun o => match o with Sample true => false | _ => true end) body = true.
Proof.
  assert (D : forall os, forallb (fun o => match o with Clear => false | _ => true end) os = true ->
            forallb (fun o => negb (clears o) && negb (is_quot o)) (map Do os) = true).
  { induction os as [|o r IH]; cbn [forallb map]; auto. intros H. apply andb_prop in H as [H1 H2]. rewrite IH by auto.
    destruct o; auto; discriminate. }
  assert (D2 : forall os, forallb (fun o => match o with Sample true => false | _ => true end) (map Do os) = true).
  { induction os; cbn; auto. }
  assert (P : forall b n i, forallb (fun o => match o with Clear => false | _ => true end) (pass b n i) = true).
  { intros [] n i; reflexivity. }
  assert (L : forall b n k o, forallb (fun o => negb (clears o) && negb (is_quot o)) (flat_map (spass b n) (seq o k)) = true).
  { intros b n k. induction k; intros o; cbn [seq flat_map]; auto. unfold spass at 1. cbn [app forallb clears is_quot negb andb].
    rewrite forallb_app, D by auto. apply IHk. }
  assert (L2 : forall b n k o, forallb (fun o => match o with Sample true => false | _ => true end) (flat_map (spass b n) (seq o k)) = true).
  { intros b n k. induction k; intros o; cbn [seq flat_map]; auto. unfold spass at 1. cbn [app forallb andb].
    rewrite forallb_app, D2. apply IHk. }
  destruct a as [| | | | | | | | |la|ka kc|ka kc|z kc|]; cbn [full divisors].
  1-10, 14: eexists _, []; cbn [map app]; rewrite app_nil_r; split; [reflexivity|];
    destruct f as [[] [] [] [] []]; try destruct la; split; reflexivity.
  1-2: exists (map Do [Train Actor; Train Critic] ++ flat_map (spass (f_policy f) Actor) (seq 0 ka)
    ++ flat_map (spass (f_value f) Critic) (seq 0 kc)), [Clear; Evl Actor; Evl Critic];
    split; [unfold a2c_full; now rewrite <- !app_assoc|]; rewrite !forallb_app, !L, !L2; split; reflexivity.
  unfold trpo_full. destruct (f_policy f && z).
  - eexists _, []. cbn [map]. rewrite !app_nil_r. split; [reflexivity|]. split; reflexivity.
  - exists (map Do [Train Actor; Train Critic] ++ [Sample false; Do (Compute (Actor, 0) [Actor])]
      ++ map Do (cond (f_policy f) [Assign Actor]) ++ flat_map (spass (f_value f) Critic) (seq 0 kc)), [Clear; Evl Actor; Evl Critic].
    split; [now rewrite <- !app_assoc|]. rewrite !forallb_app, L, L2, D2. split; destruct (f_policy f); reflexivity.
Qed.
Lemma run_quots ne ks s : run ne (map Quot ks) s = (s, if existsb (Nat.eqb 0) ks then Err EZeroDiv else Ok tt).
Proof. induction ks as [|[|k] r IH]; cbn; auto. Qed.

(* with a sample the update is that of Model/UpdateTrace.v, to which C158 - C161 apply; then the means are taken *)
Lemma run_full ne f a (s : state net loss) : cleared s = false -> exists s', exec (update f a) s = Ok s' /\
  run ne (full f a) s = (s', if existsb (Nat.eqb 0) (divisors f a) then Err EZeroDiv else Ok tt).
Proof.
  intros C. destruct (C158_steps a f s) as (s' & E & _). exists s'. split; auto.
  destruct (shape f a) as (body & tl & H & F1 & F2). rewrite <- (full_plain f a), H in E.
  rewrite !flat_map_app, plain_map in E.
  assert (Q : flat_map plain (map Quot (divisors f a)) = []) by (generalize (divisors f a); intros l; induction l; cbn; auto).
  rewrite Q, app_nil_r, exec_app in E. destruct (exec (flat_map plain body) s) as [s1|] eqn:E1; [|discriminate]. cbn [bind] in E.
  destruct (@run_plain ne body s s1 C F1 (fun _ => F2) E1) as [R _].
  rewrite H, run_app, R, run_app, (run_do ne _ _ E). apply run_quots.
Qed.

(* ---- C203 ---- *)
(* without anything to sample nothing is trained and TypeError is raised; DQN is left exactly as it was *)
Theorem C203_partial : forall ne (a : alg) (f : flags) (s : state net loss),
  cleared s = true -> samples a = true ->
  exists s', run ne (full f a) s = (s', Err EType) /\ untrained s s' /\ (dqn_like a = true -> s' = s).
Proof.
  intros ne a f [v g c gr tr cl st ba tg] C S. cbn in C. subst cl.
  destruct a as [| | | | | | | | |la|ka kc|ka kc|z kc|].
  1-10, 13-14: eexists; split; [reflexivity|]; split; [repeat split|cbn; intros; auto; discriminate].
  all: destruct ka as [|ka]; [destruct kc as [|kc]; [discriminate|]|];
    (eexists; split; [reflexivity|]; split; [repeat split|discriminate]).
Qed.
Print Assumptions C203_partial.

(* every other framework is left with all its networks in training mode *)
Theorem C203_refuted : forall ne (a : alg) (f : flags) (s : state net loss),
  cleared s = true -> samples a = true -> dqn_like a = false ->
  exists s', run ne (full f a) s = (s', Err EType) /\ in_training (nets_of a) s s'.
Proof.
  intros ne a f [v g c gr tr cl st ba tg] C S D. cbn in C. subst cl.
  destruct a as [| | | | | | | | |la|ka kc|ka kc|z kc|]; try discriminate.
  1-7, 10-11: eexists; split; [reflexivity|]; split; intros n Hn; destruct n; cbn in *; auto; tauto || intuition discriminate.
  all: destruct ka as [|ka]; [destruct kc as [|kc]; [discriminate|]|];
    (eexists; split; [reflexivity|]; split; intros n Hn; destruct n; cbn in *; auto; tauto || intuition discriminate).
Qed.
Print Assumptions C203_refuted.

(* GAIL: an empty buffer of the expert is enough *)
Theorem C203_gail_refuted : forall (ne fd : bool) (kd : nat) (inner : alg) (f : flags) (s : state net loss),
  (ne || cleared s)%bool = true ->
  exists s', run ne (gail_full f (S kd) fd inner) s = (s', Err EType) /\ untrained s s' /\
    in_training [Actor; Critic; Discriminator] s s'.
Proof.
  intros ne fd kd inner f [v g c gr tr cl st ba tg] C. cbn [cleared] in C. unfold gail_full. cbn [seq flat_map map app run exec1].
  cbn [cleared]. destruct ne; [|cbn in C; subst cl];
  (eexists; split; [reflexivity|]; split; [repeat split|]; split; intros n Hn; destruct n; cbn in *; auto; tauto || intuition discriminate).
Qed.
Print Assumptions C203_gail_refuted.

(* ---- C204 ---- *)
(* update() returns when every mean is over at least one pass *)
Theorem C204_partial : forall ne (a : alg) (f : flags) (s : state net loss),
  cleared s = false -> (forall k, In k (divisors f a) -> 1 <= k) ->
  exists s', exec (update f a) s = Ok s' /\ run ne (full f a) s = (s', Ok tt).
Proof.
  intros ne a f s C D. destruct (run_full ne f a s C) as (s' & E & R). exists s'. split; auto. rewrite R.
  destruct (existsb (Nat.eqb 0) (divisors f a)) eqn:X; auto. apply existsb_exists in X as (k & K & Z). apply Nat.eqb_eq in Z.
  specialize (D _ K). lia.
Qed.
Print Assumptions C204_partial.
(* otherwise everything is done, the buffer is cleared, and ZeroDivisionError is raised *)
Theorem C204_refuted : forall ne (a : alg) (f : flags) (s : state net loss),
  cleared s = false -> In 0 (divisors f a) ->
  exists s', exec (update f a) s = Ok s' /\ run ne (full f a) s = (s', Err EZeroDiv) /\
    cleared s' = true /\ steps s' = steps s ++ map fresh (wanted f a).
Proof.
  intros ne a f s C D. destruct (run_full ne f a s C) as (s' & E & R). exists s'. split; auto. rewrite R.
  assert (X : existsb (Nat.eqb 0) (divisors f a) = true) by (apply existsb_exists; exists 0; auto). rewrite X.
  split; auto.
  assert (P : stopped f a = false /\ on_policy a = true).
  { destruct a; cbn in *; try tauto. destruct (_ && _); cbn in *; tauto. }
  destruct P as [P1 P2]. destruct (@C159_partial a f s s' E P1) as (_ & _ & Q). rewrite P2, Bool.orb_true_r in Q. split; auto.
  destruct (C158_steps a f s) as (s2 & E2 & W & _). congruence.
Qed.
Print Assumptions C204_refuted.

(* GAIL: without passes of the discriminator update() never returns *)
Theorem C204_gail_refuted : forall ne fd (inner : alg) (f : flags) (s : state net loss),
  snd (run ne (gail_full f 0 fd inner) s) <> Ok tt.
Proof.
  intros ne fd inner f s. unfold gail_full. rewrite !app_assoc, run_app. destruct (run ne _ s) as [s' [[]|e]]; cbn; discriminate.
Qed.
Print Assumptions C204_gail_refuted.

Definition s0 (empty : bool) : state net loss :=
  MkU (fun _ => 0) (fun _ => []) (fun _ => false) (fun _ => None) (fun _ => false) empty [] [] [].
Definition all_on : flags := MkF true true true true true.
Example C203_nonvacuous :
  (let (s, r) := run false (full all_on Ddpg) (s0 true) in (r, training s Actor, training s Critic)) = (Err EType, true, true) /\
  (let (s, r) := run false (full all_on DqnDouble) (s0 true) in (r, training s Qnet)) = (Err EType, false) /\
  (let (s, r) := run true (gail_full all_on 2 true (Ppo 1 1)) (s0 false) in (r, training s Discriminator)) = (Err EType, true) /\
  (let (s, r) := run false (full all_on (Ppo 2 1)) (s0 false) in (r, training s Actor, length (steps s))) = (Ok tt, false, 3).
Proof. repeat split. Qed.
Example C204_nonvacuous :
  (let (s, r) := run false (full all_on (A2c 0 2)) (s0 false) in (r, map (fun x => fst (fst x)) (steps s), cleared s))
    = (Err EZeroDiv, [Critic; Critic], true) /\
  snd (run false (full all_on (Trpo true 0)) (s0 false)) = Ok tt /\
  snd (run false (gail_full all_on 0 true (Ppo 1 1)) (s0 false)) = Err EZeroDiv.
Proof. repeat split. Qed.
