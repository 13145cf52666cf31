(* C126-C129: the gym datasets. *)
From Coq Require Import Lia QArith Qcanon.
From Verif Require Import Lib.Base Lib.Rat Model.GymData.
Open Scope nat_scope.
Set Implicit Arguments.

Section Next.
  Context {E S V X I Img F : Type}.
  Variables (reset : E -> E * S) (step : E -> V -> E * res (S * Qc * bool * I)) (render : E -> Img).
  Variables (act : meth -> bool -> F -> S -> F * res (ret X)).
  Variables (meth_of : option meth) (choose : ret X -> res (V * tensor X)).
  Variable manual_sync : F -> F.
  Variable has_sync : bool.
  Notation obs := (@obs S X).
  Notation nxt := (next reset step render act meth_of choose manual_sync has_sync).
  Implicit Types (w : @world E F) (os : list obs).

  (* ---- the specification: one step and one episode of the agent in the environment, b: syncing ---- *)
  Definition Step (b : bool) (e : E) (f : F) (s : S) (o : obs) (i : I) (e' : E) (f' : F) : Prop :=
    exists m r a, meth_of = Some m /\ act m b f s = (f', Ok r) /\ choose r = Ok (a, o_a o) /\
      step e a = (e', Ok (o_n o, o_r o, o_t o, i)) /\ o_s o = s.
  (* observations, infos and the environments at the beginning of each step *)
  Inductive Traj (b : bool) : E -> F -> S -> list obs -> list I -> list E -> E -> F -> Prop :=
  | TLast e f s o i e' f' : Step b e f s o i e' f' -> o_t o = true -> Traj b e f s [o] [i] [e] e' f'
  | TCons e f s o i e' f' os is es e'' f'' : Step b e f s o i e' f' -> o_t o = false ->
      Traj b e' f' (o_n o) os is es e'' f'' -> Traj b e f s (o :: os) (i :: is) (e :: es) e'' f''.

  Lemma round_ok counter every w v w' v' t :
    round step render act meth_of choose counter every w v = (w', Ok (v', t)) ->
    every <> 0 /\ w_sync w' = w_sync w /\ exists o i, Step (w_sync w) (w_env w) (w_frame w) (v_state v) o i (w_env w') (w_frame w') /\
      o_t o = t /\ v_state v' = o_n o /\ v_total v' = (v_total v + o_r o)%Qc /\ v_obs v' = v_obs v ++ [o] /\
      v_logs v' = v_logs v ++ [LInfo i] /\ v_rend v' = v_rend v ++ (if (counter mod every) =? 0 then [render (w_env w)] else []).
  Proof.
    unfold round. destruct every as [|n]; [discriminate|]. destruct meth_of as [m|] eqn:Em; [|discriminate].
    set (v1 := if (counter mod Datatypes.S n) =? 0 then _ else v).
    assert (Q : v_state v1 = v_state v /\ v_total v1 = v_total v /\ v_obs v1 = v_obs v /\ v_logs v1 = v_logs v /\
      v_rend v1 = v_rend v ++ (if (counter mod Datatypes.S n) =? 0 then [render (w_env w)] else [])).
    { unfold v1. destruct (_ =? 0); cbn; rewrite ?app_nil_r; auto. }
    destruct Q as (Q1 & Q2 & Q3 & Q4 & Q5). clearbody v1.
    destruct (act m (w_sync w) (w_frame w) (v_state v1)) as [f r] eqn:Ea. cbn [w_env w_frame w_sync].
    destruct r as [r|]; cbn [bind]; [|discriminate]. destruct (choose r) as [[a st]|] eqn:Ec; [|discriminate].
    destruct (step (w_env w) a) as [e [[[[s' rew] t'] i]|]] eqn:Es; [|discriminate].
    intros H. injection H as <- <- <-. cbn. split; [discriminate|]. split; [reflexivity|].
    exists (MkObs (v_state v1) st s' rew t'), i. cbn. rewrite <- Q1.
    split; [|rewrite Q2, Q3, Q4; repeat split; auto].
    exists m, r, a. rewrite <- Em. auto.
  Qed.
  Lemma round_step counter every w v o i e' f' : every <> 0 ->
    Step (w_sync w) (w_env w) (w_frame w) (v_state v) o i e' f' ->
    exists v', round step render act meth_of choose counter every w v = (MkW e' f' (w_sync w), Ok (v', o_t o)) /\
      v_state v' = o_n o.
  Proof.
    intros N (m & r & a & Em & Ea & Ec & Es & Eo). unfold round. destruct every as [|n]; [congruence|]. rewrite Em.
    set (v1 := if (counter mod Datatypes.S n) =? 0 then _ else v).
    assert (Q1 : v_state v1 = v_state v) by (unfold v1; destruct (_ =? 0); reflexivity). clearbody v1.
    rewrite Q1, Ea. cbn [w_env w_frame w_sync bind]. rewrite Ec, Es. eexists. split; [reflexivity|]. reflexivity.
  Qed.

  Lemma rounds_ok fuel counter every : forall w v w' v', rounds step render act meth_of choose fuel counter every w v = Some (w', Ok v') ->
    every <> 0 /\ w_sync w' = w_sync w /\ exists os is es, Traj (w_sync w) (w_env w) (w_frame w) (v_state v) os is es (w_env w') (w_frame w') /\
      v_total v' = (v_total v + qsum (map (@o_r S X) os))%Qc /\ v_obs v' = v_obs v ++ os /\ v_logs v' = v_logs v ++ map (@LInfo I Img) is /\
      v_rend v' = v_rend v ++ (if (counter mod every) =? 0 then map render es else []).
  Proof.
    induction fuel as [|fuel IH]; intros w v w' v' H; [discriminate|]. cbn [rounds] in H.
    destruct (round step render act meth_of choose counter every w v) as [w1 [[v1 t]|x]] eqn:ER; [|discriminate].
    destruct (round_ok _ _ _ _ ER) as (N & Hs & o & i & HS & Ht & A1 & A2 & A3 & A4 & A5). destruct t.
    - injection H as <- <-. split; [exact N|]. split; [exact Hs|]. exists [o], [i], [w_env w]. split; [now constructor|].
      rewrite A2, A3, A4, A5. cbn. split; [|repeat split; auto]. now rewrite Qcplus_0_r.
    - destruct (IH _ _ _ _ H) as (_ & Hs' & os & is & es & HT & B2 & B3 & B4 & B5). split; [exact N|]. split; [congruence|].
      exists (o :: os), (i :: is), (w_env w :: es). split.
      + econstructor; [exact HS|exact Ht|]. rewrite Hs, A1 in HT. exact HT.
      + rewrite B2, B3, B4, B5, A2, A3, A4, A5, <- !app_assoc. cbn. split; [now rewrite Qcplus_assoc|].
        repeat split; auto. f_equal. now destruct (_ =? 0).
  Qed.
  Lemma rounds_traj b e f s os is es e' f' : Traj b e f s os is es e' f' -> forall fuel counter every v, every <> 0 ->
    length os <= fuel -> v_state v = s -> exists v', rounds step render act meth_of choose fuel counter every (MkW e f b) v = Some (MkW e' f' b, Ok v').
  Proof.
    induction 1 as [e f s o i e' f' HS Ht|e f s o i e' f' os is es e'' f'' HS Ht HT IH]; intros fuel counter every v N L Hv;
      (destruct fuel as [|fuel]; [cbn in L; lia|]); cbn [rounds];
      (assert (HS' : Step (w_sync (MkW e f b)) (w_env (MkW e f b)) (w_frame (MkW e f b)) (v_state v) o i e' f') by (cbn; rewrite Hv; exact HS));
      destruct (round_step counter (MkW e f b) v N HS') as (v1 & E1 & E2); rewrite E1, Ht.
    - eauto.
    - cbn [w_sync]. apply IH; auto. cbn in L. lia.
  Qed.
  Lemma traj_fun b e f s os is es e' f' : Traj b e f s os is es e' f' -> forall os2 is2 es2 e2 f2,
    Traj b e f s os2 is2 es2 e2 f2 -> os2 = os /\ is2 = is /\ es2 = es /\ e2 = e' /\ f2 = f'.
  Proof.
    assert (D : forall b e f s o i e' f' o2 i2 e2 f2, Step b e f s o i e' f' -> Step b e f s o2 i2 e2 f2 -> o2 = o /\ i2 = i /\ e2 = e' /\ f2 = f').
    { intros b0 e0 f0 s0 o i e1 f1 o2 i2 e2 f2 (m & r & a & A1 & A2 & A3 & A4 & A5) (m' & r' & a' & B1 & B2 & B3 & B4 & B5).
      assert (m' = m) by congruence. subst m'. assert (Hr : r' = r /\ f2 = f1) by (rewrite A2 in B2; now injection B2). destruct Hr as [-> ->].
      rewrite A3 in B3. injection B3 as Ba Bs. subst a'. rewrite A4 in B4. destruct o, o2. cbn in *.
      assert (P : forall (A B : Type) (x y : A) (u v : B), (x, u) = (y, v) -> x = y /\ u = v) by (intros A B x y u v Q; now injection Q).
      apply P in B4 as [-> B4]. assert (Q : forall (A : Type) (x y : A), Ok x = Ok y -> x = y) by (intros A x y Z; now injection Z).
      apply Q in B4. apply P in B4 as [B4 ->]. apply P in B4 as [B4 ->]. apply P in B4 as [-> ->]. subst. auto. }
    induction 1 as [e f s o i e' f' HS Ht|e f s o i e' f' os is es e'' f'' HS Ht HT IH]; intros os2 is2 es2 e2 f2 H2; inversion H2 as [? ? ? o' i' ? ? HS2 Ht2|? ? ? o' i' e1 f1 os' is' es' ? ? HS2 Ht2 HT2]; subst.
    - destruct (D _ _ _ _ _ _ _ _ _ _ _ _ HS HS2) as (-> & -> & -> & ->). auto.
    - destruct (D _ _ _ _ _ _ _ _ _ _ _ _ HS HS2) as (-> & -> & -> & ->). congruence.
    - destruct (D _ _ _ _ _ _ _ _ _ _ _ _ HS HS2) as (-> & -> & -> & ->). congruence.
    - destruct (D _ _ _ _ _ _ _ _ _ _ _ _ HS HS2) as (-> & -> & -> & ->).
      destruct (IH _ _ _ _ _ HT2) as (-> & -> & -> & -> & ->). auto.
  Qed.

  (* where an episode starts *)
  Definition start w : @world E F :=
    MkW (fst (reset (w_env w))) (if has_sync then manual_sync (w_frame w) else w_frame w) (if has_sync then false else w_sync w).
  Lemma next_start fuel counter every w : nxt fuel counter every w =
    match rounds step render act meth_of choose fuel counter every (start w) (MkV (snd (reset (w_env w))) 0%Qc [] [] []) with
    | None => None
    | Some (w, Err e) => Some (counter, w, Err e)
    | Some (w, Ok v) => Some (counter + 1, set_sync has_sync true w,
        Ok (v_obs v, v_logs v ++ (match v_rend v with [] => [] | l => [LVideo l] end) ++ [LTotal (v_total v)]))
    end.
  Proof.
    unfold next, start, set_sync, do_manual_sync. destruct (reset (w_env w)) as [e s]. destruct has_sync; reflexivity.
  Qed.

  (* ---- C126: __next__ returns the episode the frame plays ---- *)
  Definition logs_of (counter every : nat) os (is : list I) (es : list E) : list (@log I Img) :=
    map (@LInfo I Img) is ++ (if (counter mod every) =? 0 then [LVideo (map render es)] else []) ++ [LTotal (qsum (map (@o_r S X) os))].
  Theorem C126_returns_the_episode fuel counter every w c' w' os logs :
    nxt fuel counter every w = Some (c', w', Ok (os, logs)) ->
    exists is es, Traj (w_sync (start w)) (w_env (start w)) (w_frame (start w)) (snd (reset (w_env w))) os is es (w_env w') (w_frame w') /\
      logs = logs_of counter every os is es /\ c' = counter + 1.
  Proof.
    rewrite next_start.
    destruct (rounds step render act meth_of choose fuel counter every (start w) _) as [[w1 [v1|x]]|] eqn:ER; try discriminate.
    intros H. injection H as <- <- <- <-.
    destruct (rounds_ok _ _ _ _ _ ER) as (N & Hs & os & is & es & HT & B2 & B3 & B4 & B5). cbn in B2, B3, B4, B5. cbn [v_state] in HT.
    exists is, es. split; [|split; [|reflexivity]].
    - rewrite B3. replace (w_env (set_sync has_sync true w1)) with (w_env w1) by (unfold set_sync; destruct has_sync; reflexivity).
      replace (w_frame (set_sync has_sync true w1)) with (w_frame w1) by (unfold set_sync; destruct has_sync; reflexivity). exact HT.
    - unfold logs_of. rewrite B4, B5, B2, B3, Qcplus_0_l. f_equal. f_equal. destruct (_ =? 0); [|reflexivity].
      assert (Z : map render es <> []) by (inversion HT; discriminate). destruct (map render es); [congruence|reflexivity].
  Qed.
  Theorem C126_every_finite_episode fuel counter every w os is es e' f' : every <> 0 ->
    Traj (w_sync (start w)) (w_env (start w)) (w_frame (start w)) (snd (reset (w_env w))) os is es e' f' ->
    length os <= fuel -> exists w', nxt fuel counter every w = Some (counter + 1, w', Ok (os, logs_of counter every os is es)) /\
      w_env w' = e' /\ w_frame w' = f'.
  Proof.
    intros N HT L.
    destruct (rounds_traj HT counter (MkV (snd (reset (w_env w))) 0%Qc [] [] []) N L) as (v' & EV); [reflexivity|].
    assert (ES : start w = MkW (w_env (start w)) (w_frame (start w)) (w_sync (start w))) by reflexivity.
    rewrite <- ES in EV.
    assert (EX : exists w' r, nxt fuel counter every w = Some (counter + 1, w', Ok r)).
    { rewrite next_start, EV. eauto. }
    destruct EX as (w' & [os2 logs2] & EX). destruct (C126_returns_the_episode _ _ _ _ EX) as (is2 & es2 & HT2 & Hl & _).
    destruct (traj_fun HT HT2) as (-> & -> & -> & Z1 & Z2). exists w'. rewrite EX, Hl. auto.
  Qed.
  (* every returned episode: not empty, a chain from the reset state, terminal exactly at the end *)
  Lemma traj_shape b e f s os is es e' f' : Traj b e f s os is es e' f' ->
    (exists o, nth_error os 0 = Some o /\ o_s o = s) /\
    (forall n o o', nth_error os n = Some o -> nth_error os (Datatypes.S n) = Some o' -> o_n o = o_s o') /\
    (forall n o, nth_error os n = Some o -> (o_t o = true <-> n + 1 = length os)).
  Proof.
    induction 1 as [e f s o i e' f' HS Ht|e f s o i e' f' os is es e'' f'' HS Ht HT (H1 & H2 & H3)].
    - destruct HS as (m & r & a & _ & _ & _ & _ & Eo). split; [exists o; auto|]. split.
      + intros [|[|n]] o1 o2 _ Z; discriminate.
      + intros [|n] o1 Z; [|destruct n; discriminate]. injection Z as <-. cbn. rewrite Ht. split; auto.
    - destruct HS as (m & r & a & _ & _ & _ & _ & Eo). split; [exists o; auto|]. split.
      + intros [|n] o1 o2 Z1 Z2; cbn in Z1, Z2.
        * injection Z1 as <-. destruct H1 as (o3 & Z3 & Z4). destruct os; [discriminate|]. cbn in Z2, Z3. congruence.
        * eapply H2; eauto.
      + intros [|n] o1 Z; cbn in Z |- *.
        * injection Z as <-. rewrite Ht. split; [discriminate|]. destruct H1 as (o3 & Z3 & _). destruct os; [discriminate|cbn; lia].
        * rewrite (H3 _ _ Z). lia.
  Qed.
  Theorem C126_shape fuel counter every w c' w' os logs : nxt fuel counter every w = Some (c', w', Ok (os, logs)) ->
    (exists o, nth_error os 0 = Some o /\ o_s o = snd (reset (w_env w))) /\
    (forall n o o', nth_error os n = Some o -> nth_error os (Datatypes.S n) = Some o' -> o_n o = o_s o') /\
    (forall n o, nth_error os n = Some o -> (o_t o = true <-> n + 1 = length os)) /\
    last logs (LTotal 0%Qc) = LTotal (qsum (map (@o_r S X) os)).
  Proof.
    intros H. destruct (C126_returns_the_episode _ _ _ _ H) as (is & es & HT & -> & _).
    destruct (traj_shape HT) as (A & B & C). split; [exact A|]. split; [exact B|]. split; [exact C|].
    unfold logs_of. rewrite app_assoc. apply last_last.
  Qed.

  (* ---- C127: syncing ---- *)
  (* during the episode a distributed frame does not sync, and it starts with the newest parameters; afterwards it does *)
  Theorem C127_episode_partial fuel counter every w c' w' r : nxt fuel counter every w = Some (c', w', Ok r) ->
    has_sync = true -> w_sync w' = true /\ w_sync (start w) = false /\ w_frame (start w) = manual_sync (w_frame w).
  Proof.
    rewrite next_start. intros H Hh. unfold start in *. rewrite Hh in *.
    destruct (rounds _ _ _ _ _ _ _ _ _ _) as [[w1 [v1|x]]|]; try discriminate. injection H as <- <- <-. cbn. auto.
  Qed.
  (* "syncing is as it was before" fails: after an exception it stays off, and a caller who had switched it off finds it on *)
  Lemma round_err counter every w v w' x : round step render act meth_of choose counter every w v = (w', Err x) -> w_sync w' = w_sync w.
  Proof.
    unfold round. destruct every as [|n]; [intros H; now injection H as <- _|]. destruct meth_of as [m|]; [|intros H; now injection H as <- _].
    set (v1 := if _ =? 0 then _ else v). clearbody v1. destruct (act m (w_sync w) (w_frame w) (v_state v1)) as [f r].
    destruct (bind r choose) as [[a st]|]; [|intros H; now injection H as <- _]. cbn [w_env].
    destruct (step (w_env w) a) as [e [[[[s' rew] t'] i]|]]; intros H; [discriminate|now injection H as <- _].
  Qed.
  Lemma rounds_err fuel counter every : forall w v w' x, rounds step render act meth_of choose fuel counter every w v = Some (w', Err x) -> w_sync w' = w_sync w.
  Proof.
    induction fuel as [|fuel IH]; intros w v w' x H; [discriminate|]. cbn [rounds] in H.
    destruct (round step render act meth_of choose counter every w v) as [w1 [[v1 t]|y]] eqn:ER.
    - destruct (round_ok _ _ _ _ ER) as (_ & Hs & _). destruct t; [discriminate|]. rewrite <- Hs. eapply IH; eauto.
    - injection H as <- <-. eapply round_err; eauto.
  Qed.
  Theorem C127_refuted fuel counter every w c' w' x : nxt fuel counter every w = Some (c', w', Err x) ->
    has_sync = true -> w_sync w' = false /\ c' = counter.
  Proof.
    rewrite next_start. intros H Hh.
    destruct (rounds _ _ _ _ _ _ _ _ _ _) as [[w1 [v1|y]]|] eqn:ER; try discriminate. injection H as <- <- <-.
    rewrite (rounds_err _ _ _ _ _ ER). unfold start. rewrite Hh. auto.
  Qed.
  Theorem C127_switched_off_refuted fuel counter every w c' w' r : nxt fuel counter every w = Some (c', w', Ok r) ->
    has_sync = true -> w_sync w = false -> w_sync w' <> w_sync w.
  Proof. intros H Hh Hw. destruct (C127_episode_partial _ _ _ _ H Hh) as (-> & _). rewrite Hw. discriminate. Qed.

  (* ---- C128: every n-th episode is rendered ---- *)
  (* consecutive calls *)
  Fixpoint calls (n fuel counter every : nat) w : list (list obs * list (@log I Img)) :=
    match n with
    | 0 => []
    | Datatypes.S n => match nxt fuel counter every w with
                       | Some (c, w, Ok r) => r :: calls n fuel c every w
                       | _ => []
                       end
    end.
  Definition videos (l : list (@log I Img)) : list (list Img) := flat_map (fun x => match x with LVideo v => [v] | _ => [] end) l.
  Lemma traj_len b e f s os is es e' f' : Traj b e f s os is es e' f' -> length es = length os.
  Proof. induction 1; cbn; auto. Qed.
  Theorem C128_partial n fuel counter every w k os logs : nth_error (calls n fuel counter every w) k = Some (os, logs) ->
    if ((counter + k) mod every) =? 0 then exists v, videos logs = [v] /\ length v = length os else videos logs = [].
  Proof.
    revert n counter w. induction k as [|k IH]; intros [|n] counter w H; try discriminate; cbn [calls] in H;
      destruct (nxt fuel counter every w) as [[[c1 w1] [[os1 logs1]|x]]|] eqn:EN; try discriminate.
    - cbn in H. injection H as -> ->. rewrite Nat.add_0_r. destruct (C126_returns_the_episode _ _ _ _ EN) as (is & es & HT & -> & _).
      assert (VI : forall l, videos (map (@LInfo I Img) l) = []) by (induction l; cbn; auto).
      unfold videos, logs_of in *. rewrite !flat_map_app, VI. destruct (_ =? 0); cbn; [|reflexivity].
      exists (map render es). split; [reflexivity|]. rewrite map_length. eapply traj_len; eauto.
    - cbn in H. apply IH in H. destruct (C126_returns_the_episode _ _ _ _ EN) as (_ & _ & _ & _ & ->).
      replace (counter + Datatypes.S k) with (counter + 1 + k) by lia. exact H.
  Qed.
  (* render_every_episode = 0: no episode can be played at all *)
  Theorem C128_refuted fuel counter w : 0 < fuel -> nxt fuel counter 0 w = Some (counter, start w, Err EZeroDiv).
  Proof. intros H. rewrite next_start. destruct fuel; [lia|]. reflexivity. Qed.
End Next.
Print Assumptions C126_returns_the_episode.
Print Assumptions C126_every_finite_episode.
Print Assumptions C126_shape.
Print Assumptions C127_episode_partial.
Print Assumptions C127_refuted.
Print Assumptions C127_switched_off_refuted.
Print Assumptions C128_partial.
Print Assumptions C128_refuted.

(* an environment that counts down from 2; the agent returns its state, newest parameters 7 *)
Definition demo (every counter : nat) (w : @world nat nat) :=
  next (E := nat) (S := nat) (V := nat) (X := nat) (I := nat) (Img := nat) (F := nat)
    (fun e => (2, 2)) (fun e v => (e - 1, if e =? 0 then Err EOther else Ok (e - 1, nq v, e =? 1, e))) (fun e => 100 + e)
    (fun m b f s => (f + 1, Ok (Tup [Mat [[f]]; Mat [[s]]]))) (disc_meth KA2c) (disc_choose KA2c) (fun _ => 7) true 5 counter every w.
Example C126_nonvacuous : exists w, demo 3 0 (MkW 0 0 true) =
  Some (1, w, Ok ([MkObs 2 (Mat [[7]]) 1 (nq 7) false; MkObs 1 (Mat [[8]]) 0 (nq 8) true],
                  [LInfo 2; LInfo 1; LVideo [102; 101]; LTotal (qsum [nq 7; nq 8])])) /\ w_sync w = true.
Proof. eexists. split; [vm_compute; reflexivity|]. reflexivity. Qed.
Example C127_nonvacuous : exists w,
  next (E := nat) (S := nat) (V := nat) (X := nat) (I := nat) (Img := nat) (F := nat)
    (fun e => (2, 2)) (fun e v => (e, Err EOther)) (fun e => e) (fun m b f s => (f, Ok (Bare (Sca 1)))) (disc_meth KArs) (disc_choose KArs)
    (fun f => f) true 5 0 3 (MkW 0 0 true) = Some (0, w, Err EOther) /\ w_sync w = false.
Proof. eexists. split; [vm_compute; reflexivity|]. reflexivity. Qed.
Example C128_nonvacuous :
  option_map (fun x => match x with (c, _, Ok (_, l)) => (c, length l) | (c, _, Err _) => (c, 0) end) (demo 3 1 (MkW 0 0 true)) = Some (2, 3) /\
  option_map (fun x => match x with (c, _, Ok (_, l)) => (c, length l) | (c, _, Err _) => (c, 0) end) (demo 3 3 (MkW 0 0 true)) = Some (4, 4) /\
  option_map (fun x => match x with (c, _, Ok (_, l)) => None | (c, _, Err e) => Some e end) (demo 0 3 (MkW 0 0 true)) = Some (Some EZeroDiv).
Proof. repeat split; vm_compute; reflexivity. Qed.

(* ---- C129: stored actions can be used for training ---- *)
Section Store.
  Context {X : Type}.
  Implicit Types (row : list X) (r : ret X).
  Definition ddpg_family (k : kind) : Prop := In k [KDdpg; KDdpgPer; KHddpg; KTd3; KDdpgApex].
  Definition ac_family (k : kind) : Prop := In k [KA2c; KPpo; KSac; KGail; KA3c; KImpala].
  Definition dqn_family (k : kind) : Prop := In k [KDqn; KDqnPer; KDqnApex; KRainbow].
  (* frames that return a tuple starting with the action, one row; a batch of such actions is a matrix with one row each *)
  Theorem C129_actor_critic_partial k row rest : ac_family k ->
    disc_meth k = Some MAct /\ cont_meth k = Some MAct /\
    cont_choose k (Tup (Mat [row] :: rest)) = Ok (Mat [row], Mat [row]) /\ accepted (Mat [row]) = true /\
    forall x, disc_choose k (Tup (Mat [[x]] :: rest)) = Ok (x, Mat [[x]]).
  Proof. intros [<-|[<-|[<-|[<-|[<-|[<-|[]]]]]]]; repeat split; auto. Qed.
  (* discrete actions of the DDPG family: the environment gets the action, the distribution is stored *)
  Theorem C129_discrete_partial k x row : (ddpg_family k -> disc_meth k = Some MDiscNoise /\ disc_choose k (Tup [Mat [[x]]; Mat [row]]) = Ok (x, Mat [row])) /\
    (dqn_family k -> disc_meth k = Some MDiscNoise /\ disc_choose k (Bare (Mat [[x]])) = Ok (x, Mat [[x]])) /\ accepted (Mat [row]) = true.
  Proof.
    split; [intros [<-|[<-|[<-|[<-|[<-|[]]]]]]; split; auto|]. split; [intros [<-|[<-|[<-|[<-|[]]]]]; split; auto|reflexivity].
  Qed.
  Theorem C129_batch (rows : list (list X)) : rows <> [] -> cat (map (fun row => Mat [row]) rows) = Ok (Mat rows).
  Proof.
    induction rows as [|r rows IH]; [congruence|]. intros _. destruct rows as [|r2 rows]; [reflexivity|].
    change (bind (cat (map (fun row => Mat [row]) (r2 :: rows))) (fun u => match Mat [r], u with
      | Vec a, Vec b => Ok (Vec (a ++ b)) | Mat a, Mat b => Ok (Mat (a ++ b)) | _, _ => Err EType end) = Ok (Mat (r :: r2 :: rows))).
    rewrite IH by discriminate. reflexivity.
  Qed.
  (* continuous actions of the DDPG family with an actor that returns the action only: the row is taken out of the batch,
     the transition is refused unless the action has exactly one number, and then a batch of actions is a vector *)
  Theorem C129_refuted k row : ddpg_family k -> cont_meth k = Some MNoise /\ exists a, cont_choose k (Bare (Mat [row])) = Ok (a, a) /\ a <> Mat [row] /\
    (length row <> 1 -> accepted a = false).
  Proof.
    intros H. split; [destruct H as [<-|[<-|[<-|[<-|[<-|[]]]]]]; reflexivity|]. exists (Vec row). split.
    - destruct H as [<-|[<-|[<-|[<-|[<-|[]]]]]]; reflexivity.
    - split; [discriminate|]. unfold accepted. cbn. destruct (length row) as [|[|n]]; congruence.
  Qed.
  Theorem C129_batch_refuted (xs : list X) : xs <> [] -> cat (map (fun x => Vec [x]) xs) = Ok (Vec xs).
  Proof.
    induction xs as [|r xs IH]; [congruence|]. intros _. destruct xs as [|r2 xs]; [reflexivity|].
    change (bind (cat (map (fun x => Vec [x]) (r2 :: xs))) (fun u => match Vec [r], u with
      | Vec a, Vec b => Ok (Vec (a ++ b)) | Mat a, Mat b => Ok (Mat (a ++ b)) | _, _ => Err EType end) = Ok (Vec (r :: r2 :: xs))).
    rewrite IH by discriminate. reflexivity.
  Qed.
  (* single numbers cannot be batched at all: TypeError, whatever comes before *)
  Theorem C129_numbers_refuted (l : list (tensor X)) x : cat (l ++ [Sca x]) = Err EType.
  Proof.
    induction l as [|t l IH]; [reflexivity|]. cbn [app]. destruct (l ++ [Sca x]) as [|u r] eqn:E; [destruct l; discriminate|].
    change (cat (t :: u :: r)) with (bind (cat (u :: r)) (fun w => match t, w with
      | Vec a, Vec b => Ok (Vec (a ++ b)) | Mat a, Mat b => Ok (Mat (a ++ b)) | _, _ => Err EType end)). rewrite IH. reflexivity.
  Qed.
  (* TRPO and MADDPG cannot be used *)
  Theorem C129_unsupported k : disc_meth k = None <-> k = KTrpo \/ k = KMaddpg.
  Proof. destruct k; cbn; split; intros H; try discriminate; auto; destruct H; congruence. Qed.
End Store.
Print Assumptions C129_actor_critic_partial.
Print Assumptions C129_discrete_partial.
Print Assumptions C129_batch.
Print Assumptions C129_refuted.
Print Assumptions C129_batch_refuted.
Print Assumptions C129_numbers_refuted.
Print Assumptions C129_unsupported.
Example C129_nonvacuous :
  cont_choose KTd3 (Bare (Mat [[1; 2; 3]])) = Ok (Vec [1; 2; 3], Vec [1; 2; 3]) /\ accepted (Vec [1; 2; 3]) = false /\
  cont_choose KTd3 (Tup [Mat [[1; 2; 3]]; Mat [[4]]]) = Ok (Mat [[1; 2; 3]], Mat [[1; 2; 3]]) /\ accepted (Mat [[1; 2; 3]]) = true.
Proof. repeat split; reflexivity. Qed.
