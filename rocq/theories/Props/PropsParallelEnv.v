(* C49, C66: parallel environments. *)
From Verif Require Import Lib.Base Model.ParallelEnv Spec.ParallelEnvSpec Proofs.ParallelEnvProofs.
Set Implicit Arguments.

(* ---------------- C49 ---------------- *)
(* Distinct environments, nothing left over from an earlier failure: whatever the order in which the
   workers answer, a request returns the answers of this request in the requested order, leaves
   nothing behind and every environment has executed its command exactly once; an exception is one
   raised by a selected environment; and as long as it has not returned, there is work or an answer to wait for.
   Missing for the full claim: repeated indexes and requests after a failed one, where it is false. *)
Theorem C49_request_partial : forall (S Cmd R X : Type) (exec : nat -> S -> Cmd -> S * (R + X)) idxs cmds sched s,
  resq s = [] -> (forall w, In w (workers s) -> snd w = []) ->
  NoDup idxs -> length cmds = length idxs -> (forall i, In i idxs -> i < length (workers s)) ->
  let envs0 := map fst (workers s) in
  let (s', o) := call exec idxs cmds sched s in
  match o with
  | Returned rs =>
      map (fun ic => answer exec envs0 (fst ic) (snd ic)) (combine idxs cmds) = map (fun r => Some (inl r)) rs
      /\ (resq s' = [] /\ forall w, In w (workers s') -> snd w = [])
      /\ forall i, nth_error (map fst (workers s')) i = after exec envs0 idxs cmds i
  | Raised x => exists i c, In (i, c) (combine idxs cmds) /\ answer exec envs0 i c = Some (inr x)
  | PyError _ => False
  | Blocked => (exists w, In w (workers s') /\ snd w <> []) \/ resq s' <> []
  end.
Proof.
  intros S Cmd R X exec idxs cmds sched s Q E N L B.
  exact (@call_ok S Cmd R X exec idxs cmds sched s (conj Q E) N L B).
Qed.
Print Assumptions C49_request_partial.

(* Hence any number of requests, as long as each of them returned. *)
Theorem C49_sequence_partial : forall (S Cmd R X : Type) (exec : nat -> S -> Cmd -> S * (R + X)) reqs,
  forall s,
  resq s = [] -> (forall w, In w (workers s) -> snd w = []) ->
  (forall r, In r reqs -> NoDup (fst (fst r)) /\ length (snd (fst r)) = length (fst (fst r))
                          /\ forall i, In i (fst (fst r)) -> i < length (workers s)) ->
  (fix check (reqs : list (list nat * list Cmd * list event)) (s : st S Cmd R X) : Prop :=
     match reqs with
     | [] => True
     | (idxs, cmds, sched) :: rest =>
         match call exec idxs cmds sched s with
         | (s', Returned rs) =>
             map (fun ic => answer exec (map fst (workers s)) (fst ic) (snd ic)) (combine idxs cmds)
               = map (fun r => Some (inl r)) rs
             /\ (forall i, nth_error (map fst (workers s')) i = after exec (map fst (workers s)) idxs cmds i)
             /\ check rest s'
         | (_, PyError _) => False
         | _ => True
         end
     end) reqs s.
Proof.
  intros S Cmd R X exec reqs. induction reqs as [|[[idxs cmds] sched] rest IH]; intros s Q E H; [exact I|].
  destruct (H _ (or_introl eq_refl)) as (N & L & B). cbn [fst snd] in *.
  pose proof (C49_request_partial exec cmds sched s Q E N L B) as C. cbn zeta in C.
  destruct (call exec idxs cmds sched s) as [s' [rs|x|e|]]; auto.
  destruct C as (C1 & [Q' E'] & C3). split; [exact C1|]. split; [exact C3|]. apply IH; auto.
  intros r Hr. destruct (H r (or_intror Hr)) as (N' & L' & B'). repeat split; auto.
  intros i Hi. specialize (B' i Hi).
  rewrite <- (map_length fst) in B' |- *. apply nth_error_Some. rewrite C3. unfold after.
  apply nth_error_Some in B'. destruct (nth_error (map fst (workers s)) i); [|congruence].
  destruct (cmd_of idxs cmds i); discriminate.
Qed.
Print Assumptions C49_sequence_partial.

(* After a request that failed, the next one can return the answer to the failed request. *)
Theorem C49_refuted : forall (S Cmd R X : Type) (exec : nat -> S -> Cmd -> S * (R + X)) e0 e1 c0 c1 c2 x r1,
  snd (exec 0 e0 c0) = inr x -> snd (exec 1 e1 c1) = inl r1 ->
  exists sched1 sched2,
    let (s1, o1) := call exec [0; 1] [c0; c1] sched1 (new [e0; e1]) in
    o1 = Raised x /\ snd (call exec [1] [c2] sched2 s1) = Returned [r1].
Proof.
  intros S Cmd R X exec e0 e1 c0 c1 c2 x r1 H0 H1.
  exists [Work 0; Work 1; Get], [Get].
  destruct (exec 0 e0 c0) as [e0' a0] eqn:A0, (exec 1 e1 c1) as [e1' a1] eqn:A1. cbn in H0, H1. subst.
  unfold call. cbn. rewrite A0. cbn. rewrite A1. split; reflexivity.
Qed.
Print Assumptions C49_refuted.

(* A selection with a repeated index never returns. *)
Theorem C49_repeated_refuted : forall (S Cmd R X : Type) (exec : nat -> S -> Cmd -> S * (R + X)) i c c' s sched rs,
  resq s = [] -> (forall w, In w (workers s) -> snd w = []) ->
  snd (call exec [i; i] [c; c'] sched s) <> Returned rs.
Proof.
  intros S Cmd R X exec i c c' s sched rs Q E. unfold call.
  assert (G : forall s result, (forall w j, nth_error (workers s) j = Some w -> j <> i -> snd w = []) ->
             (forall j v, In (j, v) (resq s) -> j = i) -> (forall j, In j (dkeys result) -> j = i) ->
             NoDup (dkeys result) -> snd (collect exec [i; i] result sched s) <> Returned rs).
  { induction sched as [|ev sched IH]; intros s0 result W A K N; cbn [collect length].
    - destruct (Nat.leb_spec 2 (length result)) as [L|L]; [|cbn; discriminate]. exfalso.
      destruct result as [|[a va] [|[b vb] r]]; cbn in L; try lia.
      assert (a = i) by (apply K; cbn; auto). assert (b = i) by (apply K; cbn; auto). subst.
      inversion N as [|? ? N1 N2]. apply N1. now left.
    - destruct (Nat.leb_spec 2 (length result)) as [L|L].
      { exfalso. destruct result as [|[a va] [|[b vb] r]]; cbn in L; try lia.
        assert (a = i) by (apply K; cbn; auto). assert (b = i) by (apply K; cbn; auto). subst.
        inversion N as [|? ? N1 N2]. apply N1. now left. }
      destruct ev as [k|].
      + apply IH; auto; unfold work; destruct (nth_error (workers s0) k) as [[ek [|ck q]]|] eqn:Ek; auto.
        * destruct (exec k ek ck) as [e' r'] eqn:Ex. cbn. intros w j Hj Nj.
          destruct (Nat.eq_dec k j) as [<-|Nk].
          -- specialize (W _ _ Ek Nj). discriminate.
          -- rewrite upd_other in Hj by auto. eauto.
        * destruct (exec k ek ck) as [e' r'] eqn:Ex. cbn. intros j v Hj. apply in_app_or in Hj as [Hj|[Hj|[]]]; eauto.
          injection Hj as <- <-. destruct (Nat.eq_dec k i); auto. specialize (W _ _ Ek n). discriminate.
      + destruct (resq s0) as [|[j [v|x]] q] eqn:Eq; [apply IH; auto| |cbn; discriminate].
        * intros j v Hv. rewrite Eq in Hv. destruct Hv.
        * apply IH; cbn; auto.
          -- intros j' v' Hv. apply (A j' v'). now right.
          -- intros j' Hj'. apply In_dkeys_dset in Hj' as [->|]; auto. apply (A j (inl v)). now left.
          -- now apply NoDup_dset. }
  cbn [put_all]. destruct (nth_error (workers s) i) as [[e q]|] eqn:Ei; [|cbn; discriminate].
  cbn [workers resq]. destruct (nth_error (upd i (e, q ++ [c]) (workers s)) i) as [[e2 q2]|] eqn:E2; [|cbn; discriminate].
  apply G; cbn.
  - intros w j Hj Nj. rewrite !upd_other in Hj by auto. apply E. eapply nth_error_In; eauto.
  - rewrite Q. intros j v [].
  - intros j [].
  - constructor.
Qed.
Print Assumptions C49_repeated_refuted.

Example C49_nonvacuous :
  let exec (i s c : nat) := (s + c, if c =? 9 then inr i else inl (100 * i + s + c)) in
  let s0 := new [1; 2; 3] in
  (* answers arrive in the order 2, 0; requested order 0, 2 *)
  snd (call exec [0; 2] [5; 6] [Work 2; Get; Work 0; Get] s0) = Returned [6; 209]
  (* failing request, then a stale answer *)
  /\ (let s1 := fst (call exec [0; 2] [9; 6] [Work 0; Work 2; Get] s0) in
      snd (call exec [2] [1] [Get] s1) = Returned [209]
      /\ snd (call exec [2] [1] [Work 2; Get] (new [1; 2; 9])) = Returned [210]).
Proof. repeat split. Qed.

(* ---------------- C66 ---------------- *)
Definition as_spec (c : tcall) : list nat * option (list bool) :=
  match c with TReset is => (is, None) | TStep is vs => (is, Some vs) end.
Definition distinct_step (c : tcall) : Prop :=
  match c with
  | TReset is => True
  | TStep is vs => NoDup is /\ length vs = length is
  end.
Lemma assign_length t idxs vs : length (assign t idxs vs) = length t.
Proof. revert t vs. induction idxs as [|i is IH]; intros t [|v vs]; cbn; auto. rewrite IH. apply upd_length. Qed.
Lemma sub_step_length t c : length (sub_step t c) = length t.
Proof. destruct c; cbn; apply assign_length. Qed.
Lemma assign_other t idxs vs i : ~ In i idxs -> nth i (assign t idxs vs) false = nth i t false.
Proof.
  revert t vs. induction idxs as [|j is IH]; intros t [|v vs] H; cbn; auto.
  rewrite IH by (intros C; apply H; now right). rewrite upd_nth.
  destruct (Nat.eqb_spec j i); auto. subst. exfalso. apply H. now left.
Qed.
Lemma reset_nth t idxs i : nth i (t_reset t idxs) false = if existsb (Nat.eqb i) idxs then false else nth i t false.
Proof.
  unfold t_reset. revert t. induction idxs as [|j is IH]; intros t; cbn; auto.
  rewrite IH, upd_nth. rewrite (Nat.eqb_sym j i).
  destruct (existsb (Nat.eqb i) is); [now rewrite orb_true_r|].
  destruct (Nat.eqb_spec i j) as [->|N]; cbn [andb orb]; auto.
  destruct (Nat.ltb_spec j (length t)) as [L|L]; auto. apply nth_overflow. lia.
Qed.
Lemma step_nth t idxs vs i : NoDup idxs -> length vs = length idxs -> i < length t ->
  nth i (or_assign t idxs vs) false
  = (nth i t false || existsb (fun iv => Nat.eqb i (fst iv) && snd iv) (combine idxs vs))%bool.
Proof.
  unfold or_assign. intros N L B.
  assert (G : forall t', length t' = length t -> (forall j, In j idxs -> nth j t' false = nth j t false) ->
     nth i t' false = nth i t false ->
     nth i (assign t' idxs (map (fun iv => (nth (fst iv) t false || snd iv)%bool) (combine idxs vs))) false
     = (nth i t false || existsb (fun iv => Nat.eqb i (fst iv) && snd iv) (combine idxs vs))%bool).
  2:{ apply G; auto. }
  revert vs L N. induction idxs as [|j is IH]; intros [|v vs] L N t' Lt H Hi; cbn in *; try discriminate.
  - now rewrite orb_false_r.
  - inversion N as [|? ? N1 N2]; subst. destruct (Nat.eqb_spec i j) as [->|Nj]; cbn.
    + rewrite assign_other by auto. rewrite upd_nth, Nat.eqb_refl, Lt.
      destruct (Nat.ltb_spec j (length t)); [|lia]. cbn.
      replace (existsb (fun iv => (j =? fst iv) && snd iv)%bool (combine is vs)) with false; [now rewrite orb_false_r|].
      symmetry. apply Bool.not_true_iff_false. intros C. apply existsb_exists in C as ([a b] & I & E).
      apply andb_true_iff in E as [E _]. apply Nat.eqb_eq in E. cbn in E. subst a.
      apply in_combine_l in I. contradiction.
    + apply IH; auto.
      * now rewrite upd_length.
      * intros k Hk. rewrite upd_nth. destruct (Nat.eqb_spec j k) as [->|]; [contradiction|]. cbn. apply H. now right.
      * rewrite upd_nth. destruct (Nat.eqb_spec j i); [congruence|]. exact Hi.
Qed.

Lemma flags_spec n calls : (forall c, In c calls -> distinct_step c) ->
  length (fold_left sub_step calls (repeat false n)) = n /\
  forall i, i < n -> nth i (fold_left sub_step calls (repeat false n)) false = ended (map as_spec calls) i.
Proof.
  intros D.
  assert (L : forall cs t, length (fold_left sub_step cs t) = length t).
  { induction cs as [|c cs IHc]; cbn; intros; auto. rewrite IHc. apply sub_step_length. }
  split; [rewrite L; apply repeat_length|]. intros i Hi. unfold ended.
  assert (G : forall t b, length t = n -> nth i t false = b ->
    nth i (fold_left sub_step calls t) false = fold_left (fun b c =>
      match snd c with
      | None => if existsb (Nat.eqb i) (fst c) then false else b
      | Some vs => (b || existsb (fun iv => Nat.eqb i (fst iv) && snd iv) (combine (fst c) vs))%bool
      end) (map as_spec calls) b).
  { induction calls as [|c cs IH]; intros t b Lt E; cbn; auto. apply IH.
    - intros c' Hc. apply D. now right.
    - rewrite sub_step_length. auto.
    - specialize (D c (or_introl eq_refl)). destruct c as [is|is vs]; cbn.
      + rewrite reset_nth, E. reflexivity.
      + destruct D as [N Lv]. rewrite step_nth, E; auto. lia. }
  apply G; [apply repeat_length|]. clear. revert i. induction n; intros [|i]; cbn; auto.
Qed.

(* active() lists exactly the environments whose episode has not ended, if no step selects an
   environment twice. Missing: steps with repeated indexes, where it is false. *)
Theorem C66_active_partial : forall n calls,
  (forall c, In c calls -> distinct_step c) ->
  forall i, In i (active (fold_left sub_step calls (repeat false n))) <-> i < n /\ ended (map as_spec calls) i = false.
Proof.
  intros n calls D i. destruct (flags_spec n calls D) as [L G]. unfold active.
  rewrite filter_In, in_seq, L. cbn. rewrite negb_true_iff.
  split; intros [A B]; (split; [lia|]); [rewrite <- G by lia; auto|rewrite G by lia; auto].
Qed.
Print Assumptions C66_active_partial.
(* The single-process wrapper refuses a step iff a selected environment has ended, and otherwise does the same. *)
Theorem C66_refusal_partial : forall n calls idxs vs,
  (forall c, In c calls -> distinct_step c) -> (forall i, In i idxs -> i < n) ->
  let t := fold_left sub_step calls (repeat false n) in
  dummy_step t (TStep idxs vs) =
    if existsb (ended (map as_spec calls)) idxs then (t, false) else (sub_step t (TStep idxs vs), true).
Proof.
  intros n calls idxs vs D B t. destruct (flags_spec n calls D) as [L G]. cbn.
  replace (existsb (fun i => nth i t false) idxs) with (existsb (ended (map as_spec calls)) idxs); auto.
  induction idxs as [|i is IH]; cbn; auto. rewrite IH by (intros; apply B; now right).
  unfold t. rewrite G by (apply B; now left). reflexivity.
Qed.
Print Assumptions C66_refusal_partial.
(* a reset is never refused, terminated environments or not, and makes exactly its environments active *)
Theorem C66_reset : forall t idxs, exists t', dummy_step t (TReset idxs) = (t', true) /\ length t' = length t /\
  forall i, nth i t' false = if existsb (Nat.eqb i) idxs then false else nth i t false.
Proof.
  intros t idxs. exists (t_reset t idxs). split; [reflexivity|]. unfold t_reset. revert t.
  induction idxs as [|a r IH]; intros t; cbn [map assign existsb]; [auto|].
  destruct (IH (upd a false t)) as [L N]. split; [now rewrite L, upd_length|]. intros i. rewrite N.
  destruct (existsb (Nat.eqb i) r); [now rewrite orb_true_r|]. rewrite orb_false_r.
  rewrite upd_nth. destruct (Nat.eqb_spec i a) as [->|D]; [|destruct (Nat.eqb_spec a i); [congruence|reflexivity]].
  rewrite Nat.eqb_refl. cbn [andb]. destruct (Nat.ltb_spec a (length t)); [reflexivity|]. apply nth_overflow. lia.
Qed.
Print Assumptions C66_reset.
(* A repeated index: the environment has ended but is still listed as active. *)
Theorem C66_repeated_refuted : forall n i, i < n ->
  In i (active (sub_step (repeat false n) (TStep [i; i] [true; false])))
  /\ ended [as_spec (TStep [i; i] [true; false])] i = true.
Proof.
  intros n i H. split.
  - unfold active, sub_step, or_assign. cbn [combine map fst snd assign].
    assert (E : nth i (repeat false n) false = false) by (clear; revert i; induction n; intros [|i]; cbn; auto).
    rewrite E. cbn [orb]. rewrite filter_In, in_seq, !upd_length, repeat_length. split; [lia|].
    rewrite upd_nth, Nat.eqb_refl, upd_length, repeat_length.
    destruct (Nat.ltb_spec i n); [reflexivity|lia].
  - cbn. now rewrite Nat.eqb_refl.
Qed.
Print Assumptions C66_repeated_refuted.
Example C66_nonvacuous :
  let cs := [TStep [0; 2] [true; false]; TStep [2] [true]; TReset [0]] in
  active (fold_left sub_step cs (repeat false 4)) = [0; 1; 3]
  /\ ended (map as_spec cs) 2 = true
  /\ snd (dummy_step (fold_left sub_step cs (repeat false 4)) (TStep [1; 2] [false; false])) = false.
Proof. repeat split. Qed.
