(* C182, C183: collective groups *)
From Verif Require Import Lib.Base Model.Collective.
Set Implicit Arguments.

(* Specification. *)
Definition smaller (r : nat) (l : list nat) : nat := length (filter (fun x => x <? r) l).

Lemma insert_in x y l : In x (insert y l) <-> x = y \/ In x l.
Proof.
  induction l as [|z r IH]; cbn; [intuition|]. destruct (y <=? z); cbn; [intuition congruence|]. rewrite IH. intuition.
Qed.
Lemma sorted_in x l : In x (sorted l) <-> In x l.
Proof.
  unfold sorted. induction l as [|y r IH]; cbn [fold_right]; [tauto|]. rewrite insert_in, IH. cbn. intuition congruence.
Qed.
Lemma smaller_insert x y l : smaller x (insert y l) = smaller x (y :: l).
Proof.
  induction l as [|z r IH]; [reflexivity|]. cbn [insert]. destruct (y <=? z) eqn:E; [reflexivity|].
  unfold smaller in *. cbn [filter] in *. destruct (z <? x) eqn:Ez, (y <? x) eqn:Ey; cbn [length] in *; rewrite IH; reflexivity.
Qed.
Lemma smaller_sorted x l : smaller x (sorted l) = smaller x l.
Proof.
  unfold sorted. induction l as [|y r IH]; [reflexivity|]. cbn [fold_right]. rewrite smaller_insert.
  unfold smaller in *. cbn [filter]. destruct (y <? x); cbn [length]; now rewrite IH.
Qed.
Inductive asc : list nat -> Prop :=
| asc_nil : asc []
| asc_cons x l : (forall y, In y l -> x <= y) -> asc l -> asc (x :: l).
Lemma asc_insert x l : asc l -> asc (insert x l).
Proof.
  induction 1 as [|y l Hy A IH]; cbn; [constructor; [intros ? []|constructor]|].
  destruct (Nat.leb_spec x y) as [L|L].
  - constructor; [|constructor; auto]. intros z [<-|I]; [auto|]. specialize (Hy z I). lia.
  - constructor; auto. intros z I. apply insert_in in I. destruct I as [->|I]; [lia|auto].
Qed.
Lemma asc_sorted l : asc (sorted l).
Proof. induction l as [|x r IH]; [constructor|]. now apply asc_insert. Qed.
Lemma index_none x l : index x l = None <-> ~ In x l.
Proof.
  induction l as [|y r IH]; cbn; [tauto|]. destruct (Nat.eqb_spec x y) as [->|N].
  - split; [discriminate|intros H; exfalso; apply H; now left].
  - destruct (index x r); cbn; [split; [discriminate|]|split; auto]; intros H; try intros [E|I]; try congruence.
    + exfalso. apply H. right. destruct (In_dec Nat.eq_dec x r) as [I|I]; auto. exfalso. apply IH in I. discriminate.
    + now apply IH.
Qed.
Lemma index_asc x l i : asc l -> index x l = Some i -> i = smaller x l.
Proof.
  intros A. revert i. induction A as [|y l Hy A IH]; intros i; cbn [index]; [discriminate|].
  destruct (Nat.eqb_spec x y) as [->|N].
  - intros [= <-]. unfold smaller. cbn [filter]. rewrite Nat.ltb_irrefl.
    assert (filter (fun z => z <? y) l = []) as ->; auto.
    clear -Hy. induction l as [|z r IH]; auto. cbn [filter]. destruct (Nat.ltb_spec z y) as [L|L].
    + specialize (Hy z (or_introl eq_refl)). lia.
    + apply IH. intros w I. apply Hy. now right.
  - destruct (index x l) as [j|] eqn:E; cbn [option_map]; [|discriminate]. intros [= <-]. rewrite (IH j eq_refl).
    unfold smaller. cbn [filter]. assert (In x l) as I.
    { destruct (In_dec Nat.eq_dec x l) as [I|I]; auto. apply index_none in I. congruence. }
    specialize (Hy x I). destruct (Nat.ltb_spec y x); [reflexivity|lia].
Qed.
Lemma existsb_in x l : existsb (Nat.eqb x) l = true <-> In x l.
Proof. rewrite existsb_exists. split; [intros (y & I & E); apply Nat.eqb_eq in E; now subst|intros I; exists x; rewrite Nat.eqb_refl; auto]. Qed.
Lemma current me ranks : g_current (create_collective_group me ranks) = index me (sorted ranks).
Proof.
  unfold create_collective_group. cbn. destruct (existsb (Nat.eqb me) (sorted ranks)) eqn:E; auto.
  symmetry. apply index_none. intros I. apply existsb_in in I. congruence.
Qed.
Lemma index_nth x l i : index x l = Some i -> nth_error l i = Some x.
Proof.
  revert i; induction l as [|y r IH]; intros i; cbn; [discriminate|]. destruct (Nat.eqb_spec x y) as [->|N].
  - intros [= <-]. reflexivity.
  - destruct (index x r) as [j|]; cbn; [|discriminate]. intros [= <-]. cbn. auto.
Qed.
Lemma index_some x l : In x l -> exists i, index x l = Some i.
Proof. intros I. destruct (index x l) as [i|] eqn:E; [eauto|]. apply index_none in E. tauto. Qed.

(* C182: current_rank of a member is the number of members with a smaller rank, whatever the order in which the
   ranks were given; other processes have None.  The members are numbered 0, 1, ... without gaps. *)
Theorem C182_ranks : forall rank ranks,
  g_current (create_collective_group rank ranks) = (if in_dec Nat.eq_dec rank ranks then Some (smaller rank ranks) else None).
Proof.
  intros rank ranks. rewrite current. destruct (in_dec Nat.eq_dec rank ranks) as [I|I].
  - destruct (index_some rank (sorted ranks)) as (i & E); [now apply sorted_in|]. rewrite E. f_equal.
    rewrite (index_asc rank (asc_sorted ranks) E). apply smaller_sorted.
  - apply index_none. now rewrite sorted_in.
Qed.
Print Assumptions C182_ranks.
Lemma insert_length x l : length (insert x l) = S (length l).
Proof. induction l as [|y r IH]; cbn; auto. destruct (x <=? y); cbn; auto. Qed.
Lemma sorted_length l : length (sorted l) = length l.
Proof. unfold sorted. induction l as [|y r IH]; cbn [fold_right]; auto. rewrite insert_length. cbn. auto. Qed.
Lemma insert_nodup x l : ~ In x l -> NoDup l -> NoDup (insert x l).
Proof.
  intros N D. induction D as [|y l I D IH]; cbn; [constructor; [intros []|constructor]|].
  destruct (x <=? y).
  - constructor; [exact N|constructor; auto].
  - constructor.
    + rewrite insert_in. intros [->|J]; [apply N; now left|auto].
    + apply IH. intros J. apply N. now right.
Qed.
Lemma sorted_nodup l : NoDup l -> NoDup (sorted l).
Proof. unfold sorted. induction 1; cbn [fold_right]; [constructor|]. apply insert_nodup; auto. fold (sorted l). now rewrite sorted_in. Qed.
Lemma nth_index l i x : NoDup l -> nth_error l i = Some x -> index x l = Some i.
Proof.
  intros D. revert i. induction D as [|y l I D IH]; intros i; [destruct i; discriminate|].
  destruct i as [|i]; cbn.
  - intros [= ->]. now rewrite Nat.eqb_refl.
  - intros E. destruct (Nat.eqb_spec x y) as [->|N]; [exfalso; apply I; eapply nth_error_In; eauto|].
    now rewrite (IH i E).
Qed.
Theorem C182_numbering : forall ranks i, NoDup ranks -> i < length ranks ->
  exists r, In r ranks /\ g_current (create_collective_group r ranks) = Some i /\
            forall r', g_current (create_collective_group r' ranks) = Some i -> r' = r.
Proof.
  intros ranks i D L. destruct (nth_error (sorted ranks) i) as [r|] eqn:E.
  2:{ apply nth_error_None in E. rewrite sorted_length in E. lia. }
  exists r. split; [apply sorted_in; eapply nth_error_In; eauto|]. rewrite current. split.
  - apply nth_index; [now apply sorted_nodup|auto].
  - intros r' E'. rewrite current in E'. apply index_nth in E'. congruence.
Qed.
Print Assumptions C182_numbering.
Example C182_nonvacuous :
  map (fun r => g_current (create_collective_group r [7; 2; 5])) [0; 2; 5; 7] = [None; Some 0; Some 1; Some 2].
Proof. reflexivity. Qed.

(* C183: what was sent from member p to member q with a tag, and what receives of q with that tag that name p as
   the source returned *)
Definition sent1 (p q tag : nat) (e : event) : list nat :=
  match e with
  | ESent me dst t v (Ok _) => if Nat.eqb me p && Nat.eqb dst q && Nat.eqb t tag then [v] else []
  | _ => []
  end.
Definition got1 (p q tag : nat) (e : event) : list nat :=
  match e with
  | EReceived me t _ (Got r (Some v)) => if Nat.eqb me q && Nat.eqb t tag && Z.eqb r (Z.of_nat p) then [v] else []
  | _ => []
  end.
Definition sent (p q tag : nat) (log : list event) : list nat := flat_map (sent1 p q tag) log.
Definition got (p q tag : nat) (log : list event) : list nat := flat_map (got1 p q tag) log.

Section Run.
  Variable ranks : list nat.
  Local Notation sr := (sorted ranks).
  Definition inv (st : net * list event) : Prop :=
    (forall m, In m (fst st) -> exists p q, index p sr = Some (m_src m) /\ index q sr = Some (m_dst m)) /\
    (forall p q tag i j, index p sr = Some i -> index q sr = Some j ->
       sent p q tag (snd st) = got p q tag (snd st) ++ map m_val (filter (fits i j tag) (fst st))).

  Lemma index_inj p q i : index p sr = Some i -> index q sr = Some i -> p = q.
  Proof. intros A B. apply index_nth in A, B. congruence. Qed.
  Lemma take_some f n m n' : take f n = Some (m, n') ->
    f m = true /\ In m n /\ (forall x, In x n' -> In x n) /\ filter f n = m :: filter f n' /\
    forall g, g m = false -> filter g n = filter g n'.
  Proof.
    revert n'; induction n as [|x r IH]; intros n'; cbn [take]; [discriminate|]. destruct (f x) eqn:F.
    - intros [= -> ->]. split; [exact F|]. split; [now left|]. split; [intros; now right|]. cbn [filter]. rewrite F.
      split; [reflexivity|]. intros g ->. reflexivity.
    - destruct (take f r) as [[y r']|] eqn:T; [|discriminate]. intros [= <- <-].
      destruct (IH r' eq_refl) as (A & B & C & D & E). split; [exact A|]. split; [now right|]. split.
      + intros z [<-|I]; [now left|right; auto].
      + cbn [filter]. rewrite F. split; [exact D|]. intros g G. rewrite (E g G). reflexivity.
  Qed.
  Lemma take_none f n : take f n = None -> filter f n = [].
  Proof.
    induction n as [|x r IH]; cbn; auto. destruct (f x); [discriminate|].
    destruct (take f r) as [[y r']|]; [discriminate|auto].
  Qed.
  Lemma fits_eq i j t m : fits i j t m = true <-> m_src m = i /\ m_dst m = j /\ m_tag m = t.
  Proof. unfold fits. rewrite !andb_true_iff, !Nat.eqb_eq. tauto. Qed.
  Lemma sent_snoc p q t l e : sent p q t (l ++ [e]) = sent p q t l ++ sent1 p q t e.
  Proof. unfold sent. rewrite flat_map_app. cbn. now rewrite app_nil_r. Qed.
  Lemma got_snoc p q t l e : got p q t (l ++ [e]) = got p q t l ++ got1 p q t e.
  Proof. unfold got. rewrite flat_map_app. cbn. now rewrite app_nil_r. Qed.

  (* delivery of one message, as seen by all counts *)
  Lemma deliver n log me src p k j tag m n' : inv (n, log) ->
    index me sr = Some j -> index p sr = Some k -> take (fits k j tag) n = Some (m, n') ->
    inv (n', log ++ [EReceived me tag src (Got (Z.of_nat p) (Some (m_val m)))]).
  Proof.
    intros [I1 I2] Jm Kp T. destruct (take_some _ _ T) as (F & In1 & Sub & Fl & Oth). cbn [fst snd] in *.
    split; cbn [fst snd].
    - intros x Ix. apply I1. now apply Sub.
    - intros p' q' t' i' j' Ip Iq. rewrite sent_snoc, got_snoc. cbn [sent1 got1]. rewrite app_nil_r.
      rewrite (I2 p' q' t' i' j' Ip Iq). rewrite <- app_assoc. f_equal.
      destruct (Nat.eqb_spec me q') as [->|N1]; [destruct (Nat.eqb_spec tag t') as [->|N2]; [destruct (Z.eqb_spec (Z.of_nat p) (Z.of_nat p')) as [E|N3]|]|]; cbn [andb app].
      + apply Nat2Z.inj in E. subst p'. assert (i' = k) as -> by congruence. assert (j' = j) as -> by congruence.
        now rewrite Fl.
      + rewrite (Oth (fits i' j' t')); auto. destruct (fits i' j' t' m) eqn:G; auto. apply fits_eq in F, G.
        destruct F as (F1 & _), G as (G1 & _). exfalso. apply N3. f_equal. eapply index_inj; eauto. congruence.
      + rewrite (Oth (fits i' j' t')); auto. destruct (fits i' j' t' m) eqn:G; auto. apply fits_eq in F, G.
        destruct F as (_ & _ & F1), G as (_ & _ & G1). congruence.
      + rewrite (Oth (fits i' j' t')); auto. destruct (fits i' j' t' m) eqn:G; auto. apply fits_eq in F, G.
        destruct F as (_ & F1 & _), G as (_ & G1 & _). exfalso. apply N1. eapply index_inj; eauto. congruence.
  Qed.
  Lemma quiet n log e : (forall p q t, index p sr <> None -> sent1 p q t e = []) -> (forall p q t, got1 p q t e = []) ->
    inv (n, log) -> inv (n, log ++ [e]).
  Proof.
    intros A B [I1 I2]. split; cbn [fst snd] in *; auto. intros p q t i j Ip Iq.
    rewrite sent_snoc, got_snoc, A, B, !app_nil_r by congruence. eauto.
  Qed.
  Lemma step_inv st a : inv st -> inv (step ranks st a).
  Proof.
    destruct st as [n log]. intros I. destruct a as [me v dst tag|me src s tag]; cbn [step].
    - unfold send. rewrite current. destruct (index me sr) as [i|] eqn:Em.
      + unfold group_rank. cbn [g_ranks create_collective_group]. destruct (index dst sr) as [d|] eqn:Ed.
        * destruct I as [I1 I2]. split; cbn [fst snd] in *.
          -- intros m J. apply in_app_or in J. destruct J as [J|[<-|[]]]; [auto|]. exists me, dst. auto.
          -- intros p q t i' j' Ip Iq. rewrite sent_snoc, got_snoc, filter_app, map_app. cbn [sent1 got1].
             rewrite app_nil_r, (I2 p q t i' j' Ip Iq), <- app_assoc. do 2 f_equal.
             cbn [filter]. destruct (fits i' j' t {| m_src := i; m_dst := d; m_tag := tag; m_val := v |}) eqn:F.
             ++ apply fits_eq in F. cbn in F. destruct F as (-> & -> & ->).
                rewrite (index_inj _ _ Em Ip), (index_inj _ _ Ed Iq), !Nat.eqb_refl. reflexivity.
             ++ destruct (Nat.eqb_spec me p) as [->|]; [|reflexivity]. destruct (Nat.eqb_spec dst q) as [->|]; [|reflexivity].
                destruct (Nat.eqb_spec tag t) as [->|]; [|reflexivity]. exfalso.
                assert (fits i' j' t {| m_src := i; m_dst := d; m_tag := t; m_val := v |} = true); [|congruence].
                apply fits_eq. cbn. repeat split; congruence.
        * apply quiet; auto.
      + apply quiet; auto. intros p q t Ip. cbn. destruct (Nat.eqb_spec me p) as [->|]; [congruence|reflexivity].
    - unfold irecv. rewrite current. destruct (index me sr) as [j|] eqn:Em.
      + destruct src as [r|].
        * unfold group_rank. cbn [g_ranks create_collective_group]. destruct (index r sr) as [k|] eqn:Ek; [|apply quiet; auto].
          destruct (take (fits k j tag) n) as [[m n']|] eqn:T; [|apply quiet; auto].
          eapply deliver; eauto.
        * destruct (take (fits s j tag) n) as [[m n']|] eqn:T; [|apply quiet; auto].
          destruct (take_some _ _ T) as (F & In1 & _). apply fits_eq in F. destruct F as (Fs & _).
          destruct I as [I1 I2]. destruct (I1 m In1) as (p & q & Ep & Eq). cbn [fst] in *.
          unfold global_rank. cbn [g_ranks create_collective_group]. rewrite (index_nth _ _ Ep).
          eapply deliver; eauto; [split; eauto|]. congruence.
      + apply quiet; auto.
  Qed.
  Lemma run_inv l : inv (run ranks l).
  Proof.
    unfold run. assert (forall st, inv st -> inv (fold_left (step ranks) l st)) as G.
    { induction l as [|a r IH]; intros st I; cbn; auto. apply IH, step_inv, I. }
    apply G. split; cbn; [intros m []|reflexivity].
  Qed.
End Run.

(* C183: whatever processes send and receive in the group, and whichever messages receives without a source pick:
   what member q received from p according to the rank returned by wait() is what p sent to q with that tag, in
   order; the rest can be received. *)
Theorem C183_in_order : forall ranks l p q tag, In p ranks -> In q ranks ->
  let (n, log) := run ranks l in
  exists rest, sent p q tag log = got p q tag log ++ rest /\
    (forall s, snd (irecv q ranks (Some p) s tag n) =
       match rest with [] => Blocked | v :: _ => Got (Z.of_nat p) (Some v) end) /\
    (forall v r, rest = v :: r -> exists s, snd (irecv q ranks None s tag n) = Got (Z.of_nat p) (Some v)).
Proof.
  intros ranks l p q tag Hp Hq. pose proof (run_inv ranks l) as [I1 I2]. destruct (run ranks l) as [n log].
  cbn [fst snd] in *.
  destruct (index_some p (sorted ranks)) as (i & Ei); [now apply sorted_in|].
  destruct (index_some q (sorted ranks)) as (j & Ej); [now apply sorted_in|].
  exists (map m_val (filter (fits i j tag) n)). split; [eauto|]. split.
  - intros s. unfold irecv. rewrite current, Ej. unfold group_rank. cbn [g_ranks create_collective_group]. rewrite Ei.
    destruct (take (fits i j tag) n) as [[m n']|] eqn:T; cbn [snd].
    + destruct (take_some _ _ T) as (_ & _ & _ & -> & _). reflexivity.
    + rewrite (take_none _ _ T). reflexivity.
  - intros v r Er. exists i. unfold irecv. rewrite current, Ej.
    destruct (take (fits i j tag) n) as [[m n']|] eqn:T.
    + destruct (take_some _ _ T) as (F & _ & _ & Fl & _). apply fits_eq in F. destruct F as (-> & _).
      unfold global_rank. cbn [g_ranks create_collective_group]. rewrite (index_nth _ _ Ei).
      rewrite Fl in Er. injection Er as <- _. reflexivity.
    + rewrite (take_none _ _ T) in Er. discriminate.
Qed.
Print Assumptions C183_in_order.
(* every receive of a member that returns names a member as the source, and the one asked for if there is one *)
Theorem C183_source : forall ranks l me src s tag, In me ranks ->
  match snd (irecv me ranks src s tag (fst (run ranks l))) with
  | Blocked => True
  | Got r v => v <> None /\ (exists p, In p ranks /\ r = Z.of_nat p) /\ forall p, src = Some p -> r = Z.of_nat p
  | Raised e => e = ERuntime /\ exists p, src = Some p /\ ~ In p ranks
  end.
Proof.
  intros ranks l me src s tag Hm. pose proof (run_inv ranks l) as [I1 _]. destruct (run ranks l) as [n log]. cbn [fst snd] in *.
  destruct (index_some me (sorted ranks)) as (j & Ej); [now apply sorted_in|].
  unfold irecv. rewrite current, Ej. destruct src as [r|].
  - unfold group_rank. cbn [g_ranks create_collective_group]. destruct (index r (sorted ranks)) as [k|] eqn:Ek.
    + destruct (take (fits k j tag) n) as [[m n']|] eqn:T; cbn; auto. split; [discriminate|]. split; [|congruence].
      exists r. split; auto. apply sorted_in. eapply nth_error_In. apply index_nth; exact Ek.
    + cbn. split; auto. exists r. split; auto. apply index_none in Ek. now rewrite sorted_in in Ek.
  - destruct (take (fits s j tag) n) as [[m n']|] eqn:T; cbn [snd]; auto.
    destruct (take_some _ _ T) as (_ & In1 & _). destruct (I1 m In1) as (p & q & Ep & _).
    unfold global_rank. cbn [g_ranks create_collective_group]. rewrite (index_nth _ _ Ep). cbn.
    split; [discriminate|]. split; [|discriminate]. exists p. split; auto. apply sorted_in. eapply nth_error_In. apply index_nth; exact Ep.
Qed.
Print Assumptions C183_source.
(* processes outside the group get -1 and leave everything as it is *)
Theorem C183_outside : forall ranks me src s tag v dst n, ~ In me ranks ->
  irecv me ranks src s tag n = (n, Got (-1) None) /\ send me ranks v dst tag n = (n, Ok tt).
Proof.
  intros ranks me src s tag v dst n Hm. assert (index me (sorted ranks) = None) as E by (apply index_none; now rewrite sorted_in).
  unfold irecv, send. rewrite current, E. auto.
Qed.
Print Assumptions C183_outside.
Example C183_nonvacuous :
  snd (run [9; 4; 6] [ASend 9 100 4 0; ASend 6 200 4 0; ASend 9 101 4 0; ARecv 4 None 2 0; ARecv 4 (Some 6) 0 0;
                      ARecv 4 (Some 9) 0 1; ARecv 4 (Some 5) 0 0; ARecv 5 None 0 0; ARecv 4 None 2 0])
  = [ESent 9 4 0 100 (Ok tt); ESent 6 4 0 200 (Ok tt); ESent 9 4 0 101 (Ok tt);
     EReceived 4 0 None (Got 9 (Some 100)); EReceived 4 0 (Some 6) (Got 6 (Some 200));
     EReceived 4 1 (Some 9) Blocked; EReceived 4 0 (Some 5) (Raised ERuntime); EReceived 5 0 None (Got (-1) None);
     EReceived 4 0 None (Got 9 (Some 101))].
Proof. reflexivity. Qed.
