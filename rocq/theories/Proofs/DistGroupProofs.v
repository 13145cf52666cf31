From Coq Require Import QArith Qround.
From Verif Require Import Lib.Rat Model.Buffer Model.WeightTree Model.PrioritizedBuffer Model.DistBuffer
  Spec.WeightTreeSpec Spec.BufferSpec Spec.PrioritizedSpec Spec.DistSpec
  Proofs.BufferProofs Proofs.BufferDict Proofs.WeightTreeProofs Proofs.PrioritizedProofs Proofs.RnnProofs Proofs.RnnPrioProofs Proofs.DistProofs.
Close Scope Q_scope.
Open Scope nat_scope.

Lemma NoDup_app_snoc {A} (l : list A) x : NoDup l -> ~ In x l -> NoDup (l ++ [x]).
Proof.
  induction l as [|y r IH]; intros ND NI; cbn; [constructor; auto|].
  inversion ND; subst. constructor.
  - intros H. apply in_app_or in H as [H|[H|[]]]; auto. subst. apply NI. now left.
  - apply IH; auto. intros H. apply NI. now right.
Qed.

Section G.
  Context {T : Type}.
  Variable ok : T -> bool.
  Variable norm : Qc -> Qc.
  Variable pw : Qc -> Qc -> Qc.
  Variables beta inc : Qc.
  Hypothesis norm_pos : forall x, (0 < norm x)%Qc.

  Definition member_ok (d : dpbuf T) : Prop := exists cap H, 2 <= cap /\ dreach ok norm pw beta inc cap d H.

  (* a well formed answer of member (m, d) *)
  Definition answer_ok (d : dpbuf T) (a : sres T) : Prop :=
    match a with (len, batch, idx, ver, w) =>
      length batch = len /\ length idx = len /\ length ver = len /\ length w = len /\
      (forall j i, nth_error idx j = Some i -> nth_error batch j = dstored d i /\
         exists v, nth_error ver j = Some v /\ nth_error (dp_ver d) i = Some v)
    end.

  Lemma dp_sample_answer d us all a : member_ok d -> unit_draws us ->
    snd (dp_sample pw inc d us all) = Ok a -> answer_ok d a.
  Proof.
    intros (cap & H & C & R) U E. destruct (dreach_inv _ _ _ _ _ norm_pos _ _ _ C R) as (f & I).
    destruct (Nat.eq_dec (length us) 0) as [Z|NZ]; [|destruct (Nat.eq_dec (dp_size d) 0) as [Z|NZ2]].
    1-2: unfold dp_sample in E; rewrite Z in E; cbn in E; rewrite ?orb_true_r in E; cbn in E;
       injection E as <-; cbn; repeat split; auto; destruct j; discriminate.
    destruct (Nat.eq_dec (length us) 1) as [O|NO].
    { exfalso. unfold dp_sample in E. rewrite O in E. cbn [Nat.eqb orb] in E. destruct (Nat.eqb_spec (dp_size d) 0); [lia|].
      destruct (pb_sample_index _ _ _ _ _) as [p1 [[? ?]|?]]; cbn in E; discriminate. }
    destruct (dp_sample_ok pw inc cap d H f us all I U NZ2 ltac:(lia)) as (batch & idx & vers & ws & E' & LB & LI & LV & LW & IS & PT).
    rewrite E in E'. injection E' as ->. unfold answer_ok. do 4 (split; auto). intros j i J. destruct (PT j i J) as [A B]. split; auto.
    exists (wcount cap (total H) i). split; auto. apply (dv_v _ _ _ _ I). apply nth_error_In in J. apply IS in J.
    unfold dp_size in J. rewrite (size_eq _ _ _ (pi_b _ _ _ _ (dv_p _ _ _ _ I))) in J. lia.
  Qed.

  Lemma unit_map (draw : nat -> Qc) l : (forall j, (0 <= draw j)%Qc /\ (draw j < 1)%Qc) -> unit_draws (map draw l).
  Proof. intros D u H. apply in_map_iff in H as (j & <- & _). auto. Qed.

  (* all answers of a round *)
  Lemma ask_spec n all draw : (forall k j, (0 <= draw k j)%Qc /\ (draw k j < 1)%Qc) ->
    forall (g : group T) k, (forall m d, In (m, d) g -> member_ok d) ->
    Forall2 (fun q q1 => fst q1 = fst q /\ exists us, unit_draws us /\ length us = share n all (dp_weight_sum (snd q)) /\
                snd q1 = fst (dp_sample pw inc (snd q) us all)) g (fst (ask pw inc n all draw k g)) /\
    Forall2 (fun q a => fst a = fst q /\ exists us, unit_draws us /\ length us = share n all (dp_weight_sum (snd q)) /\
                snd a = snd (dp_sample pw inc (snd q) us all)) g (snd (ask pw inc n all draw k g)).
  Proof.
    intros D. induction g as [|[m d] r IH]; intros k MO; cbn [ask]; [split; constructor|].
    destruct (IH (S k)) as [A B]; [intros; eapply MO; right; eauto|].
    set (us := map (draw k) (seq 0 (share n all (dp_weight_sum d)))).
    assert (U : unit_draws us) by (apply unit_map; auto).
    assert (LU : length us = share n all (dp_weight_sum d)) by (unfold us; now rewrite map_length, seq_length).
    destruct (dp_sample pw inc d us all) as [d1 a] eqn:ED. destruct (ask pw inc n all draw (S k) r) as [r1 l].
    cbn [fst snd] in *. split; constructor; auto; cbn; split; auto; exists us; rewrite ED; auto.
  Qed.

  Lemma origins_app i1 i2 : origins (i1 ++ i2) = origins i1 ++ origins i2.
  Proof. unfold origins. now rewrite flat_map_app. Qed.

  Record AccOk (g : group T) (acc : nat * list T * @dindex * list Qc) : Prop := {
    ac_len : match acc with (al, ab, ai, aw) => length ab = al /\ length (origins ai) = al /\ length aw = al end;
    ac_bal : match acc with (al, ab, ai, aw) => forall m idx ver, In (m, (idx, ver)) ai -> length idx = length ver /\ idx <> [] end;
    ac_nd : match acc with (al, ab, ai, aw) => NoDup (map fst ai) end;
    ac_pt : match acc with (al, ab, ai, aw) => forall j m i v, nth_error (origins ai) j = Some (m, (i, v)) ->
              exists d, In (m, d) g /\ nth_error ab j = dstored d i /\ nth_error (dp_ver d) i = Some v end }.

  Lemma collect_ok (g : group T) : forall (r : list (nat * dpbuf T)) answers acc,
    (forall q, In q r -> In q g) -> NoDup (map fst r) ->
    Forall2 (fun q a => fst a = fst q /\ forall x, snd a = Ok x -> answer_ok (snd q) x) r answers ->
    AccOk g acc -> (match acc with (_, _, ai, _) => forall m, In m (map fst ai) -> ~ In m (map fst r) end) ->
    forall res, collect answers acc = Ok res -> AccOk g res.
  Proof.
    induction r as [|[m d] r IH]; intros answers acc IG ND F AO FR res E.
    - inversion F; subst. cbn in E. injection E as <-. exact AO.
    - inversion F as [|? [m' a] ? l [Em Ha] F' EQ1 EQ2]; subst. cbn in Em, Ha. subst m'. cbn in ND. inversion ND as [|? ? NI ND']; subst.
      destruct a as [[[[[len batch] idx] ver] w]|e]; [|discriminate].
      specialize (Ha _ eq_refl). destruct Ha as (LB & LI & LV & LW & PT). cbn [collect] in E.
      destruct acc as [[[al ab] ai] aw].
      destruct (Nat.eqb_spec len 0) as [Z|NZ].
      + apply (IH l (al, ab, ai, aw)); auto. * intros q Q. apply IG. now right.
        * intros k K1 K2. apply (FR k K1). now right.
      + assert (NK : ~ In m (dkeys ai)). { intros Q. apply (FR m Q). now left. }
        rewrite (dset_new _ _ _ NK) in E.
        apply (IH l (al + len, ab ++ batch, ai ++ [(m, (idx, ver))], aw ++ w)); auto.
        * intros q Q. apply IG. now right.
        * destruct AO as [(A1 & A2 & A3) A4 A5 A6].
          assert (OR : origins (ai ++ [(m, (idx, ver))]) = origins ai ++ map (fun iv => (m, iv)) (combine idx ver)).
          { rewrite origins_app. unfold origins at 2. cbn. now rewrite app_nil_r. }
          assert (LC : length (map (fun iv : nat * nat => (m, iv)) (combine idx ver)) = len).
          { rewrite map_length, combine_length. lia. }
          split.
          -- rewrite OR, !app_length, LC. lia.
          -- intros m1 i1 v1 Q. apply in_app_or in Q as [Q|[Q|[]]]; [eauto|]. injection Q as <- <- <-. split; [congruence|].
             intros ->. cbn in LI. lia.
          -- rewrite map_app. cbn. apply NoDup_app_snoc; auto.
          -- intros j m1 i v Q. rewrite OR in Q. destruct (Nat.lt_ge_cases j (length (origins ai))) as [J|J].
             ++ rewrite nth_error_app1 in Q by auto. destruct (A6 _ _ _ _ Q) as (d' & D1 & D2 & D3).
                exists d'. split; auto. split; auto. rewrite nth_error_app1 by lia. exact D2.
             ++ rewrite nth_error_app2 in Q by auto. rewrite nth_error_map in Q.
                destruct (nth_error (combine idx ver) (j - length (origins ai))) as [[i' v']|] eqn:EC; [|discriminate].
                cbn in Q. injection Q as <- <- <-. apply nth_error_combine_inv in EC as [C1 C2]. cbn in C1, C2.
                destruct (PT _ _ C1) as [P1 (v2 & P2 & P3)]. exists d. split; [apply IG; now left|].
                rewrite nth_error_app2 by lia. replace (j - length ab) with (j - length (origins ai)) by lia.
                split; auto. congruence.
        * intros k K1 K2. rewrite map_app in K1. apply in_app_or in K1 as [K1|[K1|[]]].
          -- apply (FR k K1). now right. -- cbn in K1. subst. contradiction.
  Qed.

  (* ---- splitting the priorities ---- *)
  Lemma messages_requests ix : (forall m idx ver, In (m, (idx, ver)) ix -> length idx = length ver) ->
    forall prios off, off + length (origins ix) = length prios ->
    requests (messages prios off ix) = combine (origins ix) (skipn off prios) /\
    map fst (messages prios off ix) = map fst ix /\
    (forall m ps idx ver, In (m, (ps, idx, ver)) (messages prios off ix) -> length ps = length idx /\ In (m, (idx, ver)) ix).
  Proof.
    induction ix as [|[m [idx ver]] r IH]; intros BAL prios off LO.
    - cbn. repeat split; auto; intros; tauto.
    - assert (LV : length idx = length ver) by (apply (BAL m); now left).
      change (origins ((m, (idx, ver)) :: r)) with (map (fun iv => (m, iv)) (combine idx ver) ++ origins r) in *.
      rewrite app_length, map_length, combine_length in LO.
      destruct (IH (fun m i v Q => BAL m i v (or_intror Q)) prios (off + length idx) ltac:(lia)) as (A & B & C).
      cbn [messages]. set (ps := firstn (length idx) (skipn off prios)).
      assert (LP : length ps = length idx) by (unfold ps; rewrite firstn_length, skipn_length; lia).
      change (requests ((m, (ps, idx, ver)) :: messages prios (off + length idx) r))
        with (map (fun x => (m, fst x, snd x)) (combine (combine idx ver) ps) ++ requests (messages prios (off + length idx) r)).
      split; [|split].
      + rewrite A.
        assert (SK : skipn off prios = ps ++ skipn (off + length idx) prios).
        { unfold ps. rewrite Nat.add_comm, <- skipn_add. symmetry. apply firstn_skipn. }
        rewrite SK.
        assert (CA : forall (l1 : list (nat * (nat * nat))) l2 (p1 p2 : list Qc), length l1 = length p1 ->
            combine (l1 ++ l2) (p1 ++ p2) = combine l1 p1 ++ combine l2 p2).
        { induction l1; intros l2 [|y p1] p2 E; cbn in *; try discriminate; auto. now rewrite IHl1 by congruence. }
        rewrite CA by (rewrite map_length, combine_length; lia). f_equal.
        clear. generalize ps. induction (combine idx ver) as [|x l IHl]; intros [|p q]; cbn; auto. now rewrite IHl.
      + cbn. now rewrite B.
      + intros m1 p1 i1 v1 [Q|Q]; [injection Q as <- <- <- <-; split; auto; now left|].
        destruct (C _ _ _ _ Q). split; auto. now right.
  Qed.

  Lemma g_sample_acc (g : group T) n draw g1 x : NoDup (map fst g) -> (forall m d, In (m, d) g -> member_ok d) ->
    (forall k j, (0 <= draw k j)%Qc /\ (draw k j < 1)%Qc) ->
    g_sample pw inc g n draw = (g1, Ok x) -> AccOk g x.
  Proof.
    intros ND MO D E. unfold g_sample in E. destruct (n =? 0).
    - injection E as <- <-. split; cbn; auto; try constructor; try tauto. intros [|j]; discriminate.
    - set (all := all_weight_sum g) in *. pose proof (ask_spec n all draw D g 0 MO) as [F1 F2].
      destruct (ask pw inc n all draw 0 g) as [g1' answers]. injection E as <- E. cbn [fst snd] in *.
      eapply (collect_ok g g answers (0, [], [], [])); eauto.
      + assert (H : forall l a, (forall q, In q l -> In q g) -> Forall2 (fun (q : nat * dpbuf T) (a : nat * res (sres T)) =>
            fst a = fst q /\ exists us, unit_draws us /\ length us = share n all (dp_weight_sum (snd q)) /\
            snd a = snd (dp_sample pw inc (snd q) us all)) l a ->
           Forall2 (fun q a => fst a = fst q /\ forall x, snd a = Ok x -> answer_ok (snd q) x) l a).
        { intros l a IN F. induction F as [|[m d] [m' a'] l a (E1 & us & U & _ & E2) F IH]; constructor.
          - cbn in *. split; auto. intros y Q. rewrite E2 in Q.
            assert (MD : member_ok d) by (apply (MO m); apply IN; now left).
            exact (dp_sample_answer d us all y MD U Q).
          - apply IH. intros q Q. apply IN. now right. }
        now apply H.
      + split; cbn; auto; try constructor; try tauto. intros [|j]; discriminate.
  Qed.

  (* ---- delivery ---- *)
  Lemma deliver_ok : forall ms (g : group T), NoDup (map fst ms) ->
    (forall m ps idx ver, In (m, (ps, idx, ver)) ms -> exists d, dget m g = Some d /\ snd (dp_update norm d ps idx ver) = Ok tt) ->
    snd (deliver norm g ms) = Ok tt /\
    (forall m, ~ In m (map fst ms) -> dget m (fst (deliver norm g ms)) = dget m g) /\
    (forall m ps idx ver d, In (m, (ps, idx, ver)) ms -> dget m g = Some d ->
        dget m (fst (deliver norm g ms)) = Some (fst (dp_update norm d ps idx ver))).
  Proof.
    induction ms as [|[m [[ps idx] ver]] r IH]; intros g ND H; cbn [deliver].
    - cbn. repeat split; auto; intros; tauto.
    - cbn in ND. inversion ND as [|? ? NI ND']; subst.
      destruct (H m ps idx ver (or_introl eq_refl)) as (d & G & E). rewrite G.
      destruct (dp_update norm d ps idx ver) as [d1 rr] eqn:ED. cbn in E. subst rr.
      destruct (IH (dset m d1 g) ND') as (A & B & C).
      { intros m' p' i' v' Q. assert (m <> m') by (intros <-; apply NI; change m with (fst (m, (p', i', v'))); now apply in_map).
        rewrite dget_dset_other by auto. apply H. now right. }
      split; auto. split.
      + intros m' Q. cbn in Q. rewrite B by tauto. apply dget_dset_other. tauto.
      + intros m' p' i' v' d' [Q|Q] G'.
        * injection Q as <- <- <- <-. rewrite B by auto. rewrite dget_dset_same.
          assert (d' = d) as -> by congruence. rewrite ED. reflexivity.
        * assert (m <> m') by (intros <-; apply NI; change m with (fst (m, (p', i', v'))); now apply in_map).
          apply C; auto. now rewrite dget_dset_other.
  Qed.

  Lemma ask_pair n all draw : (forall k j, (0 <= draw k j)%Qc /\ (draw k j < 1)%Qc) -> forall (g : group T) k m a,
    In (m, a) (snd (ask pw inc n all draw k g)) ->
    exists d us, unit_draws us /\ In (m, d) g /\ In (m, fst (dp_sample pw inc d us all)) (fst (ask pw inc n all draw k g)) /\
      a = snd (dp_sample pw inc d us all).
  Proof.
    intros D. induction g as [|[m d] r IH]; intros k m' a H; cbn [ask] in *; [destruct H|].
    set (us := map (draw k) (seq 0 (share n all (dp_weight_sum d)))) in *.
    specialize (IH (S k) m' a).
    destruct (dp_sample pw inc d us all) as [d1 a1] eqn:ED. destruct (ask pw inc n all draw (S k) r) as [r1 l].
    cbn [fst snd] in *. destruct H as [H|H].
    - injection H as <- <-. exists d, us. rewrite ED. cbn. split; [apply unit_map; auto|].
      split; [now left|]. split; [now left|reflexivity].
    - destruct (IH H) as (d' & us' & A & B & C & E). exists d', us'. split; auto. split; [now right|]. split; [now right|auto].
  Qed.

  Lemma collect_prov answers : forall acc res, collect answers acc = Ok res ->
    match acc, res with (_, _, ai, _), (_, _, ri, _) =>
      forall m idx ver, In (m, (idx, ver)) ri -> In (m, (idx, ver)) ai \/
         exists len (batch : list T) w, In (m, Ok (len, batch, idx, ver, w)) answers end.
  Proof.
    induction answers as [|[m [[[[[len batch] idx] ver] w]|e]] r IH]; intros [[[al ab] ai] aw] [[[rl rb] ri] rw] E; cbn [collect] in E.
    - injection E as <- <- <- <-. auto.
    - destruct (len =? 0).
      + specialize (IH _ _ E). cbn in IH. intros m' i' v' Q. destruct (IH _ _ _ Q) as [|(l' & b' & w' & X)]; auto.
        right. exists l', b', w'. now right.
      + specialize (IH _ _ E). cbn in IH. intros m' i' v' Q. destruct (IH _ _ _ Q) as [X|(l' & b' & w' & X)].
        * assert (DI : forall (d : @dindex) k v q, In q (dset k v d) -> In q d \/ q = (k, v)).
          { clear. induction d as [|[k1 v1] d IHd]; intros k v q H; cbn [dset] in H; [destruct H as [<-|[]]; auto|].
            destruct (eqb_spec k k1) as [->|N]; cbn [In] in *.
            - destruct H as [<-|H]; auto.
            - destruct H as [<-|H]; auto. destruct (IHd _ _ _ H); auto. }
          apply DI in X as [X|X]; auto. injection X as -> -> ->. right. exists len, batch, w. now left.
        * right. exists l', b', w'. now right.
    - discriminate.
  Qed.

  Lemma fst_ask n all draw : forall (g : group T) k, map fst (fst (ask pw inc n all draw k g)) = map fst g.
  Proof.
    induction g as [|[m d] r IH]; intros k; cbn [ask]; auto.
    destruct (dp_sample _ _ _ _ _). specialize (IH (S k)). destruct (ask _ _ _ _ _ (S k) r). cbn in *. now rewrite IH.
  Qed.

  Lemma round_trip (g : group T) n draw g1 len batch ix isw prios : NoDup (map fst g) -> (forall m d, In (m, d) g -> member_ok d) ->
    (forall k j, (0 <= draw k j)%Qc /\ (draw k j < 1)%Qc) ->
    g_sample pw inc g n draw = (g1, Ok (len, batch, ix, isw)) -> length prios = len ->
    snd (g_update norm g1 prios ix) = Ok tt /\
    forall m d1, dget m g1 = Some d1 -> exists d2, dget m (fst (g_update norm g1 prios ix)) = Some d2 /\
      forall k, (exists j v x, nth_error (origins ix) j = Some (m, (k, v)) /\ nth_error prios j = Some x /\ dleaf d2 k = norm x)
             \/ ((forall j v, nth_error (origins ix) j <> Some (m, (k, v))) /\ dleaf d2 k = dleaf d1 k).
  Proof.
    intros ND MO D E LP. pose proof (g_sample_acc g n draw g1 _ ND MO D E) as [(A1 & A2 & A3) A4 A5 A6].
    destruct (messages_requests ix (fun m i v Q => proj1 (A4 m i v Q)) prios 0 ltac:(cbn; lia)) as (RQ & MF & MI).
    cbn [skipn] in RQ.
    assert (PROV : forall m idx ver, In (m, (idx, ver)) ix -> exists d us all l b w, In (m, d) g /\ unit_draws us /\
        dget m g1 = Some (fst (dp_sample pw inc d us all)) /\ snd (dp_sample pw inc d us all) = Ok (l, b, idx, ver, w)).
    { unfold g_sample in E. destruct (n =? 0).
      - injection E as <- <- <- <- <-. intros ? ? ? [].
      - set (all := all_weight_sum g) in *.
        pose proof (ask_pair n all draw D g 0) as AP. pose proof (fst_ask n all draw g 0) as FA.
        destruct (ask pw inc n all draw 0 g) as [g1' answers]. injection E as <- E. cbn [fst snd] in *.
        pose proof (collect_prov _ _ _ E) as CP. cbn in CP. intros m idx ver Q.
        destruct (CP _ _ _ Q) as [[]|(l & b & w & X)]. destruct (AP _ _ X) as (d & us & U & Y1 & Y2 & Y3).
        exists d, us, all, l, b, w. split; auto. split; auto. split; auto. apply dget_In; auto.
        unfold dkeys. rewrite FA. exact ND. }
    assert (UPD : forall m ps idx ver, In (m, (idx, ver)) ix -> length ps = length idx -> exists d1, dget m g1 = Some d1 /\
       snd (dp_update norm d1 ps idx ver) = Ok tt /\
       (forall k, ~ In k idx -> dleaf (fst (dp_update norm d1 ps idx ver)) k = dleaf d1 k) /\
       (forall k, In k idx -> exists j x, nth_error idx j = Some k /\ nth_error ps j = Some x /\
           dleaf (fst (dp_update norm d1 ps idx ver)) k = norm x)).
    { intros m ps idx ver Q L. destruct (PROV _ _ _ Q) as (d & us & all & l & b & w & IN & U & G & S).
      destruct (MO _ _ IN) as (cap & H & C & R).
      destruct (stale_updates ok norm pw beta inc norm_pos cap d H us all _ H l b idx ver w ps C R U S (ds_refl _ _ _ _ _ _ _) L)
        as (X1 & X2 & X3 & X4).
      eexists. split; [exact G|]. split; auto. split; [intros k K; apply X3; auto|].
      intros k K. destruct (X4 k K) as (_ & j & x & Y1 & Y2 & _ & Y3); [|eauto].
      intros (n0 & B & _). lia. }
    destruct (deliver_ok (messages prios 0 ix) g1) as (DA & DB & DC).
    { rewrite MF. exact A5. }
    { intros m ps idx ver Q. destruct (MI _ _ _ _ Q) as [L I]. destruct (UPD m ps idx ver I L) as (d1 & G & S & _). eauto. }
    unfold g_update. split; auto. intros m d1 G.
    destruct (in_dec Nat.eq_dec m (map fst ix)) as [I|I].
    - rewrite <- MF in I. apply in_map_iff in I as ([m' [[ps idx] ver]] & E1 & Q). cbn in E1. subst m'.
      destruct (MI _ _ _ _ Q) as [L I]. destruct (UPD m ps idx ver I L) as (d1' & G' & S & U1 & U2).
      assert (d1' = d1) by congruence. subst d1'. rewrite (DC _ _ _ _ _ Q G). eexists. split; [reflexivity|]. intros k.
      destruct (in_dec Nat.eq_dec k idx) as [K|K].
      + left. destruct (U2 k K) as (j & x & Y1 & Y2 & Y3).
        assert (JV : j < length ver) by (rewrite <- (proj1 (A4 _ _ _ I)); apply nth_error_Some; congruence).
        destruct (nth_error ver j) as [v|] eqn:EV; [|apply nth_error_None in EV; lia].
        assert (RI : In (m, (k, v), x) (requests (messages prios 0 ix))).
        { unfold requests. apply in_flat_map. eexists. split; [exact Q|]. cbn. apply in_map_iff.
          exists ((k, v), x). split; auto. eapply nth_error_In. eapply nth_error_combine; [|exact Y2].
          apply nth_error_combine; eauto. }
        rewrite RQ in RI. apply nth_combine in RI as (j' & Z1 & Z2). exists j', v, x. auto.
      + right. split; auto. intros j v Q'. apply nth_error_In in Q'. unfold origins in Q'.
        apply in_flat_map in Q' as ([m' [i' v']] & Z1 & Z2). cbn in Z2. apply in_map_iff in Z2 as ([a b] & Z3 & Z4). injection Z3 as -> -> ->.
        assert ((i', v') = (idx, ver)) as Q2.
        { pose proof (dget_In m (i', v') ix A5 Z1). pose proof (dget_In m (idx, ver) ix A5 I). congruence. }
        injection Q2 as -> ->. apply in_combine_l in Z4. contradiction.
    - rewrite DB by now rewrite MF. exists d1. split; auto. intros k. right. split; auto.
      intros j v Q'. apply nth_error_In in Q'. unfold origins in Q'.
      apply in_flat_map in Q' as ([m' [i' v']] & Z1 & Z2). cbn in Z2. apply in_map_iff in Z2 as ([a b] & Z3 & Z4). injection Z3 as -> -> ->.
      apply I. change m with (fst (m, (i', v'))). now apply in_map.
  Qed.

  (* ---- how many items come back ---- *)
  Lemma ceil_bounds (x : Qc) : (0 <= x)%Qc ->
    (x <= nq (Z.to_nat (Qceiling (this x))))%Qc /\ (nq (Z.to_nat (Qceiling (this x))) < x + 1)%Qc.
  Proof.
    intros H. pose proof (Qle_ceiling (this x)) as A. pose proof (Qceiling_lt (this x)) as B.
    assert (C : (0 <= Qceiling (this x))%Z).
    { unfold Qcle in H. change (this 0%Qc) with (inject_Z 0) in H. pose proof (Qle_trans _ _ _ H A) as Q. now rewrite <- Zle_Qle in Q. }
    assert (E : (this (nq (Z.to_nat (Qceiling (this x)))) == inject_Z (Qceiling (this x)))%Q).
    { unfold nq. rewrite this_Q2Qc. rewrite Z2Nat.id by auto. reflexivity. }
    split.
    - unfold Qcle. rewrite E. exact A.
    - unfold Qclt. rewrite E. assert (P : (this (x + 1)%Qc == this x + 1)%Q).
      { unfold Qcplus. rewrite this_Q2Qc. reflexivity. }
      rewrite P. assert (B' : (inject_Z (Qceiling (this x)) - 1 < this x)%Q).
      { setoid_replace (inject_Z (Qceiling (this x)) - 1)%Q with (inject_Z (Qceiling (this x) - 1)); auto.
        unfold Z.sub. rewrite inject_Z_plus. reflexivity. }
      clear - B'. apply (Qplus_lt_l _ _ 1) in B'. 
      setoid_replace (inject_Z (Qceiling (this x)) - 1 + 1)%Q with (inject_Z (Qceiling (this x))) in B' by ring. exact B'.
  Qed.

  Lemma all_weight_sum_eq (g : group T) : all_weight_sum g = (qsum (map (fun q => dp_weight_sum (snd q)) g) + tiny)%Qc.
  Proof.
    unfold all_weight_sum. f_equal.
    assert (G : forall a, fold_left (fun a q => (a + dp_weight_sum (snd q))%Qc) g a = (a + qsum (map (fun q => dp_weight_sum (snd q)) g))%Qc).
    { induction g as [|q r IH]; intros a; cbn; [ring|]. rewrite IH. ring. }
    rewrite G. ring.
  Qed.

  Lemma shares_sum n (ws : list Qc) all : (forall w, In w ws -> (0 <= w)%Qc) -> (0 < all)%Qc ->
    (nq n * (qsum ws / all) <= nq (list_sum (map (share n all) ws)))%Qc /\
    (nq (list_sum (map (share n all) ws)) <= nq n * (qsum ws / all) + nq (length ws))%Qc /\
    (ws <> [] -> (nq (list_sum (map (share n all) ws)) < nq n * (qsum ws / all) + nq (length ws))%Qc).
  Proof.
    intros P A. induction ws as [|w r IH].
    - cbn. change (nq 0) with 0%Qc. assert (E : (nq n * (0 / all) = 0)%Qc) by (unfold Qcdiv; ring). rewrite E. repeat split; [qcl|qcl|congruence].
    - destruct (IH (fun w' Q => P w' (or_intror Q))) as (I1 & I2 & _).
      destruct (ceil_bounds (w * nq n / all)) as [B1 B2].
      { unfold Qcdiv. apply Qcmul_nonneg; [apply Qcmul_nonneg; [apply P; now left|apply nq_nonneg]|]. apply Qclt_le_weak, Qcinv_pos; auto. }
      fold (share n all w) in B1, B2.
      cbn [map list_sum fold_right length qsum]. change (fold_right Nat.add 0 (map (share n all) r)) with (list_sum (map (share n all) r)).
      rewrite nq_add, nq_S.
      assert (E : (nq n * ((w + qsum r) / all) = w * nq n / all + nq n * (qsum r / all))%Qc) by (unfold Qcdiv; ring).
      rewrite E. repeat split; intros; qcl.
  Qed.

  Lemma weight_nonneg d : member_ok d -> (0 <= dp_weight_sum d)%Qc /\ (dp_size d = 0 -> dp_weight_sum d = 0%Qc).
  Proof.
    intros (cap & H & C & R). destruct (dreach_inv _ _ _ _ _ norm_pos _ _ _ C R) as (f & [P V]).
    split; [eapply total_nonneg; eauto|]. intros Z. unfold dp_weight_sum.
    rewrite (root_total _ _ (pi_t _ _ _ _ P)). 
    assert (F : forall k, f k = 0%Qc) by (intros k; apply (pi_zero _ _ _ _ P); unfold dp_size in Z; lia).
    generalize 0. induction (wt_size (pb_t (dp_p d))) as [|m IH]; intros a; cbn; auto. rewrite F, IH. ring.
  Qed.

  Lemma share_0 n all : share n all 0%Qc = 0.
  Proof.
    unfold share. assert (E : (0 * nq n / all = 0)%Qc) by (unfold Qcdiv; ring). rewrite E. reflexivity.
  Qed.

  Lemma answer_len d us all n l b i v w : member_ok d -> unit_draws us -> length us = share n all (dp_weight_sum d) ->
    snd (dp_sample pw inc d us all) = Ok (l, b, i, v, w) -> l = share n all (dp_weight_sum d).
  Proof.
    intros MD U L E. destruct (weight_nonneg d MD) as [_ Z]. destruct MD as (cap & H & C & R).
    destruct (dreach_inv _ _ _ _ _ norm_pos _ _ _ C R) as (f & I).
    destruct (Nat.eq_dec (length us) 0) as [Z1|NZ].
    { unfold dp_sample in E. rewrite Z1 in E. cbn in E. congruence. }
    destruct (Nat.eq_dec (dp_size d) 0) as [Z1|NZ2].
    { rewrite (Z Z1), share_0 in L. lia. }
    destruct (Nat.eq_dec (length us) 1) as [O|NO].
    { exfalso. unfold dp_sample in E. rewrite O in E. cbn [Nat.eqb orb] in E. destruct (Nat.eqb_spec (dp_size d) 0); [lia|].
      destruct (pb_sample_index _ _ _ _ _) as [p1 [[? ?]|?]]; cbn in E; discriminate. }
    destruct (dp_sample_ok pw inc cap d H f us all I U NZ2 ltac:(lia)) as (batch & idx & vers & ws & E' & _). congruence.
  Qed.

  Lemma collect_len n all : forall (r : list (nat * dpbuf T)) answers acc,
    (forall q, In q r -> member_ok (snd q)) ->
    Forall2 (fun q a => fst a = fst q /\ exists us, unit_draws us /\ length us = share n all (dp_weight_sum (snd q)) /\
                snd a = snd (dp_sample pw inc (snd q) us all)) r answers ->
    forall res, collect answers acc = Ok res ->
    fst (fst (fst res)) = fst (fst (fst acc)) + list_sum (map (share n all) (map (fun q => dp_weight_sum (snd q)) r)).
  Proof.
    induction r as [|[m d] r IH]; intros answers acc MO F res E.
    - inversion F; subst. cbn in E. injection E as <-. cbn. lia.
    - inversion F as [|? [m' a] ? l [Em (us & U & LU & Ea)] F' EQ1 EQ2]; subst. cbn in Em, LU, Ea. subst m'.
      destruct a as [[[[[len batch] idx] ver] w]|e]; [|discriminate].
      symmetry in Ea. pose proof (answer_len d us all n _ _ _ _ _ (MO _ (or_introl eq_refl)) U LU Ea) as EL.
      cbn [collect] in E. cbn [map list_sum fold_right snd]. rewrite <- EL.
      change (fold_right Nat.add 0 (map (share n all) (map (fun q => dp_weight_sum (snd q)) r)))
        with (list_sum (map (share n all) (map (fun q => dp_weight_sum (snd q)) r))).
      destruct (Nat.eqb_spec len 0) as [Z|NZ].
      + rewrite (IH l acc (fun q Q => MO q (or_intror Q)) F' res E). lia.
      + destruct acc as [[[al ab] ai] aw]. rewrite (IH l _ (fun q Q => MO q (or_intror Q)) F' res E). cbn. lia.
  Qed.

  Lemma g_sample_count (g : group T) n draw g1 len batch ix isw : (forall m d, In (m, d) g -> member_ok d) ->
    (forall k j, (0 <= draw k j)%Qc /\ (draw k j < 1)%Qc) -> 0 < n ->
    (nq n * tiny < qsum (map (fun q => dp_weight_sum (snd q)) g))%Qc ->
    g_sample pw inc g n draw = (g1, Ok (len, batch, ix, isw)) -> n <= len < n + length g.
  Proof.
    intros MO D N W E. unfold g_sample in E. destruct (Nat.eqb_spec n 0); [lia|].
    set (all := all_weight_sum g) in *. destruct (ask_spec n all draw D g 0 MO) as [_ F].
    destruct (ask pw inc n all draw 0 g) as [g1' answers]. injection E as <- E. cbn [fst snd] in *.
    pose proof (collect_len n all g answers _ (fun q Q => MO (fst q) (snd q) ltac:(destruct q; exact Q)) F _ E) as L. cbn [fst Nat.add] in L.
    set (ws := map (fun q => dp_weight_sum (snd q)) g) in *. set (S := qsum ws) in *.
    assert (AE : all = (S + tiny)%Qc) by apply all_weight_sum_eq.
    assert (T0 : (0 < tiny)%Qc) by reflexivity.
    assert (WN : forall w, In w ws -> (0 <= w)%Qc).
    { intros w Q. apply in_map_iff in Q as ([m d] & <- & I). apply weight_nonneg. eapply MO; eauto. }
    assert (SN : (0 <= S)%Qc) by (apply qsum_nonneg; auto).
    assert (AP : (0 < all)%Qc) by (rewrite AE; qcl).
    destruct (shares_sum n ws all WN AP) as (B1 & _ & B2). fold S in B1, B2. rewrite <- L in B1, B2.
    assert (NN : ws <> []). { intros Z. unfold S in W. rewrite Z in W. cbn in W. pose proof (nq_nonneg n).
      assert (0 <= nq n * tiny)%Qc by (apply Qcmul_nonneg; auto; qcl). qcl. }
    specialize (B2 NN). assert (LW : length ws = length g) by (unfold ws; apply map_length). rewrite LW in B2.
    (* S/all = 1 - tiny/all *)
    assert (I0 : (0 < / all)%Qc) by (apply Qcinv_pos; auto).
    assert (AI : (all * / all = 1)%Qc) by (apply Qcmult_inv_r; intros Z; rewrite Z in AP; revert AP; apply Qclt_irr).
    assert (FR : (nq n * (S / all) = nq n - nq n * tiny * / all)%Qc).
    { unfold Qcdiv. rewrite <- (Qcmult_1_r (nq n)) at 2. rewrite <- AI, AE. ring. }
    rewrite FR in B1, B2.
    assert (X0 : (0 <= nq n * tiny * / all)%Qc).
    { apply Qcmul_nonneg; [apply Qcmul_nonneg; [apply nq_nonneg|qcl]|qcl]. }
    assert (X1 : (nq n * tiny * / all < 1)%Qc).
    { rewrite <- AI. apply Qcmult_lt_compat_r; auto. rewrite AE. qcl. }
    split.
    - destruct (Nat.le_gt_cases n len) as [|G]; auto. exfalso. pose proof (nq_le (a:=Datatypes.S len) (b:=n) G) as Q. rewrite nq_S in Q. qcl.
    - destruct (Nat.lt_ge_cases len (n + length g)) as [|G]; auto. exfalso. pose proof (nq_le G) as Q. rewrite nq_add in Q. qcl.
  Qed.
End G.

(* ---- uniform distributed buffer ---- *)
Section D.
  Context {T : Type}.
  Variable ok : T -> bool.

  (* a member: capacity and the episodes it was asked to store *)
  Definition mem := (nat * list (list T))%type.
  Definition mbuf (m : mem) : buffer T := b_run ok (b_new (fst m)) (map (@BStore T) (snd m)).
  Definition mok (m : mem) : Prop := 0 < fst m /\ forall e, In e (snd m) -> length e <= fst m.
  Definition mret (m : mem) : list T := concat (retained (fst m) (accepted ok (snd m))).

  Lemma db_size_ok ms : (forall m, In m ms -> mok m) ->
    db_all_size (map mbuf ms) = list_sum (map (fun m => Nat.min (total (accepted ok (snd m))) (fst m)) ms).
  Proof.
    intros MO. unfold db_all_size.
    assert (G : forall a, fold_left (fun c b => c + b_size b) (map mbuf ms) a =
       a + list_sum (map (fun m => Nat.min (total (accepted ok (snd m))) (fst m)) ms)).
    { induction ms as [|m r IH]; intros a; cbn; [lia|]. rewrite IH by (intros; apply MO; now right).
      destruct (MO m (or_introl eq_refl)) as [C H]. unfold mbuf at 1; rewrite (b_size_inv (run_inv ok _ C H)).
      unfold list_sum. lia. }
    apply G.
  Qed.

  Lemma db_ask_ok n pick : forall ms k, (forall m, In m ms -> mok m) ->
    (forall j m, nth_error ms j = Some m -> forall i, In i (pick (k + j)) -> i < length (mret m)) ->
    exists bs, db_ask n pick k (map mbuf ms) = Ok (combine (map (fun m => Nat.min (length (mret m)) n) ms) bs) /\
      length bs = length ms /\
      forall j m b, nth_error ms j = Some m -> nth_error bs j = Some b -> index_all (mret m) (pick (k + j)) = Ok b.
  Proof.
    induction ms as [|m r IH]; intros k MO P.
    - exists []. cbn. repeat split; auto. intros [|j]; discriminate.
    - destruct (MO m (or_introl eq_refl)) as [C H].
      destruct (sample_random_inv n (pick k) (run_inv ok _ C H)) as (xs & E & I).
      { intros i Q. apply (P 0 m eq_refl). now rewrite Nat.add_0_r. }
      destruct (IH (S k)) as (bs & E2 & L2 & P2); [intros; apply MO; now right| |].
      { intros j m' J i Q. apply (P (S j) m' J). replace (k + S j) with (S k + j) by lia. exact Q. }
      exists (xs :: bs). cbn [map db_ask]. unfold mbuf at 1. rewrite E. cbn [bind]. rewrite E2. cbn [bind combine].
      split; auto. split; [cbn; auto|]. intros [|j] m' b J B; cbn in J, B.
      + injection J as <-. injection B as <-. rewrite Nat.add_0_r. exact I.
      + replace (k + S j) with (S k + j) by lia. eapply P2; eauto.
  Qed.

  Lemma local_size_bounds n p : 0 < p -> n <= local_size n p * p /\ (0 < n -> local_size n p * p < n + p) /\ (n = 0 -> local_size n p = 0).
  Proof.
    intros P. unfold local_size. pose proof (Nat.div_mod (n + p - 1) p ltac:(lia)) as D.
    pose proof (Nat.mod_upper_bound (n + p - 1) p ltac:(lia)). repeat split; intros; try nia.
  Qed.
End D.
