(* The pool as a whole: accounting of chunks over every schedule. *)
From Coq Require FinFun.
From Verif Require Import Lib.Base Model.Pool Spec.PoolSpec Proofs.PoolProofs.
Set Implicit Arguments.

Section Sys.
  Variables A V E : Type.
  Notation st := (st A V E).
  Notation event := (event A V E).
  Notation job := (job A V E).
  Notation outc := (outcome E (payload V)).

  Definition tkey (t : option (task A V E)) : list (nat * nat) :=
    match t with Some t => [(t_job t, t_chunk t)] | None => [] end.
  Definition wkey (w : wstate A V E) : list (nat * nat) :=
    match w with WBusy t => [(t_job t, t_chunk t)] | _ => [] end.
  Definition skey (e : event) : list (nat * nat) :=
    match e with ESubmit j jb _ => map (pair j) (seq 0 (njobs jb)) | _ => [] end.
  Definition sid (e : event) : list nat := match e with ESubmit j _ _ => [j] | _ => [] end.
  Definition rkey (e : event) : list (nat * nat) := match e with EReport _ j k _ => [(j, k)] | _ => [] end.
  Definition lkey (e : event) : list (nat * nat) := match e with ELost _ _ _ j k => [(j, k)] | _ => [] end.

  Definition in_keys (s : st) := flat_map tkey (s_in s).
  Definition busy_keys (p : list (wstate A V E)) := flat_map wkey p.
  Definition out_keys (s : st) : list (nat * nat) := map fst (s_out s).
  Definition sub_keys (l : list event) := flat_map skey l.
  Definition sub_ids (l : list event) := flat_map sid l.
  Definition rep_keys (l : list event) := flat_map rkey l.
  Definition lost_keys (l : list event) := flat_map lkey l.

  Lemma reports_app j l1 l2 : reports j (l1 ++ l2) = reports j l1 ++ reports (A:=A) (V:=V) (E:=E) j l2.
  Proof. induction l1 as [|[] l1 IH]; cbn; auto. destruct (j0 =? j); cbn; now rewrite IH. Qed.
  Lemma yields_app j l1 l2 : yields j (l1 ++ l2) = yields j l1 ++ yields (A:=A) (V:=V) (E:=E) j l2.
  Proof. induction l1 as [|[] l1 IH]; cbn; auto. destruct (j0 =? j); cbn; now rewrite IH. Qed.
  Lemma In_reports j k (o : outc) (l : list event) : In (k, o) (reports j l) <-> In (EReport A j k o) l.
  Proof.
    induction l as [|[] l IH]; cbn; try tauto; try (rewrite IH; split; [auto|intros [H|H]; [discriminate|auto]]).
    destruct (Nat.eqb_spec j0 j) as [->|N]; cbn; rewrite IH.
    - split; intros [H|H]; auto; left; congruence.
    - split; auto. intros [H|H]; auto. congruence.
  Qed.
  Lemma cnt_reports j k (l : list event) : cnt (j, k) (rep_keys l) = count_occ Nat.eq_dec (map fst (reports j l)) k.
  Proof.
    induction l as [|[] l IH]; cbn [rep_keys flat_map rkey app reports]; auto.
    fold (rep_keys l). rewrite cnt_cons. destruct (Nat.eqb_spec j0 j) as [->|N]; cbn [map fst count_occ]; rewrite IH.
    - destruct (kdec (j, k0) (j, k)), (Nat.eq_dec k0 k); try congruence; auto.
    - destruct (kdec (j0, k0) (j, k)); try congruence; auto.
  Qed.
  Lemma In_sub_ids j (l : list event) : In j (sub_ids l) <-> exists jb pf, In (ESubmit j jb pf) l.
  Proof.
    unfold sub_ids. rewrite in_flat_map. split.
    - intros ([] & I & H); cbn in H; try tauto. destruct H as [<-|[]]. eauto.
    - intros (jb & pf & I). eexists; split; eauto. cbn; auto.
  Qed.
  Lemma sub_unique (l : list event) j jb pf jb' pf' : NoDup (sub_ids l) ->
    In (ESubmit j jb pf) l -> In (ESubmit j jb' pf') l -> jb = jb' /\ pf = pf'.
  Proof.
    induction l as [|e l IH]; cbn; [tauto|]. intros N H1 H2.
    destruct H1 as [->|H1], H2 as [H2|H2].
    - injection H2 as <- <-. auto.
    - cbn in N. apply NoDup_cons_iff in N as [N _]. exfalso. apply N. apply In_sub_ids. eauto.
    - subst e. cbn in N. apply NoDup_cons_iff in N as [N _]. exfalso. apply N. apply In_sub_ids. eauto.
    - apply IH; auto. destruct e; cbn in N; auto. now inversion N.
  Qed.
  Lemma In_sub_keys j k (l : list event) : In (j, k) (sub_keys l) <-> exists jb pf, In (ESubmit j jb pf) l /\ k < njobs jb.
  Proof.
    unfold sub_keys. rewrite in_flat_map. split.
    - intros ([] & I & H); cbn in H; try tauto. apply in_map_iff in H as (k' & Q & Hk). injection Q as -> ->.
      apply in_seq in Hk. exists jb, pf. split; auto. lia.
    - intros (jb & pf & I & H). eexists; split; eauto. cbn. apply in_map_iff. exists k. split; auto. apply in_seq. lia.
  Qed.
  Lemma NoDup_app' {T} (a b : list T) : NoDup a -> NoDup b -> (forall x, In x a -> ~ In x b) -> NoDup (a ++ b).
  Proof.
    induction a as [|x a IH]; cbn; auto. intros Na Nb D. inversion Na; subst. constructor.
    - rewrite in_app_iff. intros [I|I]; auto. eapply D; eauto.
    - apply IH; [auto|auto|]. intros y Iy. apply D. auto.
  Qed.
  Lemma NoDup_sub_keys l : NoDup (sub_ids l) -> NoDup (sub_keys l).
  Proof.
    induction l as [|e l IH]; cbn; intro N; [constructor|].
    destruct e; cbn [skey sid app] in *; auto.
    inversion N; subst. apply NoDup_app'; auto.
    - apply FinFun.Injective_map_NoDup; [|apply seq_NoDup]. intros a b H. congruence.
    - intros [j' k'] I I2. apply in_map_iff in I as (k2 & Q & _). injection Q as -> ->.
      apply In_sub_keys in I2 as (jb' & pf' & I2 & _). apply H1. apply In_sub_ids. eauto.
  Qed.

  Definition pending (jb : job) (reps : list (nat * outc)) : Prop :=
    match jb with JMap _ _ c => c <> 0 | _ => True end /\ (length reps < njobs jb \/ njobs jb = 0).

  Record INV (todo : list (nat * nat)) (s : st) : Prop := {
    i_cnt : forall p, cnt p (sub_keys (s_log s)) =
      cnt p (in_keys s) + cnt p (busy_keys (s_pool s)) + cnt p (out_keys s) +
      cnt p (rep_keys (s_log s)) + cnt p (lost_keys (s_log s)) + cnt p todo;
    i_ids : NoDup (sub_ids (s_log s));
    i_ctr : forall j, In j (sub_ids (s_log s)) -> j < s_ctr s;
    i_size : forall j jb pf, In (ESubmit j jb pf) (s_log s) -> jsize_ok jb;
    i_task : forall t, In (Some t) (s_in s) \/ In (WBusy t) (s_pool s) ->
      exists jb pf, In (ESubmit (t_job t) jb pf) (s_log s) /\
        nth_error (works jb) (t_chunk t) = Some (t_work t) /\ pf (t_chunk t) = None;
    i_out : forall j k o, In (j, k, o) (s_out s) \/ In (EReport A j k o) (s_log s) ->
      exists jb pf, In (ESubmit j jb pf) (s_log s) /\ out_of jb pf k o;
    i_obj : forall j jb pf, In (ESubmit j jb pf) (s_log s) ->
      exists r, dget j (s_objs s) = Some r /\
        obj_ok jb pf (reports j (s_log s)) (yields j (s_log s)) r /\
        (In j (s_cache s) <-> pending jb (reports j (s_log s)));
    i_cache : forall j, In j (s_cache s) -> In j (sub_ids (s_log s));
    i_yield : forall j o, In (EYield A j o) (s_log s) -> In j (sub_ids (s_log s));
    i_objs : dkeys (s_objs s) = sub_ids (s_log s)
  }.

  Lemma inv_le1 todo s p : INV todo s -> cnt p (sub_keys (s_log s)) <= 1.
  Proof. intro I. apply (NoDup_count_occ kdec). apply NoDup_sub_keys. apply (i_ids I). Qed.

  (* what validity of the reports of a job needs *)
  Lemma valid_reports log j jb pf :
    NoDup (sub_ids log) ->
    (forall p, cnt p (rep_keys log) <= cnt p (sub_keys log)) ->
    (forall j k o, In (EReport A j k o) log -> exists jb pf, In (ESubmit j jb pf) log /\ out_of jb pf k o) ->
    In (ESubmit j jb pf) log -> valid jb pf (reports j log).
  Proof.
    intros N C O I. split.
    - apply (NoDup_count_occ Nat.eq_dec). intro k. rewrite <- cnt_reports.
      specialize (C (j, k)). pose proof (proj1 (NoDup_count_occ kdec _) (NoDup_sub_keys _ N) (j, k)). unfold cnt in *. lia.
    - apply Forall_forall. intros [k o] H. apply In_reports in H. apply O in H as (jb' & pf' & I' & Q).
      destruct (sub_unique _ _ _ _ _ _ N I I') as [-> ->]. exact Q.
  Qed.
  Lemma inv_valid todo s j jb pf : INV todo s -> In (ESubmit j jb pf) (s_log s) -> valid jb pf (reports j (s_log s)).
  Proof.
    intros I H. apply valid_reports; auto.
    - apply (i_ids I).
    - intro p. rewrite (i_cnt I p). lia.
    - intros. apply (i_out I). auto.
  Qed.

  Lemma rm_In i j l : In i (rm j l) <-> In i l /\ i <> j.
  Proof. unfold rm. rewrite filter_In. destruct (Nat.eqb_spec i j); cbn; intuition; discriminate. Qed.

  Lemma sub_keys_app l1 l2 : sub_keys (l1 ++ l2) = sub_keys l1 ++ sub_keys l2.
  Proof. apply flat_map_app. Qed.
  Lemma sub_ids_app l1 l2 : sub_ids (l1 ++ l2) = sub_ids l1 ++ sub_ids l2.
  Proof. apply flat_map_app. Qed.
  Lemma rep_keys_app l1 l2 : rep_keys (l1 ++ l2) = rep_keys l1 ++ rep_keys l2.
  Proof. apply flat_map_app. Qed.
  Lemma lost_keys_app l1 l2 : lost_keys (l1 ++ l2) = lost_keys l1 ++ lost_keys l2.
  Proof. apply flat_map_app. Qed.

  Lemma report_inv todo s j k o jb pf :
    INV ((j, k) :: todo) s -> In (ESubmit j jb pf) (s_log s) -> out_of jb pf k o ->
    INV todo (report j k o s) /\ s_log (report j k o s) = s_log s ++ [EReport A j k o].
  Proof.
    intros I HS HO. destruct (i_obj I _ _ _ HS) as (r & Hr & Ok & Pd).
    pose proof (inv_valid _ _ _ I HS) as V1.
    set (log' := s_log s ++ [EReport A j k o]).
    assert (SI : sub_ids log' = sub_ids (s_log s)) by (unfold log'; rewrite sub_ids_app; cbn; apply app_nil_r).
    assert (SK : sub_keys log' = sub_keys (s_log s)) by (unfold log'; rewrite sub_keys_app; cbn; apply app_nil_r).
    assert (IL : forall j' jb' pf', In (ESubmit j' jb' pf') log' <-> In (ESubmit j' jb' pf') (s_log s)).
    { intros. unfold log'. rewrite In_snoc. split; auto. intros [H|H]; auto. discriminate. }
    assert (RJ : reports j log' = reports j (s_log s) ++ [(k, o)]).
    { unfold log'. rewrite reports_app. cbn. now rewrite Nat.eqb_refl. }
    assert (RO : forall j', j' <> j -> reports j' log' = reports j' (s_log s)).
    { intros j' N. unfold log'. rewrite reports_app. cbn. destruct (Nat.eqb_spec j j'); [congruence|]. apply app_nil_r. }
    assert (YL : forall j', yields j' log' = yields j' (s_log s)).
    { intro j'. unfold log'. rewrite yields_app. cbn. apply app_nil_r. }
    assert (C' : forall p, cnt p (sub_keys log') = cnt p (in_keys s) + cnt p (busy_keys (s_pool s)) + cnt p (out_keys s) +
      cnt p (rep_keys log') + cnt p (lost_keys log') + cnt p todo).
    { intro p. rewrite SK, (i_cnt I p). unfold log'. rewrite rep_keys_app, lost_keys_app, !cnt_app. cbn [rep_keys lost_keys flat_map rkey lkey app].
      rewrite !cnt_cons, !cnt_nil. lia. }
    assert (O' : forall j' k' o', In (j', k', o') (s_out s) \/ In (EReport A j' k' o') log' ->
       exists jb' pf', In (ESubmit j' jb' pf') log' /\ out_of jb' pf' k' o').
    { intros j' k' o' H. assert (H' : (In (j', k', o') (s_out s) \/ In (EReport A j' k' o') (s_log s)) \/ EReport A j' k' o' = EReport A j k o).
      { unfold log' in H. rewrite In_snoc in H. tauto. }
      destruct H' as [H'|H'].
      - apply (i_out I) in H' as (jb' & pf' & ? & ?). exists jb', pf'. rewrite IL. auto.
      - injection H' as -> -> ->. exists jb, pf. rewrite IL. auto. }
    assert (V2 : valid jb pf (reports j (s_log s) ++ [(k, o)])).
    { rewrite <- RJ. apply valid_reports.
      - rewrite SI. apply (i_ids I).
      - intro p. rewrite C'. lia.
      - intros. apply O'. auto.
      - now apply IL. }
    pose proof (valid_len V2) as LL. rewrite app_length in LL. cbn [length] in LL.
    assert (IC : In j (s_cache s)).
    { apply Pd. split; [|lia]. destruct jb as [|f xs c|]; auto. intros ->. unfold njobs in LL. cbn [works] in LL. rewrite split_zero in LL. cbn in LL. lia. }
    destruct (@obj_set_ok A V E jb pf _ _ r k o (i_size I _ _ _ HS) Ok V1 V2) as [Ok' D].
    unfold report. replace (existsb (Nat.eqb j) (s_cache s)) with true.
    2:{ symmetry. apply existsb_exists. exists j. split; auto. apply Nat.eqb_refl. }
    rewrite Hr. destruct (obj_set k o r) as [r' d]. cbn [fst snd] in *. split; [|reflexivity].
    constructor; cbn [s_log s_objs s_cache s_in s_pool s_out s_ctr]; fold log'.
    - exact C'.
    - rewrite SI. apply (i_ids I).
    - rewrite SI. apply (i_ctr I).
    - intros j' jb' pf' H. rewrite IL in H. eapply (i_size I); eauto.
    - intros t H. destruct (i_task I _ H) as (jb' & pf' & ? & ?). exists jb', pf'. rewrite IL. auto.
    - exact O'.
    - intros j' jb' pf' H. rewrite IL in H. destruct (Nat.eq_dec j' j) as [->|N].
      + destruct (sub_unique _ _ _ _ _ _ (i_ids I) H HS) as [-> ->]. exists r'.
        rewrite dget_dset_same, RJ, YL. split; [reflexivity|]. split; [exact Ok'|].
        unfold pending. rewrite app_length. cbn [length]. rewrite D.
        destruct (Nat.eqb_spec (S (length (reports j (s_log s)))) (njobs jb)) as [Q|Q].
        * rewrite rm_In. split; [tauto|lia].
        * split; [|auto]. intros _. apply Pd in IC as [IC _]. split; auto. lia.
      + destruct (i_obj I _ _ _ H) as (r2 & ? & ? & P2). exists r2.
        rewrite dget_dset_other, RO, YL by auto. split; [auto|]. split; [auto|].
        rewrite <- P2. destruct d; [rewrite rm_In|]; tauto.
    - intros j' H. rewrite SI. apply (i_cache I). destruct d; auto. apply rm_In in H. tauto.
    - intros j' o' H. rewrite SI. unfold log' in H. rewrite In_snoc in H. destruct H as [H|H]; [|discriminate]. eapply (i_yield I); eauto.
    - rewrite SI, <- (i_objs I). apply dkeys_dset. rewrite (i_objs I). apply In_sub_ids. eauto.
  Qed.

  Lemma put_in_inv todo s t jb pf :
    INV ((t_job t, t_chunk t) :: todo) s -> In (ESubmit (t_job t) jb pf) (s_log s) ->
    nth_error (works jb) (t_chunk t) = Some (t_work t) -> pf (t_chunk t) = None ->
    INV todo (put_in (Some t) s).
  Proof.
    intros I H1 H2 H3. destruct I. constructor; cbn [put_in s_log s_objs s_cache s_in s_pool s_out s_ctr]; auto.
    - intro p. rewrite (i_cnt0 p). unfold in_keys, out_keys. cbn [put_in s_in s_out]. rewrite flat_map_app, cnt_app. cbn [flat_map tkey app]. rewrite !cnt_cons, cnt_nil. lia.
    - intros t' [H|H]; auto. apply In_snoc in H as [H|H]; auto. injection H as ->. eauto.
  Qed.

  Lemma put_all_inv j jb pf ws : forall k todo s,
    (forall i w, nth_error ws i = Some w -> nth_error (works jb) (k + i) = Some w) ->
    In (ESubmit j jb pf) (s_log s) ->
    INV (map (pair j) (seq k (length ws)) ++ todo) s ->
    INV todo (put_all j k ws pf s).
  Proof.
    induction ws as [|w ws IH]; intros k todo s Hw HS I; [exact I|].
    cbn [length seq map app] in I. cbn [put_all].
    assert (H0 : nth_error (works jb) k = Some w). { specialize (Hw 0 w eq_refl). now rewrite Nat.add_0_r in Hw. }
    assert (Hw' : forall i w0, nth_error ws i = Some w0 -> nth_error (works jb) (S k + i) = Some w0).
    { intros i w0 H. specialize (Hw (S i) w0 H). now rewrite Nat.add_succ_r in Hw. }
    destruct (pf k) as [e|] eqn:P.
    - destruct (@report_inv _ s j k (Bad e) jb pf I HS) as [I' L'].
      { exists w. rewrite P. auto. }
      apply IH; auto. rewrite L'. apply in_app_iff. auto.
    - apply IH; auto. eapply put_in_inv with (jb := jb) (pf := pf); cbn; auto.
  Qed.

  Lemma submit_inv s jb pf : INV [] s -> jsize_ok jb -> INV [] (fst (submit jb pf s)).
  Proof.
    intros I Hs. unfold submit. cbn [fst]. set (j := s_ctr s).
    assert (NJ : ~ In j (sub_ids (s_log s))). { intro H. apply (i_ctr I) in H. unfold j in H. lia. }
    apply put_all_inv with (jb := jb).
    - auto.
    - unfold register. destruct (new_obj jb). cbn. apply In_snoc; auto.
    - destruct (@new_obj_ok A V E jb pf Hs) as [Ok Cc]. unfold register. destruct (new_obj jb) as [r c]. cbn [fst snd] in *.
      rewrite app_nil_r. 
      set (log' := s_log s ++ [ESubmit j jb pf]).
      assert (IL : forall j' jb' pf', In (ESubmit j' jb' pf') log' <-> In (ESubmit j' jb' pf') (s_log s) \/ ESubmit j' jb' pf' = ESubmit j jb pf).
      { intros. apply In_snoc. }
      assert (RL : forall j', reports j' log' = reports j' (s_log s)).
      { intro. unfold log'. rewrite reports_app. apply app_nil_r. }
      assert (YL : forall j', yields j' log' = yields j' (s_log s)).
      { intro. unfold log'. rewrite yields_app. apply app_nil_r. }
      assert (RN : reports j (s_log s) = []).
      { destruct (reports j (s_log s)) as [|[k o] q] eqn:Q; auto. exfalso.
        assert (In (k, o) (reports j (s_log s))) by (rewrite Q; cbn; auto). apply In_reports in H.
        destruct (i_out I j k o) as (jb' & pf' & ? & _); auto. apply NJ. apply In_sub_ids. eauto. }
      assert (SI : sub_ids log' = sub_ids (s_log s) ++ [j]) by (unfold log'; now rewrite sub_ids_app).
      assert (YN : yields j (s_log s) = []).
      { assert (G : forall l : list event, (forall o, ~ In (EYield A j o) l) -> yields j l = []).
        { induction l as [|[] l IH]; cbn; intros H; auto; try (apply IH; intros o' H'; eapply H; eauto).
          destruct (Nat.eqb_spec j0 j) as [->|]; [exfalso; eapply H; eauto|apply IH; intros o' H'; eapply H; eauto]. }
        apply G. intros o H. apply NJ. eapply (i_yield I); eauto. }
      constructor; cbn [bump s_log s_objs s_cache s_in s_pool s_out s_ctr]; fold log'.
      + intro p. unfold log'. rewrite sub_keys_app, rep_keys_app, lost_keys_app, !cnt_app, (i_cnt I p).
        cbn [sub_keys rep_keys lost_keys flat_map skey rkey lkey app]. rewrite app_nil_r, !cnt_nil.
        unfold in_keys, out_keys, njobs. cbn [s_in s_out]. lia.
      + rewrite SI. apply NoDup_app'; [apply (i_ids I)|repeat constructor; auto|]. intros x H [<-|[]]. auto.
      + intros j' H. rewrite SI in H. apply In_snoc in H as [H|H]; [apply (i_ctr I) in H; lia|]. subst j'. unfold j. lia.
      + intros j' jb' pf' H. apply IL in H as [H|H]; [eapply (i_size I); eauto|]. injection H as -> -> ->. exact Hs.
      + intros t H. destruct (i_task I _ H) as (jb' & pf' & ? & ?). exists jb', pf'. rewrite IL. auto.
      + intros j' k' o' H. destruct (i_out I j' k' o') as (jb' & pf' & ? & ?).
        * destruct H as [H|H]; auto. unfold log' in H. rewrite In_snoc in H. destruct H as [H|H]; [auto|discriminate].
        * exists jb', pf'. rewrite IL. auto.
      + intros j' jb' pf' H. rewrite RL, YL. apply IL in H as [H|H].
        * assert (N : j' <> j). { intros ->. apply NJ. apply In_sub_ids. eauto. }
          destruct (i_obj I _ _ _ H) as (r2 & G2 & O2 & P2). exists r2. split; [|split; [auto|]].
          -- rewrite <- (dset_new j r); [now rewrite dget_dset_other by auto|]. now rewrite (i_objs I).
          -- rewrite <- P2. destruct c; [rewrite In_snoc; intuition congruence|tauto].
        * injection H as -> -> ->. exists r. split; [|split].
          -- rewrite <- (dset_new j r); [now rewrite dget_dset_same by auto|]. now rewrite (i_objs I).
          -- rewrite RN, YN. exact Ok.
          -- assert (NC : ~ In j (s_cache s)). { intro H. apply NJ. now apply (i_cache I). }
             rewrite RN. unfold pending. cbn [length].
             assert (Q : 0 < njobs jb \/ njobs jb = 0) by lia.
             destruct jb as [f x|f xs cc|b f xs cc]; subst c.
             ++ rewrite In_snoc. intuition.
             ++ destruct (Nat.eqb_spec cc 0); cbn [negb]; [intuition|rewrite In_snoc; intuition].
             ++ rewrite In_snoc. intuition.
      + intros j' H. rewrite SI, In_snoc. destruct c; [apply In_snoc in H as [H|H]|]; auto; left; now apply (i_cache I).
      + intros j' o H. rewrite SI, In_snoc. unfold log' in H. rewrite In_snoc in H. destruct H as [H|H]; [|discriminate]. left. eapply (i_yield I); eauto.
      + rewrite SI. unfold dkeys. rewrite map_app. cbn. f_equal. apply (i_objs I).
  Qed.

  (* frame: only queues and pool change *)
  Lemma inv_frame todo todo' (s s' : st) :
    INV todo s -> s_log s' = s_log s -> s_objs s' = s_objs s -> s_cache s' = s_cache s -> s_ctr s <= s_ctr s' ->
    (forall p, cnt p (in_keys s') + cnt p (busy_keys (s_pool s')) + cnt p (out_keys s') + cnt p todo' =
               cnt p (in_keys s) + cnt p (busy_keys (s_pool s)) + cnt p (out_keys s) + cnt p todo) ->
    (forall t, In (Some t) (s_in s') \/ In (WBusy t) (s_pool s') -> In (Some t) (s_in s) \/ In (WBusy t) (s_pool s)) ->
    (forall j k o, In (j, k, o) (s_out s') -> In (j, k, o) (s_out s) \/
        exists jb pf, In (ESubmit j jb pf) (s_log s) /\ out_of jb pf k o) ->
    INV todo' s'.
  Proof.
    intros I El Eo Ec Er Cn Ht Ho. constructor; rewrite ?El, ?Eo, ?Ec; try apply I.
    - intro p. rewrite (i_cnt I p). specialize (Cn p). lia.
    - intros j H. apply (i_ctr I) in H. lia.
    - intros t H. apply (i_task I). auto.
    - intros j k o [H|H]; [|apply (i_out I); auto]. destruct (Ho _ _ _ H) as [H'|H']; auto. apply (i_out I). auto.
  Qed.

  Lemma busy_upd p w x (pool : list (wstate A V E)) y : nth_error pool w = Some y ->
    cnt p (busy_keys (upd w x pool)) + cnt p (wkey y) = cnt p (busy_keys pool) + cnt p (wkey x).
  Proof.
    revert w; induction pool as [|z pool IH]; intros [|w] H; cbn in H; try discriminate.
    - injection H as ->. unfold busy_keys. cbn [upd flat_map]. rewrite !cnt_app. lia.
    - unfold busy_keys in *. cbn [upd flat_map]. rewrite !cnt_app. specialize (IH _ H). lia.
  Qed.
  Lemma busy_app (a b : list (wstate A V E)) : busy_keys (a ++ b) = busy_keys a ++ busy_keys b.
  Proof. apply flat_map_app. Qed.
  Lemma busy_repeat n : busy_keys (repeat WIdle n) = [].
  Proof. induction n; cbn; auto. Qed.
  Lemma busy_filter p : busy_keys (filter (@alive A V E) p) = busy_keys p.
  Proof. induction p as [|[] p IH]; cbn; auto. unfold busy_keys in IH. now rewrite IH. Qed.
  Lemma in_nones n : flat_map tkey (repeat None n) = [].
  Proof. induction n; cbn; auto. Qed.

  Definition with_log (s : st) (p : list (wstate A V E)) (es : list event) : st :=
    {| s_state := s_state s; s_ctr := s_ctr s; s_objs := s_objs s; s_cache := s_cache s;
       s_in := s_in s; s_pool := p; s_out := s_out s;
       s_wh := s_wh s; s_rh := s_rh s; s_log := s_log s ++ es |}.
  Lemma fold_add_log es : forall (s : st) p,
    fold_left (fun s e => add_log e s) es (set_pool p s) = with_log s p es.
  Proof.
    intros s p. assert (G : forall es es0, fold_left (fun s e => add_log e s) es (with_log s p es0) = with_log s p (es0 ++ es)).
    { clear es. induction es as [|e es IH]; intro es0; cbn [fold_left]; [now rewrite app_nil_r|].
      replace (add_log e (with_log s p es0)) with (with_log s p (es0 ++ [e])).
      - rewrite IH, <- app_assoc. reflexivity.
      - unfold add_log, with_log; cbn. now rewrite app_assoc. }
    specialize (G es []). cbn [app] in G. rewrite <- G. f_equal. unfold with_log, set_pool. now rewrite app_nil_r.
  Qed.
  Lemma lost_keys_of (p : list (wstate A V E)) : lost_keys (flat_map (@lost_of A V E) p) = busy_keys p.
  Proof. induction p as [|[] p IH]; cbn; auto. unfold lost_keys, busy_keys in IH. now rewrite IH. Qed.
  Lemma busy_dead (p : list (wstate A V E)) : busy_keys (map (fun _ => WDead) p) = [].
  Proof. induction p; cbn; auto. Qed.

  Lemma lost_inv s p es : INV [] s ->
    (forall q, cnt q (busy_keys p) + cnt q (lost_keys es) = cnt q (busy_keys (s_pool s))) ->
    (forall t, In (WBusy t) p -> In (WBusy t) (s_pool s)) ->
    (forall e, In e es -> exists j k, e = ELost A V E j k) ->
    INV [] (with_log s p es).
  Proof.
    intros I Cn Ht He. set (log' := s_log s ++ es).
    assert (IL : forall j' jb' pf', In (ESubmit j' jb' pf') log' <-> In (ESubmit j' jb' pf') (s_log s)).
    { intros. unfold log'. rewrite in_app_iff. split; auto. intros [H|H]; auto. apply He in H as (? & ? & ?). discriminate. }
    assert (Z : sub_ids es = [] /\ sub_keys es = [] /\ rep_keys es = [] /\ forall j, reports j es = [] /\ yields j es = []).
    { clear - He. induction es as [|e es IH]; cbn; auto. destruct IH as (a & b & c & d).
      { intros e' H. apply He. cbn; auto. }
      destruct (He e) as (j & k & ->); cbn; auto. }
    destruct Z as (Z1 & Z2 & Z3 & Z4).
    assert (RL : forall j', reports j' log' = reports j' (s_log s)).
    { intro j'. unfold log'. rewrite reports_app, (proj1 (Z4 j')). apply app_nil_r. }
    assert (YL : forall j', yields j' log' = yields j' (s_log s)).
    { intro j'. unfold log'. rewrite yields_app, (proj2 (Z4 j')). apply app_nil_r. }
    assert (SI : sub_ids log' = sub_ids (s_log s)) by (unfold log'; rewrite sub_ids_app, Z1; apply app_nil_r).
    constructor; cbn [with_log s_log s_objs s_cache s_in s_pool s_out s_ctr]; fold log'; rewrite ?SI; try apply I.
    - intro q. pose proof (i_cnt I q) as C0. specialize (Cn q). unfold log', in_keys, out_keys in *.
      rewrite sub_keys_app, rep_keys_app, lost_keys_app, Z2, Z3, !app_nil_r, cnt_app. cbn [with_log s_in s_out]. lia.
    - intros j' jb' pf' H. rewrite IL in H. eapply (i_size I); eauto.
    - intros t' H. destruct (i_task I t') as (jb' & pf' & ? & ?); [destruct H; auto|].
      exists jb', pf'. rewrite IL. auto.
    - intros j' k' o' H. destruct (i_out I j' k' o') as (jb' & pf' & ? & ?).
      + destruct H as [H|H]; auto. unfold log' in H. rewrite in_app_iff in H. destruct H as [H|H]; [auto|]. apply He in H as (? & ? & ?). discriminate.
      + exists jb', pf'. rewrite IL. auto.
    - intros j' jb' pf' H. rewrite IL in H. rewrite RL, YL. apply (i_obj I); auto.
    - intros j' o' H. unfold log' in H. rewrite in_app_iff in H. destruct H as [H|H]; [eapply (i_yield I); eauto|]. apply He in H as (? & ? & ?). discriminate.
  Qed.

  Variable procs : nat.

  Lemma init_inv : INV [] (init A V E procs).
  Proof.
    constructor; cbn; try tauto; try (now constructor).
    - intro p. now rewrite busy_repeat.
    - intros t [[]|H]. apply repeat_spec in H. discriminate.
  Qed.

  Lemma map_chunksize_ok c n plen z : map_chunksize c n plen = Ok z -> n = 0 -> z = 0%Z.
  Proof. unfold map_chunksize. intros H ->. destruct c; cbn in H; [congruence|]. destruct (plen =? 0); cbn in H; [discriminate|congruence]. Qed.

  Lemma step_inv s l : INV [] s -> INV [] (fst (step procs s l)).
  Proof.
    intro I. destruct l as [f x pf|f xs c plen pf|b f xs c pf|j|w|w|w| | | | |]; cbn [step].
    - destruct (running s); [|exact I]. now apply submit_inv.
    - destruct (running s); [|exact I]. destruct (map_chunksize c (length xs) plen) as [z|e] eqn:Mc; [|exact I].
      destruct (z <? 0)%Z; [|apply submit_inv; auto].
      + cbn [fst]. eapply inv_frame; eauto; cbn; auto.
      + cbn. intros ->. now rewrite (@map_chunksize_ok _ _ _ _ Mc eq_refl).
    - destruct (running s); [|exact I]. destruct (Z.ltb_spec c 1).
      + cbn [fst]. eapply inv_frame; eauto; cbn; auto.
      + apply submit_inv; auto. cbn. lia.
    - destruct (dget j (s_objs s)) as [r|] eqn:G; [|exact I].
      destruct (obj_next r) as [r' a] eqn:Nx. destruct a; try exact I. cbn [fst].
      assert (IJ : In j (sub_ids (s_log s))).
      { rewrite <- (i_objs I). apply dget_Some_In in G. apply in_map_iff. exists (j, r). auto. }
      pose proof IJ as IJ'. apply In_sub_ids in IJ' as (jb & pf & HS).
      set (log' := s_log s ++ [EYield A j o]).
      assert (IL : forall j' jb' pf', In (ESubmit j' jb' pf') log' <-> In (ESubmit j' jb' pf') (s_log s)).
      { intros. unfold log'. rewrite In_snoc. split; auto. intros [H|H]; auto. discriminate. }
      assert (RL : forall j', reports j' log' = reports j' (s_log s)).
      { intro. unfold log'. rewrite reports_app. apply app_nil_r. }
      assert (SI : sub_ids log' = sub_ids (s_log s)) by (unfold log'; rewrite sub_ids_app; cbn; apply app_nil_r).
      constructor; cbn [add_log set_objs s_log s_objs s_cache s_in s_pool s_out s_ctr]; fold log'; rewrite ?SI; try apply I.
      + intro p. unfold log'. rewrite sub_keys_app, rep_keys_app, lost_keys_app. cbn [sub_keys rep_keys lost_keys flat_map skey rkey lkey app].
        rewrite !app_nil_r. apply (i_cnt I p).
      + intros j' jb' pf' H. rewrite IL in H. eapply (i_size I); eauto.
      + intros t H. destruct (i_task I _ H) as (jb' & pf' & ? & ?). exists jb', pf'. rewrite IL. auto.
      + intros j' k' o' H. destruct (i_out I j' k' o') as (jb' & pf' & ? & ?).
        * destruct H as [H|H]; auto. unfold log' in H. rewrite In_snoc in H. destruct H as [H|H]; [auto|discriminate].
        * exists jb', pf'. rewrite IL. auto.
      + intros j' jb' pf' H. rewrite IL in H. rewrite RL.
        destruct (i_obj I _ _ _ H) as (r2 & G2 & O2 & P2).
        unfold log'. rewrite yields_app. cbn [yields]. destruct (Nat.eqb_spec j j') as [->|N].
        * exists r'. rewrite dget_dset_same. split; [auto|]. split; [|exact P2].
          assert (r2 = r) by congruence. subst r2. apply obj_next_ok in O2. rewrite Nx in O2. exact O2.
        * exists r2. rewrite dget_dset_other, app_nil_r by auto. auto.
      + intros j' o' H. unfold log' in H. rewrite In_snoc in H. destruct H as [H|H]; [eapply (i_yield I); eauto|]. injection H as -> _. auto.
      + rewrite dkeys_dset; [apply I|]. now rewrite (i_objs I).
    - destruct (nth_error (s_pool s) w) as [[|t|]|] eqn:W; try exact I.
      destruct (s_in s) as [|[t|] q] eqn:Q; try exact I; cbn [fst].
      + eapply inv_frame; eauto; cbn [set_in set_pool s_log s_objs s_cache s_in s_pool s_out s_ctr]; auto.
        * intro p. pose proof (@busy_upd p w (WBusy t) (s_pool s) _ W) as B. unfold in_keys, out_keys. cbn [s_in s_out set_in set_pool s_pool] in *. rewrite Q.
          cbn [flat_map tkey wkey app] in *. rewrite !cnt_cons, !cnt_nil in *. lia.
        * intros t' [H|H]; [left; rewrite Q; cbn; auto|]. apply In_upd in H as [H|H]; auto. injection H as ->. left. rewrite Q. cbn; auto.
      + eapply inv_frame; eauto; cbn [set_in set_pool s_log s_objs s_cache s_in s_pool s_out s_ctr]; auto.
        * intro p. pose proof (@busy_upd p w WDead (s_pool s) _ W) as B. unfold in_keys, out_keys. cbn [s_in s_out set_in set_pool s_pool] in *. rewrite Q.
          cbn [flat_map tkey wkey app] in *. rewrite !cnt_nil in *. lia.
        * intros t' [H|H]; [left; rewrite Q; cbn; auto|]. apply In_upd in H as [H|H]; auto. discriminate.
    - destruct (nth_error (s_pool s) w) as [[|t|]|] eqn:W; try exact I. cbn [fst].
      eapply inv_frame; eauto; cbn [set_out set_pool s_log s_objs s_cache s_in s_pool s_out s_ctr]; auto.
      + intro p. pose proof (@busy_upd p w WIdle (s_pool s) _ W) as B. unfold in_keys, out_keys in *. cbn [s_in s_out set_out set_pool s_pool] in *.
        rewrite map_app, cnt_app. cbn [map fst wkey] in *. rewrite !cnt_cons, !cnt_nil in *. lia.
      + intros t' [H|H]; auto. apply In_upd in H as [H|H]; auto. discriminate.
      + intros j k o H. apply In_snoc in H as [H|H]; auto. injection H as -> -> ->. right.
        destruct (i_task I t) as (jb & pf & H1 & H2 & H3). { right. eapply nth_error_In; eauto. }
        exists jb, pf. split; auto. exists (t_work t). rewrite H3. auto.
    - destruct (nth_error (s_pool s) w) as [[|t|]|] eqn:W; try exact I; cbn [fst].
      + eapply inv_frame; eauto; cbn [set_pool s_log s_objs s_cache s_in s_pool s_out s_ctr]; auto.
        * intro p. pose proof (@busy_upd p w WDead (s_pool s) _ W) as B. unfold in_keys, out_keys in *. cbn [s_in s_out set_pool s_pool wkey] in *. lia.
        * intros t' [H|H]; auto. apply In_upd in H as [H|H]; auto. discriminate.
      + apply (@lost_inv s (upd w WDead (s_pool s)) [ELost A V E (t_job t) (t_chunk t)]); auto.
        * intro p. pose proof (@busy_upd p w WDead (s_pool s) _ W) as B. cbn [lost_keys flat_map lkey app wkey] in *. rewrite cnt_nil in B. lia.
        * intros t' H. apply In_upd in H as [H|H]; [discriminate|auto].
        * intros e [<-|[]]. cbn. eauto.
    - destruct (s_rh s); [|exact I]. destruct (keep_going s).
      + destruct (s_out s) as [|[[j k] o] q] eqn:Q; [exact I|]. cbn [fst].
        destruct (i_out I j k o) as (jb & pf & HS & HO); [left; rewrite Q; cbn; auto|].
        apply (@report_inv [] (set_out q s) j k o jb pf); auto.
        eapply inv_frame; eauto; cbn [set_out s_log s_objs s_cache s_in s_pool s_out s_ctr]; auto.
        * intro p. unfold in_keys, out_keys. cbn [set_out s_in s_out s_pool]. rewrite Q. cbn [map fst]. rewrite !cnt_cons, !cnt_nil. lia.
        * intros j' k' o' H. left. rewrite Q. cbn; auto.
      + eapply inv_frame; eauto; cbn; auto.
    - destruct (s_wh s); [|exact I]. destruct (keep_going s); cbn [fst].
      + eapply inv_frame; eauto; cbn [set_pool s_log s_objs s_cache s_in s_pool s_out s_ctr]; auto.
        * intro p. unfold maintain. rewrite busy_app, busy_repeat, app_nil_r, busy_filter. reflexivity.
        * intros t [H|H]; auto. unfold maintain in H. apply in_app_iff in H as [H|H]; [apply filter_In in H; tauto|]. apply repeat_spec in H. discriminate.
      + eapply inv_frame; eauto; cbn [set_threads set_in s_log s_objs s_cache s_in s_pool s_out s_ctr]; auto.
        * intro p. unfold in_keys, out_keys. cbn [s_in s_out set_threads set_in]. now rewrite flat_map_app, in_nones, app_nil_r.
        * intros t [H|H]; auto. apply in_app_iff in H as [H|H]; auto. apply repeat_spec in H. discriminate.
    - destruct (running s); [|exact I]. eapply inv_frame; eauto; cbn; auto.
    - eapply inv_frame; eauto; cbn; auto.
    - destruct (s_state s); try exact I. destruct (s_wh s || s_rh s); [exact I|]. cbn [fst].
      rewrite fold_add_log. apply lost_inv; auto.
      + intro p. rewrite lost_keys_of. rewrite (busy_dead (s_pool s)). rewrite cnt_nil. lia.
      + intros t H. apply in_map_iff in H as (? & ? & _). discriminate.
      + intros e H. apply in_flat_map in H as (wk & _ & H). destruct wk; cbn in H; try tauto. destruct H as [<-|[]]. eauto.
  Qed.

  Lemma run_inv ls : INV [] (run procs ls).
  Proof.
    unfold run. assert (G : forall s, INV [] s -> INV [] (fold_left (fun s l => fst (step procs s l)) ls s)).
    { induction ls as [|l ls IH]; intros s I; cbn; auto. apply IH. now apply step_inv. }
    apply G, init_inv.
  Qed.
End Sys.
