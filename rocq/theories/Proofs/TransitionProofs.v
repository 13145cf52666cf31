From Verif Require Import Lib.Base Model.Transition Spec.TransitionSpec.
Open Scope list_scope.

Section P.
  Context {X : Type}.
  Implicit Types (t first : trans X) (batch : list (trans X)).

  Lemma mem_In k l : mem k l = true <-> In k l.
  Proof.
    unfold mem. rewrite existsb_exists. split.
    - intros (x & I & E). apply String.eqb_eq in E. now subst.
    - intros I. exists k. split; auto. apply String.eqb_refl.
  Qed.
  Lemma mem_nIn k l : mem k l = false <-> ~ In k l.
  Proof. rewrite <- mem_In. destruct (mem k l); intuition congruence. Qed.

  Lemma mapM_ok {A B} (f : A -> res B) l : (forall a, In a l -> exists b, f a = Ok b) ->
    exists q, mapM f l = Ok q /\ Forall2 (fun a b => f a = Ok b) l q.
  Proof.
    induction l as [|a r IH]; intros H; cbn; [exists []; auto|].
    destruct (H a (or_introl eq_refl)) as (b & E). rewrite E. cbn.
    destruct IH as (q & -> & F); [intros; apply H; now right|]. cbn. eauto.
  Qed.
  Lemma mapM_inv {A B} (f : A -> res B) l : forall q, mapM f l = Ok q -> Forall2 (fun a b => f a = Ok b) l q.
  Proof.
    induction l as [|a r IH]; cbn; intros q E; [injection E as <-; auto|].
    destruct (f a) eqn:Fa; [|discriminate]. cbn in E. destruct (mapM f r) eqn:M; [|discriminate].
    cbn in E. injection E as <-. auto.
  Qed.

  Lemma Forall2_impl {A B} (P Q : A -> B -> Prop) l q : (forall a b, P a b -> Q a b) -> Forall2 P l q -> Forall2 Q l q.
  Proof. intros H; induction 1; auto. Qed.
  Lemma F2_len {A B} (P : A -> B -> Prop) l q : Forall2 P l q -> length q = length l.
  Proof. induction 1; cbn; auto. Qed.
  Lemma F2_nth {A B} (P : A -> B -> Prop) l q : Forall2 P l q -> forall i a, nth_error l i = Some a ->
    exists b, nth_error q i = Some b /\ P a b.
  Proof.
    induction 1; intros [|i] a' E; cbn in *; try discriminate; eauto. injection E as <-; eauto.
  Qed.
  Lemma F2_in {A B} (P : A -> B -> Prop) l q : Forall2 P l q -> forall b, In b q -> exists a, In a l /\ P a b.
  Proof. induction 1; cbn; intros b; [tauto|]. intros [<-|I]; eauto. destruct (IHForall2 _ I) as (a & ? & ?). eauto. Qed.

  (* columns *)
  Lemma cat_tensors_ok (f : trans X -> option (aval X)) batch : forall vs,
    Forall2 (fun t v => f t = Some v) batch vs ->
    (forall t, In t batch -> exists v, f t = Some v /\ is_tensor v) ->
    exists q, cat_tensors vs = Ok q /\ length q = length batch /\
      forall i t, nth_error batch i = Some t -> exists v, f t = Some v /\ row_of v <> None /\ nth_error q i = row_of v.
  Proof.
    intros vs F. induction F as [|t v b vs E F IH]; intros H; cbn.
    - exists []. repeat split; auto. intros [|i] t; discriminate.
    - destruct (H t (or_introl eq_refl)) as (v' & E' & x & ->). assert (v = AV (VT [x])) by congruence. subst.
      destruct IH as (q & -> & L & G); [intros; apply H; now right|]. cbn.
      exists (x :: q). cbn. repeat split; auto. intros [|i] t' N; cbn in *.
      + injection N as <-. exists (AV (VT [x])). cbn. repeat split; auto. discriminate.
      + auto.
  Qed.
  Lemma cat_scalars_ok (f : trans X -> option (aval X)) batch : forall vs,
    Forall2 (fun t v => f t = Some v) batch vs ->
    (forall t, In t batch -> exists v, f t = Some v /\ is_scalar v) ->
    exists q, cat_scalars vs = Ok q /\ length q = length batch /\
      forall i t, nth_error batch i = Some t -> exists v, f t = Some v /\ row_of v <> None /\ nth_error q i = row_of v.
  Proof.
    intros vs F. induction F as [|t v b vs E F IH]; intros H; cbn.
    - exists []. repeat split; auto. intros [|i] t; discriminate.
    - destruct (H t (or_introl eq_refl)) as (v' & E' & x & ->). assert (v = AV (VS x)) by congruence. subst.
      destruct IH as (q & -> & L & G); [intros; apply H; now right|]. cbn.
      exists (x :: q). cbn. repeat split; auto. intros [|i] t' N; cbn in *.
      + injection N as <-. exists (AV (VS x)). cbn. repeat split; auto. discriminate.
      + auto.
  Qed.

  Lemma make_tensor_ok (f : trans X -> option (aval X)) batch vs con : batch <> [] ->
    Forall2 (fun t v => f t = Some v) batch vs ->
    (con = true -> (forall t, In t batch -> exists v, f t = Some v /\ is_tensor v) \/
                   (forall t, In t batch -> exists v, f t = Some v /\ is_scalar v)) ->
    exists c, make_tensor vs con = Ok c /\ aligned con c f batch.
  Proof.
    intros NE F H. destruct con.
    - destruct F as [|t v b vs E F]; [congruence|]. destruct (H eq_refl) as [T|S].
      + destruct (T t (or_introl eq_refl)) as (v' & E' & x & ->). assert (v = AV (VT [x])) by congruence. subst.
        destruct (cat_tensors_ok f (t :: b) (AV (VT [x]) :: vs) (Forall2_cons _ _ E F) T) as (q & Eq & L & G).
        unfold make_tensor. rewrite Eq. exists (CT q). cbn. auto.
      + destruct (S t (or_introl eq_refl)) as (v' & E' & x & ->). assert (v = AV (VS x)) by congruence. subst.
        destruct (cat_scalars_ok f (t :: b) (AV (VS x) :: vs) (Forall2_cons _ _ E F) S) as (q & Eq & L & G).
        unfold make_tensor. rewrite Eq. exists (CT q). cbn. auto.
    - exists (CL vs). split; [reflexivity|]. cbn. split; auto. split; [eapply F2_len; eauto|].
      intros i t N. destruct (F2_nth _ _ _ F _ _ N) as (v & Nv & Ev). cbn in Ev. rewrite Ev, Nv. split; congruence.
  Qed.

  Lemma get_col_ok a batch : (forall t, In t batch -> attr t a <> None) ->
    exists vs, get_col a batch = Ok vs /\ Forall2 (fun t v => attr t a = Some v) batch vs.
  Proof.
    intros H. destruct (mapM_ok (fun t => tr_get t a) batch) as (q & E & F).
    - intros t It. apply H in It. unfold tr_get, attr in *. destruct (dget a (tr_data t)); eauto; congruence.
    - exists q. split; auto. eapply Forall2_impl; [|exact F]. cbn. intros t v. unfold tr_get, attr.
      destruct (dget a (tr_data t)); [|discriminate]. intros Q; injection Q as ->; auto.
  Qed.

  Section Batch.
    Variables (first : trans X) (batch : list (trans X)) (con : bool) (addi : list string).
    Hypothesis NE : batch <> [].
    Hypothesis WF : well_formed first batch addi.

    Lemma major_ok a : In a (tr_maj first) -> exists o, major_out first batch con a = Ok o /\
      exists d, o = ODict d /\ dkeys d = subkeys first a /\
        forall s c, In (s, c) d -> aligned con c (fun t => entry t a s) batch.
    Proof.
      intros Ia. destruct (wf_major WF a Ia (or_introl eq_refl)) as (d & Ed & Hd).
      unfold major_out, tr_get. unfold attr in Ed. rewrite Ed. cbn [bind].
      set (g := fun sk => bind (mapM (get_sub a sk) batch) _).
      assert (G : forall s, In s (dkeys d) -> exists c, g s = Ok (s, c) /\ aligned con c (fun t => entry t a s) batch).
      { intros s Is. unfold g.
        assert (SK : subkeys first a = dkeys d) by (unfold subkeys, attr; now rewrite Ed).
        assert (HT : forall t, In t batch -> exists v, entry t a s = Some v /\ is_tensor v).
        { intros t It. destruct (wf_major WF a Ia (or_intror It)) as (_ & _ & Q). apply Q. now rewrite SK. }
        destruct (mapM_ok (get_sub a s) batch) as (vs & E & F).
        { intros t It. destruct (HT t It) as (v & Ev & x & ->). unfold entry, attr in Ev. unfold get_sub, tr_get.
          destruct (dget a (tr_data t)) as [[d1|v1]|]; try discriminate. cbn.
          destruct (dget s d1) as [w|]; cbn in Ev; [|discriminate]. injection Ev as ->. eauto. }
        assert (F' : Forall2 (fun t v => entry t a s = Some v) batch vs).
        { eapply Forall2_impl; [|exact F]. cbn. intros t v. unfold get_sub, tr_get, entry, attr.
          destruct (dget a (tr_data t)) as [[d1|v1]|]; cbn; try discriminate.
          destruct (dget s d1) as [[| | |]|]; cbn; intros Q; try discriminate; injection Q as <-; auto. }
        rewrite E. cbn [bind].
        destruct (make_tensor_ok (fun t => entry t a s) batch vs con NE F' (fun _ => or_introl HT)) as (c & Ec & Ac).
        rewrite Ec. cbn [bind]. eauto. }
      destruct (mapM_ok g (dkeys d)) as (q & E & F).
      { intros s Is. destruct (G s Is) as (c & Ec & _). eauto. }
      rewrite E. cbn [bind]. eexists; split; [reflexivity|]. exists q. split; auto. split.
      - unfold subkeys, attr. rewrite Ed. clear - F G. induction F as [|s p r q Es F IH]; cbn; auto.
        destruct (G s (or_introl eq_refl)) as (c & Ec & _). rewrite Ec in Es. injection Es as <-. cbn. f_equal.
        apply IH. intros; apply G; now right.
      - intros s c I. destruct (F2_in _ _ _ F _ I) as (s' & Is' & Es'). cbn in Es'.
        destruct (G s' Is') as (c' & Ec' & A). rewrite Ec' in Es'. injection Es' as -> ->. exact A.
    Qed.

    Lemma sub_ok a : In a (tr_sub first) -> exists vs c, get_col a batch = Ok vs /\
      make_tensor vs con = Ok c /\ aligned con c (fun t => attr t a) batch.
    Proof.
      intros Ia. pose proof (wf_sub WF a Ia) as S.
      destruct (get_col_ok a batch) as (vs & E & F).
      { intros t It. destruct S as [S|S]; destruct (S t It) as (v & Ev & _); congruence. }
      destruct (make_tensor_ok (fun t => attr t a) batch vs con NE F (fun _ => S)) as (c & Ec & Ac). eauto.
    Qed.

    Lemma custom_ok a : In a (tr_cus first) -> exists vs c, get_col a batch = Ok vs /\
      make_tensor vs (con && mem a addi) = Ok c /\ aligned (con && mem a addi) c (fun t => attr t a) batch.
    Proof.
      intros Ia. destruct (wf_custom WF a Ia) as [C1 C2].
      destruct (get_col_ok a batch C1) as (vs & E & F).
      destruct (make_tensor_ok (fun t => attr t a) batch vs (con && mem a addi) NE F) as (c & Ec & Ac).
      { intros Q. apply andb_prop in Q as [_ Q]. apply mem_In in Q. auto. }
      eauto.
    Qed.

    Lemma star_ok : forall cus used, incl cus (tr_cus first) ->
      exists d used', star_out batch con addi cus used = Ok (d, used') /\ NoDup (dkeys d) /\
        (forall k, In k (dkeys d) <-> In k cus /\ ~ In k used) /\
        (forall k c, In (k, c) d -> aligned (con && mem k addi) c (fun t => attr t k) batch) /\
        (forall k, In k used' <-> In k used \/ In k cus).
    Proof.
      induction cus as [|a r IH]; intros used HI; cbn [star_out].
      - exists [], used. cbn. repeat split; try tauto. constructor.
      - destruct (mem a used) eqn:M.
        + apply mem_In in M. destruct (IH used) as (d & u' & E & N & K & A & U); [intros k Hk; apply HI; now right|].
          exists d, u'. split; auto. split; auto. split; [|split; auto].
          * intros k. rewrite K. cbn. split; [intuition|]. intros [[->|H] H2]; tauto.
          * intros k. rewrite U. cbn. split; [intuition|]. intros [H|[->|H]]; tauto.
        + apply mem_nIn in M.
          destruct (custom_ok a (HI a (or_introl eq_refl))) as (vs & c & Ev & Ec & Ac).
          rewrite Ev. cbn [bind]. rewrite Ec. cbn [bind].
          destruct (IH (used ++ [a])) as (d & u' & E & N & K & A & U); [intros k Hk; apply HI; now right|].
          rewrite E. cbn [bind fst snd]. exists ((a, c) :: d), u'. split; auto. cbn [dkeys map fst].
          fold (dkeys d). split; [|split; [|split]].
          * constructor; auto. rewrite K, in_app_iff. cbn. tauto.
          * intros k. cbn. rewrite K, in_app_iff. cbn. destruct (String.string_dec a k) as [->|D]; intuition.
          * intros k c' [Q|Q]; [injection Q as <- <-; auto|auto].
          * intros k. rewrite U, in_app_iff. cbn. intuition.
    Qed.

    Lemma pp_ok : forall attrs used before,
      (forall k, In k (tr_cus first) -> (In k used <-> In k before \/
         (In "*"%string before /\ ~ In "*"%string (tr_keys first)))) ->
      exists os, pp_loop first batch con addi attrs used = Ok os /\
                 good_outs first batch con addi before attrs os.
    Proof.
      induction attrs as [|a r IH]; intros used before HU; cbn [pp_loop].
      - exists []. split; auto. constructor.
      - assert (STEP : forall k, In k (tr_cus first) -> mem a (tr_keys first) = true ->
            (In k (used ++ [a]) <-> In k (before ++ [a]) \/
              (In "*"%string (before ++ [a]) /\ ~ In "*"%string (tr_keys first)))).
        { intros k Hk Ma. apply mem_In in Ma. rewrite !in_app_iff, (HU k Hk). cbn.
          destruct (String.string_dec a "*"%string) as [->|D]; intuition. }
        assert (KN : forall q, mem a q = true -> incl q (tr_keys first) -> known first a = true /\ mem a (tr_keys first) = true).
        { intros q M I. apply mem_In in M. pose proof (I _ M) as Q. split.
          - apply mem_In. unfold tr_keys in Q. rewrite !in_app_iff in *. tauto.
          - now apply mem_In. }
        destruct (mem a (tr_maj first)) eqn:Mj.
        { destruct (KN _ Mj) as [K1 K2]; [intros z; unfold tr_keys; rewrite in_app_iff; tauto|].
          destruct (major_ok a) as (o & Eo & Go); [now apply mem_In|]. rewrite Eo. cbn [bind].
          destruct (IH (used ++ [a]) (before ++ [a])) as (os & Eos & Gos); [auto|]. rewrite Eos. cbn [bind].
          exists (o :: os). split; auto. apply go_take; auto. unfold good_out. unfold mem in Mj. rewrite Mj. auto. }
        destruct (mem a (tr_sub first)) eqn:Ms.
        { destruct (KN _ Ms) as [K1 K2]; [intros z; unfold tr_keys; rewrite !in_app_iff; tauto|].
          destruct (sub_ok a) as (vs & c & Ev & Ec & Ac); [now apply mem_In|]. rewrite Ev. cbn [bind]. rewrite Ec. cbn [bind].
          destruct (IH (used ++ [a]) (before ++ [a])) as (os & Eos & Gos); [auto|]. rewrite Eos. cbn [bind].
          exists (OCol c :: os). split; auto. apply go_take; auto. unfold good_out. unfold mem in Mj, Ms. rewrite Mj, Ms. eauto. }
        destruct (mem a (tr_cus first)) eqn:Mc.
        { destruct (KN _ Mc) as [K1 K2]; [intros z; unfold tr_keys; rewrite !in_app_iff; tauto|].
          destruct (custom_ok a) as (vs & c & Ev & Ec & Ac); [now apply mem_In|]. rewrite Ev. cbn [bind]. rewrite Ec. cbn [bind].
          destruct (IH (used ++ [a]) (before ++ [a])) as (os & Eos & Gos); [auto|]. rewrite Eos. cbn [bind].
          exists (OCol c :: os). split; auto. apply go_take; auto. unfold good_out. unfold mem in Mj, Ms, Mc. rewrite Mj, Ms, Mc. eauto. }
        assert (NK : ~ In a (tr_keys first)).
        { unfold tr_keys. rewrite !in_app_iff, <- !mem_In. rewrite Mj, Ms, Mc. intuition congruence. }
        destruct (String.eqb_spec a "*"%string) as [->|NS].
        + destruct (star_ok (tr_cus first) used (incl_refl _)) as (d & u' & E & N & K & A & U). rewrite E. cbn [bind fst snd].
          destruct (IH u' (before ++ ["*"%string])) as (os & Eos & Gos).
          { intros k Hk. rewrite U, !in_app_iff. cbn. intuition. }
          rewrite Eos. cbn [bind]. exists (ODict d :: os). split; auto. apply go_take; auto.
          * apply mem_In. rewrite !in_app_iff. cbn. tauto.
          * unfold good_out. unfold mem in Mj, Ms, Mc. rewrite Mj, Ms, Mc.
            exists d. split; auto. split; auto. split; auto. intros k. rewrite K. split.
            -- intros [Hk Hn]. rewrite (HU k Hk) in Hn. tauto.
            -- intros (Hk & H1 & H2). split; auto. rewrite (HU k Hk). tauto.
        + destruct (IH used (before ++ [a])) as (os & Eos & Gos).
          { intros k Hk. rewrite (HU k Hk), !in_app_iff. cbn.
            assert (a <> k). { intros ->. apply NK. unfold tr_keys. rewrite !in_app_iff. tauto. } intuition. }
          exists os. split; auto. apply go_skip; auto.
          destruct (known first a) eqn:Q; auto. apply mem_In in Q. rewrite !in_app_iff in Q. cbn in Q.
          exfalso. apply NK. unfold tr_keys. rewrite !in_app_iff. intuition congruence.
    Qed.
  End Batch.

  Theorem post_process_ok first batch con attrs addi : well_formed first (first :: batch) addi ->
    exists os, post_process (first :: batch) con (Some attrs) (Some addi) = Ok (Some os) /\
               good_outs first (first :: batch) con addi [] attrs os.
  Proof.
    intros WF. unfold post_process.
    destruct (pp_ok first (first :: batch) con addi ltac:(discriminate) WF attrs [] []) as (os & E & G).
    - cbn. tauto.
    - rewrite E. cbn [bind]. eauto.
  Qed.

  (* ---- validity of transitions ---- *)
  Lemma chk_dict_one d : chk_dict (X := X) d (Some 1) = Ok (Some 1) <-> forall s v, In (s, v) d -> exists x, v = VT [x].
  Proof.
    induction d as [|[s v] r IH]; cbn; [split; auto; tauto|].
    destruct v as [rows| | |]; try (split; [discriminate|intros H; destruct (H _ _ (or_introl eq_refl)); discriminate]).
    destruct rows as [|x [|y rows]]; try (cbn; split; [discriminate|intros H; destruct (H _ _ (or_introl eq_refl)); discriminate]).
    cbn. rewrite IH. split.
    - intros H s' v' [Q|Q]; [injection Q as <- <-; eauto|eauto].
    - intros H s' v' Q. apply (H s' v'). now right.
  Qed.
  Lemma chk_dict_some d b r : chk_dict (X := X) d (Some b) = Ok r -> r = Some b.
  Proof.
    induction d as [|[s v] q IH]; cbn; [congruence|]. destruct v; try discriminate.
    destruct (b =? length rows); [auto|discriminate].
  Qed.
  Lemma chk_dict_none d : chk_dict (X := X) d None = Ok (Some 1) <->
    d <> [] /\ forall s v, In (s, v) d -> exists x, v = VT [x].
  Proof.
    destruct d as [|[s v] r]; cbn; [split; [discriminate|intros []; congruence]|].
    destruct v as [rows| | |]; try (split; [discriminate|intros [_ H]; destruct (H _ _ (or_introl eq_refl)); discriminate]).
    split.
    - intros E. pose proof (chk_dict_some _ _ _ E) as L. injection L as L. rewrite <- L in E.
      pose proof (proj1 (chk_dict_one _) E) as E2. split; [discriminate|].
      destruct rows as [|x [|y rows]]; try discriminate. intros s' v' [Q|Q]; [injection Q as <- <-; eauto|eauto].
    - intros [_ H]. destruct (H _ _ (or_introl eq_refl)) as (x & Q). injection Q as ->. cbn.
      apply chk_dict_one. intros s' v' Q. apply (H s' v'). now right.
  Qed.

  Definition maj_ok t a := exists d, attr t a = Some (AD d) /\ forall s v, In (s, v) d -> exists x, v = VT [x].

  Lemma chk_major_one t ks : chk_major t ks (Some 1) = Ok (Some 1) <-> forall a, In a ks -> maj_ok t a.
  Proof.
    induction ks as [|a r IH]; cbn [chk_major]; [split; auto; intros _ a []|].
    unfold tr_get. unfold maj_ok, attr in *. destruct (dget a (tr_data t)) as [[d|v]|] eqn:E; cbn [bind].
    - destruct (chk_dict d (Some 1)) as [r'|e] eqn:C; cbn [bind].
      + pose proof (chk_dict_some _ _ _ C) as ->. rewrite IH. pose proof (proj1 (chk_dict_one _) C) as C2. split.
        * intros H a' [<-|I]; eauto.
        * intros H a' I. apply H. now right.
      + split; [discriminate|]. intros H. destruct (H a (or_introl eq_refl)) as (d' & E' & Q).
        rewrite E in E'. injection E' as <-. pose proof (proj2 (chk_dict_one _) Q). congruence.
    - split; [discriminate|]. intros H. destruct (H a (or_introl eq_refl)) as (d' & E' & Q). congruence.
    - split; [discriminate|]. intros H. destruct (H a (or_introl eq_refl)) as (d' & E' & Q). congruence.
  Qed.
  Lemma chk_major_some t ks b r : chk_major t ks (Some b) = Ok r -> r = Some b.
  Proof.
    revert b r; induction ks as [|a q IH]; intros b r; cbn [chk_major]; [congruence|].
    unfold tr_get. destruct (dget a (tr_data t)) as [[d|v]|]; cbn [bind]; try discriminate.
    destruct (chk_dict d (Some b)) as [r'|e] eqn:C; cbn [bind]; [|discriminate].
    pose proof (chk_dict_some _ _ _ C) as ->. apply IH.
  Qed.
  Lemma chk_major_none t ks : chk_major t ks None = Ok (Some 1) <->
    (forall a, In a ks -> maj_ok t a) /\ (exists a s v d, In a ks /\ attr t a = Some (AD d) /\ In (s, v) d).
  Proof.
    induction ks as [|a r IH]; cbn [chk_major].
    { split; [discriminate|]. intros [_ (a & s & v & d & [] & _)]. }
    unfold tr_get. destruct (dget a (tr_data t)) as [[d|v]|] eqn:E; cbn [bind].
    - destruct d as [|[s v] d].
      + cbn [chk_dict bind]. rewrite IH. split.
        * intros (H & a' & s' & v' & d' & I & Q). split; [|exists a', s', v', d'; split; [now right|auto]].
          intros a1 [<-|I1]; auto. exists []. split; auto. cbn; tauto.
        * intros (H & a' & s' & v' & d' & [<-|I] & Q1 & Q2).
          -- unfold attr in Q1. rewrite E in Q1. injection Q1 as <-. destruct Q2.
          -- split; [intros; apply H; now right|]. exists a', s', v', d'; auto.
      + split.
        * intros H. destruct (chk_dict ((s, v) :: d) None) as [r'|e] eqn:C; cbn [bind] in H; [|discriminate].
          destruct r' as [b|]; [|cbn in C; destruct v; try discriminate; apply chk_dict_some in C; discriminate].
          pose proof (chk_major_some _ _ _ _ H) as Q. injection Q as Q. subst b.
          pose proof (proj1 (chk_major_one _ _) H) as H2. destruct (proj1 (chk_dict_none _) C) as [_ C2].
          split; [|exists a, s, v, ((s, v) :: d); cbn; unfold attr; auto].
          intros a1 [<-|I1]; auto. exists ((s, v) :: d). auto.
        * intros [H _]. destruct (H a (or_introl eq_refl)) as (d' & E' & Q). unfold attr in E'. rewrite E in E'. injection E' as <-.
          assert (C : chk_dict ((s, v) :: d) None = Ok (Some 1)) by (apply chk_dict_none; split; [discriminate|auto]).
          rewrite C. cbn [bind]. apply chk_major_one. intros; apply H; now right.
    - split; [discriminate|]. intros [H _]. destruct (H a (or_introl eq_refl)) as (d' & E' & Q). unfold attr in E'. congruence.
    - split; [discriminate|]. intros [H _]. destruct (H a (or_introl eq_refl)) as (d' & E' & Q). unfold attr in E'. congruence.
  Qed.
  Lemma chk_sub_one t ks : chk_sub t ks (Some 1) = Ok tt <->
    forall a, In a ks -> exists v, attr t a = Some v /\ row_of v <> None.
  Proof.
    induction ks as [|a r IH]; cbn [chk_sub]; [split; auto; intros _ a []|].
    unfold tr_get. unfold attr in *.
    assert (STEP : (exists v, dget a (tr_data t) = Some v /\ row_of v <> None) ->
       ((forall a0, In a0 r -> exists v, dget a0 (tr_data t) = Some v /\ row_of v <> None) <->
        (forall a0, In a0 (a :: r) -> exists v, dget a0 (tr_data t) = Some v /\ row_of v <> None))).
    { intros H. split; [intros Q a0 [<-|I]; auto|intros Q a0 I; apply Q; now right]. }
    assert (BAD : forall (P : Prop), ~ P -> ~ (exists v, dget a (tr_data t) = Some v /\ row_of v <> None) ->
       (P <-> (forall a0, In a0 (a :: r) -> exists v, dget a0 (tr_data t) = Some v /\ row_of v <> None))).
    { intros P NP H. split; [tauto|]. intros Q. exfalso. apply H, Q. now left. }
    destruct (dget a (tr_data t)) as [[d|[rows|x|x|x]]|] eqn:E; cbn [bind].
    - apply BAD; [discriminate|]. intros (v & Q & R). injection Q as <-. cbn in R. tauto.
    - destruct rows as [|x [|y rows]].
      + cbn. apply BAD; [discriminate|]. intros (v & Q & R). injection Q as <-. cbn in R. tauto.
      + cbn. rewrite IH. apply STEP. exists (AV (VT [x])). split; auto. discriminate.
      + cbn. apply BAD; [discriminate|]. intros (v & Q & R). injection Q as <-. cbn in R. tauto.
    - apply BAD; [discriminate|]. intros (v & Q & R). injection Q as <-. cbn in R. tauto.
    - rewrite IH. apply STEP. exists (AV (VS x)). split; auto. discriminate.
    - apply BAD; [discriminate|]. intros (v & Q & R). injection Q as <-. cbn in R. tauto.
    - apply BAD; [discriminate|]. intros (v & Q & R). discriminate.
  Qed.

  Theorem chk_valid t : chk t = Ok tt <-> valid_tr t.
  Proof.
    unfold chk, chk_base, valid_tr. split.
    - destruct (chk_major t (tr_maj t) None) as [bs|e] eqn:M; [|discriminate]. cbn [bind].
      destruct (chk_sub t (tr_sub t) bs) as [u|e] eqn:S; [|discriminate]. cbn [bind].
      destruct bs as [[|[|b]]|]; try discriminate. intros _. destruct u.
      pose proof (proj1 (chk_sub_one _ _) S) as S2. destruct (proj1 (chk_major_none _ _) M) as [M1 M2].
      split; [exact M1|]. split; auto.
    - intros (M1 & M2 & S). pose proof (proj2 (chk_major_none _ _) (conj M1 M2)) as M.
      pose proof (proj2 (chk_sub_one _ _) S) as S'. rewrite M. cbn [bind]. rewrite S'. reflexivity.
  Qed.
End P.
