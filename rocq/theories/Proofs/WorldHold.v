(* In orderly executions at most one group object claims a key. *)
From Verif Require Import Lib.Base Model.World Spec.WorldSpec Proofs.WorldProofs.
Set Implicit Arguments.

Section Hold.
  Variable V : Type.
  Notation lst := (lst V).

  Definition pend (s : lst) (c : call V) : Prop := exists i, nth_error (w_calls s) i = Some c.
  Definition local (s : lst) t o k : Prop :=
    exists ob, nth_error (w_objs s) o = Some ob /\ dmem k (oget t ob) = true.
  Definition claim (s : lst) t o k : Prop :=
    (local s t o k /\ ~ pend s (CUnpair2 _ t o k true)) \/ exists v, pend s (CPair2 t o k v true).
  Definition grp (s : lst) o g : Prop := exists ob, nth_error (w_objs s) o = Some ob /\ o_grp ob = g.

  Definition tied (s : lst) (c : call V) : Prop :=
    match c with
    | CPair1 t o k _ | CPair2 t o k _ _ => o < length (w_objs s) /\ ~ local s t o k
    | CUnpair1 _ t o k | CUnpair2 _ t o k _ => local s t o k
    | _ => True
    end.

  Record J (s : lst) : Prop := {
    j_wi : WI s;
    j_nd : forall o ob t, nth_error (w_objs s) o = Some ob -> NoDup (dkeys (oget t ob));
    j_ex : forall i i' c c' o, nth_error (w_calls s) i = Some c -> nth_error (w_calls s) i' = Some c' ->
           mutating c = Some o -> mutating c' = Some o -> i = i';
    j_tied : forall i c, nth_error (w_calls s) i = Some c -> tied s c;
    j_own : forall t o k ob, claim s t o k -> nth_error (w_objs s) o = Some ob ->
            get_entry t (okey ob k) (w_luts s) = Some (o_proc ob);
    j_one : forall t o1 o2 k g, claim s t o1 k -> claim s t o2 k -> grp s o1 g -> grp s o2 g -> o1 = o2 }.

  Lemma claim_lt s t o k : J s -> claim s t o k -> o < length (w_objs s).
  Proof.
    intros I [[(ob & H & _) _]|(v & i & H)].
    - apply nth_error_Some. congruence.
    - apply (j_tied I) in H. apply H.
  Qed.

  (* objects keep their process and group *)
  Definition same_ids (s s' : lst) : Prop :=
    forall o ob', nth_error (w_objs s') o = Some ob' -> o < length (w_objs s) ->
      exists ob, nth_error (w_objs s) o = Some ob /\ o_proc ob = o_proc ob' /\ o_grp ob = o_grp ob'.

  (* steps that create no claim and keep the table *)
  Lemma J_quiet s s' : J s -> WI s' -> (forall o ob t, nth_error (w_objs s') o = Some ob -> NoDup (dkeys (oget t ob))) ->
    same_ids s s' ->
    (forall t gk p, get_entry t gk (w_luts s) = Some p -> get_entry t gk (w_luts s') = Some p) ->
    (forall i i' c c' o, nth_error (w_calls s') i = Some c -> nth_error (w_calls s') i' = Some c' ->
           mutating c = Some o -> mutating c' = Some o -> i = i') ->
    (forall i c, nth_error (w_calls s') i = Some c -> tied s' c) ->
    (forall t o k, claim s' t o k -> claim s t o k) -> J s'.
  Proof.
    intros I W Nd S T X Ti C. constructor; auto.
    - intros t o k ob' H Ho. apply C in H. destruct (S _ _ Ho) as (ob & Hb & E1 & E2); [eapply claim_lt; eauto|].
      pose proof (j_own I H Hb) as G. unfold okey in *. rewrite <- E1, <- E2. now apply T.
    - intros t o1 o2 k g H1 H2 G1 G2. apply C in H1, H2.
      assert (Gr : forall o, claim s t o k -> grp s' o g -> grp s o g).
      { intros o H (ob' & Ho & <-). destruct (S _ _ Ho) as (ob & Hb & _ & E2); [eapply claim_lt; eauto|]. exists ob. auto. }
      apply (@j_one _ I t o1 o2 k g); auto.
  Qed.

  Lemma same_ids_refl s : same_ids s s.
  Proof. intros o ob H _. exists ob. auto. Qed.
  Lemma same_ids_obj s s' o ob' ob : w_objs s' = upd o ob' (w_objs s) -> nth_error (w_objs s) o = Some ob ->
    o_proc ob' = o_proc ob -> o_grp ob' = o_grp ob -> same_ids s s'.
  Proof.
    intros E Ho E1 E2 x obx Hx L. rewrite E in Hx. destruct (Nat.eq_dec x o) as [->|N].
    - rewrite upd_same in Hx by auto. injection Hx as <-. exists ob. auto.
    - rewrite upd_other in Hx by auto. exists obx. auto.
  Qed.

  (* replacing call i *)
  Lemma calls_upd (s : lst) i c0 c' j c : nth_error (w_calls s) i = Some c0 ->
    nth_error (upd i c' (w_calls s)) j = Some c -> (j = i /\ c = c') \/ (j <> i /\ nth_error (w_calls s) j = Some c).
  Proof.
    intros H Hj. destruct (Nat.eq_dec j i) as [->|N].
    - rewrite upd_same in Hj by (apply nth_error_Some; congruence). injection Hj as <-. auto.
    - rewrite upd_other in Hj by auto. auto.
  Qed.
  Lemma ex_upd s i c0 c' : J s -> nth_error (w_calls s) i = Some c0 ->
    (mutating c' = None \/ mutating c' = mutating c0) ->
    forall j j' c1 c2 o, nth_error (upd i c' (w_calls s)) j = Some c1 -> nth_error (upd i c' (w_calls s)) j' = Some c2 ->
       mutating c1 = Some o -> mutating c2 = Some o -> j = j'.
  Proof.
    intros I H M j j' c1 c2 o H1 H2 M1 M2.
    apply (@calls_upd s i c0 c') in H1; auto. apply (@calls_upd s i c0 c') in H2; auto.
    destruct H1 as [[-> ->]|[N1 H1]], H2 as [[-> ->]|[N2 H2]]; auto.
    - destruct M as [M|M]; [congruence|]. exfalso. apply N2. symmetry. eapply (j_ex I); eauto. congruence.
    - destruct M as [M|M]; [congruence|]. exfalso. apply N1. eapply (j_ex I); eauto. congruence.
    - eapply (j_ex I); eauto.
  Qed.

  Lemma oget_oput_same t d (o : obj V) : oget t (oput t d o) = d. Proof. now destruct t. Qed.
  Lemma oget_oput_other t t' d (o : obj V) : t <> t' -> oget t' (oput t d o) = oget t' o.
  Proof. destruct t, t'; congruence || reflexivity. Qed.
  Lemma dmem_dset_same (d : dict nat V) k v : dmem k (dset k v d) = true.
  Proof. unfold dmem. now rewrite dget_dset_same. Qed.
  Lemma dmem_dset_other (d : dict nat V) k k' v : k <> k' -> dmem k' (dset k v d) = dmem k' d.
  Proof. intro. unfold dmem. now rewrite dget_dset_other. Qed.
  Lemma dmem_ddel_other (d : dict nat V) k k' : k <> k' -> dmem k' (ddel k d) = dmem k' d.
  Proof. intro. unfold dmem. now rewrite dget_ddel_other. Qed.

  (* a step that only replaces call i0, leaving objects and tables alone *)
  Lemma J_setcall s i0 c0 c' : J s -> nth_error (w_calls s) i0 = Some c0 ->
    (mutating c' = None \/ mutating c' = mutating c0) -> tied s c' ->
    (forall t o k, c0 <> CUnpair2 _ t o k true) -> (forall t o k v, c' <> CPair2 t o k v true) ->
    J (set_call i0 c' s).
  Proof.
    intros I H0 M T Nu Np. apply (@J_quiet s); auto.
    - exact (j_wi I).
    - exact (j_nd I).
    - exact (@same_ids_refl s).
    - cbn. apply (@ex_upd s i0 c0); auto.
    - cbn. intros j c Hj. apply (@calls_upd s i0 c0 c' j c H0) in Hj as [[-> ->]|[_ Hj]]; [exact T|].
      apply (j_tied I) in Hj. exact Hj.
    - intros t o k [[L P]|(v & j & P)].
      + left. split; [exact L|]. intros (j & Hj). apply P. exists j. cbn. rewrite upd_other; auto.
        intros ->. rewrite H0 in Hj. injection Hj as Hj. now apply (Nu t o k).
      + right. exists v, j. cbn in P. apply (@calls_upd s i0 c0 c' j _ H0) in P as [[_ P]|[_ P]]; auto.
        exfalso. now apply (Np t o k v).
  Qed.

  (* the log does not matter *)
  Lemma J_log s q : J s -> WI (set_luts (w_luts s) q s) -> J (set_luts (w_luts s) q s).
  Proof. intros [W N E T O X] W'. constructor; auto. Qed.

  Lemma local_upd s o ob ob' t k o' : nth_error (w_objs s) o = Some ob ->
    (exists b, nth_error (upd o ob' (w_objs s)) o' = Some b /\ dmem k (oget t b) = true) <->
    (o' = o /\ dmem k (oget t ob') = true) \/ (o' <> o /\ local s t o' k).
  Proof.
    intros Ho. assert (L : o < length (w_objs s)) by (apply nth_error_Some; congruence). split.
    - intros (b & Hb & D). destruct (Nat.eq_dec o' o) as [->|N].
      + rewrite upd_same in Hb by auto. injection Hb as <-. auto.
      + rewrite upd_other in Hb by auto. right. split; auto. exists b. auto.
    - intros [[-> D]|[N (b & Hb & D)]].
      + exists ob'. rewrite upd_same by auto. auto.
      + exists b. rewrite upd_other by auto. auto.
  Qed.


  (* calls on other objects stay tied when object o changes *)
  Lemma tied_other s s' i0 c0 o : J s -> nth_error (w_calls s) i0 = Some c0 -> mutating c0 = Some o ->
    length (w_objs s') = length (w_objs s) ->
    (forall t k o', o' <> o -> (local s' t o' k <-> local s t o' k)) ->
    forall j c, j <> i0 -> nth_error (w_calls s) j = Some c -> tied s' c.
  Proof.
    intros I H0 M L Lo j c N Hj. pose proof (j_tied I _ Hj) as T.
    assert (X : mutating c <> Some o). { intro Mc. apply N. eapply (j_ex I); eauto. }
    destruct c; cbn in *; auto; try (rewrite Lo by congruence; exact T);
      (split; [rewrite L; apply T|rewrite Lo by congruence; apply T]).
  Qed.

  Lemma J_step s l : J s -> orderly_label s l -> J (wstep s l).
  Proof.
    intros I Or. pose proof (@wi_step V s l (j_wi I)) as W.
    destruct l as [p g|o|o|c|i]; cbn [wstep orderly_label] in *.
    - (* WNew *)
      apply (@J_quiet s); auto.
      + cbn. intros o ob t Ho. destruct (Nat.lt_ge_cases o (length (w_objs s))) as [L|L].
        * rewrite nth_error_app1 in Ho by auto. eapply (j_nd I); eauto.
        * rewrite nth_error_app2 in Ho by auto. destruct (o - length (w_objs s)) as [|d]; [|destruct d; discriminate].
          cbn in Ho. injection Ho as <-. destruct t; constructor.
      + intros o ob' Ho L. cbn in Ho. rewrite nth_error_app1 in Ho by auto. exists ob'. auto.
      + exact (j_ex I).
      + cbn. intros j c Hj. pose proof (j_tied I _ Hj) as T.
        assert (Lo : forall t o k, local s t o k -> local
          {| w_luts := w_luts s; w_groups := w_groups s;
             w_objs := w_objs s ++ [{| o_proc := p; o_grp := g; o_val := []; o_svc := []; o_dead := false |}];
             w_calls := w_calls s; w_log := w_log s |} t o k).
        { intros t o k (ob & H & D). exists ob. split; auto. cbn. rewrite nth_error_app1; auto. apply nth_error_Some. congruence. }
        assert (Lo' : forall t o k, o < length (w_objs s) -> local
          {| w_luts := w_luts s; w_groups := w_groups s;
             w_objs := w_objs s ++ [{| o_proc := p; o_grp := g; o_val := []; o_svc := []; o_dead := false |}];
             w_calls := w_calls s; w_log := w_log s |} t o k -> local s t o k).
        { intros t o k L (ob & H & D). exists ob. split; auto. cbn in H. rewrite nth_error_app1 in H; auto. }
        destruct c; cbn [tied] in *; auto; cbn [w_objs]; rewrite app_length; cbn [length]; destruct T as [T1 T2];
          (split; [lia|]); intro; apply T2; auto.
      + intros t o k [[(ob & H & D) P]|P]; [|right; exact P]. left. split; auto. cbn in H.
        destruct (Nat.lt_ge_cases o (length (w_objs s))) as [L|L].
        * rewrite nth_error_app1 in H by auto. exists ob. auto.
        * exfalso. rewrite nth_error_app2 in H by auto. destruct (o - length (w_objs s)) as [|d]; [|destruct d; discriminate].
          cbn in H. injection H as <-. destruct t; discriminate.
    - destruct (nth_error (w_objs s) o) as [ob|]; auto. destruct (dmem (o_proc ob, o_grp ob) (w_groups s)); auto.
      destruct I; constructor; auto.
    - (* WDestroy *)
      destruct (nth_error (w_objs s) o) as [ob|] eqn:Ho; auto. destruct (o_dead ob); auto.
      set (ob' := {| o_proc := o_proc ob; o_grp := o_grp ob; o_val := o_val ob; o_svc := o_svc ob; o_dead := true |}) in *.
      assert (Og : forall t, oget t ob' = oget t ob) by (now intros []).
      set (s' := {| w_luts := w_luts s; w_groups := ddel (o_proc ob, o_grp ob) (w_groups s);
                    w_objs := upd o ob' (w_objs s); w_calls := w_calls s; w_log := w_log s |}) in *.
      assert (Lo : forall t o' k, local s' t o' k <-> local s t o' k).
      { intros t o' k. unfold local at 1. unfold s'. cbn [w_objs]. rewrite (@local_upd s o ob ob' t k o' Ho), Og. split.
        - intros [[-> D]|[_ D]]; auto. exists ob. auto.
        - intros (b & Hb & D). destruct (Nat.eq_dec o' o) as [->|N]; [left|right; split; auto; exists b; auto].
          split; auto. congruence. }
      apply (@J_quiet s); auto.
      + intros x b t Hx. unfold s' in Hx. cbn in Hx. destruct (Nat.eq_dec x o) as [->|N].
        * rewrite upd_same in Hx by (apply nth_error_Some; congruence). injection Hx as <-. rewrite Og. eapply (j_nd I); eauto.
        * rewrite upd_other in Hx by auto. eapply (j_nd I); eauto.
      + apply (@same_ids_obj s s' o ob' ob); auto.
      + exact (j_ex I).
      + intros j c Hj. pose proof (j_tied I _ Hj) as T. destruct c; cbn [tied] in *; auto; try (rewrite Lo; exact T);
          rewrite Lo; unfold s'; cbn [w_objs]; rewrite upd_length; exact T.
      + intros t o' k [[L P]|P]; [left; split; [now apply Lo|exact P]|right; exact P].
    - (* WCall *)
      destruct (starts c) eqn:St; auto. apply (@J_quiet s); auto.
      + exact (j_nd I).
      + exact (@same_ids_refl s).
      + cbn. intros j j' c1 c2 o H1 H2 M1 M2.
        assert (B : forall j c1, nth_error (w_calls s ++ [c]) j = Some c1 -> mutating c1 = Some o ->
                    (j < length (w_calls s) /\ nth_error (w_calls s) j = Some c1) \/ (j = length (w_calls s) /\ c1 = c)).
        { clear - V. intros j c1 H1 M1. destruct (Nat.lt_ge_cases j (length (w_calls s))) as [L|L].
          - rewrite nth_error_app1 in H1 by auto. auto.
          - rewrite nth_error_app2 in H1 by auto. destruct (j - length (w_calls s)) as [|d] eqn:E; [|destruct d; discriminate].
            cbn in H1. injection H1 as <-. right. split; auto. lia. }
        destruct (B _ _ H1 M1) as [[L1 N1]|[-> ->]], (B _ _ H2 M2) as [[L2 N2]|[-> ->]]; auto.
        * eapply (j_ex I); eauto.
        * rewrite M2 in Or. exfalso. apply (Or _ _ N1 M1).
        * rewrite M1 in Or. exfalso. apply (Or _ _ N2 M2).
      + cbn. intros j c1 H1. destruct (Nat.lt_ge_cases j (length (w_calls s))) as [L|L].
        * rewrite nth_error_app1 in H1 by auto. apply (j_tied I _ H1).
        * rewrite nth_error_app2 in H1 by auto. destruct (j - length (w_calls s)) as [|d] eqn:E; [|destruct d; discriminate].
          cbn in H1. injection H1 as <-. destruct c; discriminate || exact Logic.I.
      + intros t o k [[L P]|(v & j & P)].
        * left. split; auto. intros (j & Hj). apply P. exists j. cbn. rewrite nth_error_app1; auto. apply nth_error_Some. congruence.
        * right. exists v, j. cbn in P. destruct (Nat.lt_ge_cases j (length (w_calls s))) as [L|L].
          -- now rewrite nth_error_app1 in P.
          -- rewrite nth_error_app2 in P by auto. destruct (j - length (w_calls s)) as [|d] eqn:E; [|destruct d; discriminate].
             cbn in P. injection P as ->. discriminate.
    - (* WStep *)
      destruct (nth_error (w_calls s) i) as [c|] eqn:Hc; auto. pose proof (j_tied I _ Hc) as Tc.
      destruct c as [t o k v|t o k v|t o k v ok|t o k|t o k|t o k ok|t o k|t o k|t g k h|t g k h|t o k|a]; cbn [advance] in *;
        try (destruct (nth_error (w_objs s) o) as [ob|] eqn:Ho; [|exact I]).
      + destruct (dmem k (oget t ob)) eqn:D; eapply J_setcall; eauto; cbn; auto; try discriminate.
        split; [apply nth_error_Some; congruence|]. intros (b & Hb & Db). congruence.
      + (* pair, manager *)
        unfold set_entry in *. destruct (dmem (okey ob k) (tget t (w_luts s))) eqn:D.
        { apply (@J_log s (QSet t (okey ob k) (o_proc ob) false)) in I; [|exact W].
          eapply J_setcall; eauto; cbn; auto; discriminate. }
        assert (Gn : get_entry t (okey ob k) (w_luts s) = None).
        { unfold get_entry, dmem in *. now destruct (dget (okey ob k) (tget t (w_luts s))). }
        assert (Keep : forall t' gk' p, get_entry t' gk' (w_luts s) = Some p ->
                  get_entry t' gk' (tput t (dset (okey ob k) (o_proc ob) (tget t (w_luts s))) (w_luts s)) = Some p).
        { intros t' gk' p H. pose proof (@set_entry_owner t (okey ob k) (o_proc ob) _ _ _ _ H) as X.
          unfold set_entry in X. rewrite D in X. exact X. }
        set (s' := set_call _ _ _) in *.
        assert (Cl : forall t' o' k', claim s' t' o' k' -> claim s t' o' k' \/ (t' = t /\ o' = o /\ k' = k)).
        { intros t' o' k' [[L P]|(v' & j & P)].
          - left. left. split; [exact L|]. intros (j & Hj). apply P. exists j. cbn. rewrite upd_other; auto. intros <-. congruence.
          - cbn in P. apply (@calls_upd s i _ _ j _ Hc) in P as [[_ P]|[_ P]].
            + injection P as -> -> -> _. auto.
            + left. right. exists v', j. auto. }
        assert (Free : forall o' ob', claim s t o' k -> nth_error (w_objs s) o' = Some ob' -> o_grp ob' = o_grp ob -> False).
        { intros o' ob' C' Ho' Eg. pose proof (j_own I C' Ho') as X. unfold okey in *. rewrite Eg in X. congruence. }
        constructor; auto.
        * exact (j_nd I).
        * cbn. apply (@ex_upd s i _ _ I Hc). auto.
        * cbn. intros j c Hj. apply (@calls_upd s i _ _ j c Hc) in Hj as [[-> ->]|[_ Hj]]; [exact Tc|].
          exact (j_tied I _ Hj).
        * intros t' o' k' ob' C' Ho'. change (nth_error (w_objs s) o' = Some ob') in Ho'.
          apply Cl in C' as [C'|(-> & -> & ->)].
          -- unfold s'. cbn [set_call set_luts w_luts]. apply Keep. apply (j_own I C' Ho').
          -- rewrite Ho in Ho'. injection Ho' as <-. unfold s', get_entry. cbn [set_call set_luts w_luts].
             rewrite tget_tput_same. apply dget_dset_same.
        * intros t' o1 o2 k' g C1 C2 (b1 & H1 & G1) (b2 & H2 & G2).
          change (nth_error (w_objs s) o1 = Some b1) in H1. change (nth_error (w_objs s) o2 = Some b2) in H2.
          apply Cl in C1 as [C1|(-> & -> & ->)]; apply Cl in C2 as [C2|(E1 & E2 & E3)]; auto.
          -- apply (@j_one _ I t' o1 o2 k' g); auto; [exists b1|exists b2]; auto.
          -- subst. exfalso. eapply Free; eauto. congruence.
          -- exfalso. eapply Free; eauto. congruence.
      + (* pair, local *)
        destruct ok; [|eapply J_setcall; eauto; cbn; auto; discriminate].
        set (ob' := oput t (dset k v (oget t ob)) ob) in *.
        assert (Ids : o_proc ob' = o_proc ob /\ o_grp ob' = o_grp ob) by (now destruct t).
        set (s' := set_call _ _ _) in *.
        assert (Lo : forall t' o' k', local s' t' o' k' <->
                   (o' = o /\ dmem k' (oget t' ob') = true) \/ (o' <> o /\ local s t' o' k')).
        { intros. apply (@local_upd s o ob ob' t' k' o' Ho). }
        apply (@J_quiet s); auto.
        * intros x b t' Hx. cbn in Hx. destruct (Nat.eq_dec x o) as [->|N].
          -- rewrite upd_same in Hx by (apply nth_error_Some; congruence). injection Hx as <-. unfold ob'.
             destruct (tbl_dec t t') as [<-|Nt]; [rewrite oget_oput_same; apply NoDup_dset|rewrite oget_oput_other by auto]; eapply (j_nd I); eauto.
          -- rewrite upd_other in Hx by auto. eapply (j_nd I); eauto.
        * apply (@same_ids_obj s s' o ob' ob); auto; apply Ids.
        * cbn. apply (@ex_upd s i _ _ I Hc). auto.
        * cbn. intros j c Hj. apply (@calls_upd s i _ _ j c Hc) in Hj as [[-> ->]|[Nj Hj]]; [exact Logic.I|].
          apply (@tied_other s s' i _ o I Hc) with (j := j); auto.
          -- cbn. now rewrite upd_length.
          -- intros t' k' o' N. rewrite Lo. split; [intros [[? _]|[_ ?]]; [contradiction|auto]|auto].
        * intros t' o' k' [[L P]|(v' & j & P)].
          -- apply Lo in L as [[-> D]|[N L]].
             ++ destruct (tbl_dec t t') as [<-|Nt].
                ** destruct (Nat.eq_dec k k') as [<-|Nk]; [right; exists v, i; exact Hc|].
                   unfold ob' in D. rewrite oget_oput_same, dmem_dset_other in D by auto.
                   left. split; [exists ob; auto|]. intros (j & Hj). apply P. exists j. cbn. rewrite upd_other; auto. intros <-. congruence.
                ** unfold ob' in D. rewrite oget_oput_other in D by auto.
                   left. split; [exists ob; auto|]. intros (j & Hj). apply P. exists j. cbn. rewrite upd_other; auto. intros <-. congruence.
             ++ left. split; auto. intros (j & Hj). apply P. exists j. cbn. rewrite upd_other; auto. intros <-. congruence.
          -- cbn in P. apply (@calls_upd s i _ _ j _ Hc) in P as [[_ P]|[_ P]]; [discriminate|]. right. exists v', j. auto.
      + destruct (dmem k (oget t ob)) eqn:D; eapply J_setcall; eauto; cbn; auto; try discriminate. exists ob. auto.
      + (* unpair, manager *)
        unfold unset_entry in *.
        assert (Same : J (set_call i (CUnpair2 _ t o k false)
                  (set_luts (w_luts s) (QUnset OUnpair t (okey ob k) (o_proc ob) false) s)) \/
                  exists q, dget (okey ob k) (tget t (w_luts s)) = Some q /\ q = o_proc ob).
        { destruct (dget (okey ob k) (tget t (w_luts s))) as [q|] eqn:Gq.
          - destruct (Nat.eqb_spec q (o_proc ob)) as [->|]; [right; eauto|]. left.
            apply (@J_log s (QUnset OUnpair t (okey ob k) (o_proc ob) false)) in I; [|exact W].
            eapply J_setcall; eauto; cbn; auto; discriminate.
          - left. apply (@J_log s (QUnset OUnpair t (okey ob k) (o_proc ob) false)) in I; [|exact W].
            eapply J_setcall; eauto; cbn; auto; discriminate. }
        destruct (dget (okey ob k) (tget t (w_luts s))) as [q|] eqn:Gq;
          [|destruct Same as [?|(? & ? & _)]; [auto|discriminate]].
        destruct (Nat.eqb_spec q (o_proc ob)) as [->|Nq];
          [|destruct Same as [?|(? & [= <-] & ?)]; [auto|congruence]]. clear Same.
        assert (Mine : claim s t o k).
        { left. split; [exact Tc|]. intros (j & Hj). assert (j = i) by (eapply (j_ex I); eauto; reflexivity). subst. congruence. }
        set (s' := set_call _ _ _) in *.
        assert (Cl : forall t' o' k', claim s' t' o' k' -> claim s t' o' k' /\ ~ (t' = t /\ o' = o /\ k' = k)).
        { intros t' o' k' [[L P]|(v' & j & P)].
          - split.
            + left. split; [exact L|]. intros (j & Hj). apply P. exists j. cbn. rewrite upd_other; auto. intros <-. congruence.
            + intros (-> & -> & ->). apply P. exists i. cbn. apply upd_same. apply nth_error_Some. congruence.
          - cbn in P. apply (@calls_upd s i _ _ j _ Hc) in P as [[_ P]|[Nj P]]; [discriminate|]. split.
            + right. exists v', j. auto.
            + intros (-> & -> & ->). apply Nj. eapply (j_ex I); eauto; reflexivity. }
        constructor; auto.
        * exact (j_nd I).
        * cbn. apply (@ex_upd s i _ _ I Hc). auto.
        * cbn. intros j c Hj. apply (@calls_upd s i _ _ j c Hc) in Hj as [[-> ->]|[_ Hj]]; [exact Tc|].
          exact (j_tied I _ Hj).
        * intros t' o' k' ob' C' Ho'. change (nth_error (w_objs s) o' = Some ob') in Ho'.
          apply Cl in C' as [C' Nc]. pose proof (j_own I C' Ho') as G'.
          unfold s', get_entry in *. cbn [set_call set_luts w_luts].
          destruct (tbl_dec t t') as [<-|Nt]; [|now rewrite tget_tput_other].
          rewrite tget_tput_same. destruct (gk_dec (okey ob k) (okey ob' k')) as [E|N]; [|now rewrite dget_ddel_other].
          exfalso. unfold okey in E. injection E as E1 E2. subst k'. apply Nc. split; auto. split; auto.
          apply (@j_one _ I t o' o k (o_grp ob)); auto; [exists ob'|exists ob]; auto.
        * intros t' o1 o2 k' g C1 C2 G1 G2. apply Cl in C1 as [C1 _]. apply Cl in C2 as [C2 _].
          apply (@j_one _ I t' o1 o2 k' g); auto.
      + (* unpair, local *)
        destruct ok; [|eapply J_setcall; eauto; cbn; auto; discriminate].
        destruct Tc as (b & Hb & Db). rewrite Ho in Hb. injection Hb as <-.
        unfold dpop in *. rewrite Db in *.
        set (ob' := oput t (ddel k (oget t ob)) ob) in *.
        assert (Ids : o_proc ob' = o_proc ob /\ o_grp ob' = o_grp ob) by (now destruct t).
        set (s' := set_call _ _ _) in *.
        assert (Lo : forall t' o' k', local s' t' o' k' <->
                   (o' = o /\ dmem k' (oget t' ob') = true) \/ (o' <> o /\ local s t' o' k')).
        { intros. apply (@local_upd s o ob ob' t' k' o' Ho). }
        assert (Ndl : NoDup (dkeys (oget t ob))) by (eapply (j_nd I); eauto).
        apply (@J_quiet s); auto.
        * intros x b t' Hx. cbn in Hx. destruct (Nat.eq_dec x o) as [->|N].
          -- rewrite upd_same in Hx by (apply nth_error_Some; congruence). injection Hx as <-. unfold ob'.
             destruct (tbl_dec t t') as [<-|Nt]; [rewrite oget_oput_same; now apply NoDup_ddel|rewrite oget_oput_other by auto; eapply (j_nd I); eauto].
          -- rewrite upd_other in Hx by auto. eapply (j_nd I); eauto.
        * apply (@same_ids_obj s s' o ob' ob); auto; apply Ids.
        * cbn. apply (@ex_upd s i _ _ I Hc). auto.
        * cbn. intros j c Hj. apply (@calls_upd s i _ _ j c Hc) in Hj as [[-> ->]|[Nj Hj]]; [exact Logic.I|].
          apply (@tied_other s s' i _ o I Hc) with (j := j); auto.
          -- cbn. now rewrite upd_length.
          -- intros t' k' o' N. rewrite Lo. split; [intros [[? _]|[_ ?]]; [contradiction|auto]|auto].
        * intros t' o' k' [[L P]|(v' & j & P)].
          -- assert (Pn : forall t' o' k', (t',o',k') <> (t,o,k) -> ~ pend s' (CUnpair2 _ t' o' k' true) -> ~ pend s (CUnpair2 _ t' o' k' true)).
             { intros t1 o1 k1 Nn P1 (j & Hj). apply P1. exists j. cbn. rewrite upd_other; auto. intros <-. congruence. }
             apply Lo in L as [[-> D]|[N L]].
             ++ destruct (tbl_dec t t') as [<-|Nt].
                ** destruct (Nat.eq_dec k k') as [<-|Nk].
                   { exfalso. unfold ob', dmem in D. rewrite oget_oput_same, dget_ddel_same in D by auto. discriminate. }
                   unfold ob' in D. rewrite oget_oput_same, dmem_ddel_other in D by auto.
                   left. split; [exists ob; auto|]. apply Pn; auto. congruence.
                ** unfold ob' in D. rewrite oget_oput_other in D by auto.
                   left. split; [exists ob; auto|]. apply Pn; auto. congruence.
             ++ left. split; auto. apply Pn; auto. congruence.
          -- cbn in P. apply (@calls_upd s i _ _ j _ Hc) in P as [[_ P]|[_ P]]; [discriminate|]. right. exists v', j. auto.
      + destruct (dmem k (oget t ob)) eqn:D; eapply J_setcall; eauto; cbn; auto; try discriminate.
      + apply (@J_log s (QGet t (okey ob k) (get_entry t (okey ob k) (w_luts s)))) in I; [|exact W].
        destruct (get_entry t (okey ob k) (w_luts s)) as [p|]; eapply J_setcall; eauto; cbn; auto; try discriminate.
      + destruct (dget (h, g) (w_groups s)) as [o|]; [|eapply J_setcall; eauto; cbn; auto; discriminate].
        destruct (nth_error (w_objs s) o) as [ob|]; auto.
        destruct (dget k (oget t ob)); eapply J_setcall; eauto; cbn; auto; discriminate.
      + destruct Or.
      + apply (@J_log s (QGet t (okey ob k) (get_entry t (okey ob k) (w_luts s)))) in I; [|exact W].
        eapply J_setcall; eauto; cbn; auto; discriminate.
      + exact I.
  Qed.

  Lemma J_orderly s : orderly s -> J s.
  Proof.
    induction 1 as [|s l _ I Or]; [|now apply J_step]. constructor.
    - apply (@wi_run V []).
    - intros o ob t H. destruct o; discriminate.
    - intros i i' c c' o H. destruct i; discriminate.
    - intros i c H. destruct i; discriminate.
    - intros t o k ob _ H. destruct o; discriminate.
    - intros t o1 o2 k g _ _ (b & H & _). destruct o1; discriminate.
  Qed.
End Hold.
