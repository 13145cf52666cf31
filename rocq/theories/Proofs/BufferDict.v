(* Consistency of the two handle dictionaries of Buffer under every operation,
   including clear() and refused stores. *)
From Verif Require Import Lib.Base Model.Buffer Proofs.BufferProofs.

Record DC (n : nat) (ten : list (nat * nat)) (eth : list (nat * list nat)) (cur : list nat) : Prop := {
  dc_nt : NoDup (dkeys ten);
  dc_ne : NoDup (dkeys eth);
  dc_ten : forall h e, dget h ten = Some e ->
     (e = n /\ In h cur) \/ (exists hs, dget e eth = Some hs /\ In h hs);
  dc_eth : forall e hs, dget e eth = Some hs -> e < n /\ NoDup hs /\ (forall h, In h hs -> dget h ten = Some e);
  dc_cur : forall h, In h cur -> dget h ten = Some n }.

Lemma pop_all_ok hs : forall d, NoDup (dkeys d) -> NoDup hs ->
  (forall h, In h hs -> dget h d <> None) ->
  exists d', pop_all hs d = Ok d' /\ NoDup (dkeys d') /\
    forall k, dget k d' = if existsb (Nat.eqb k) hs then None else dget k d.
Proof.
  induction hs as [|h r IH]; intros d ND NH H; cbn.
  - exists d. auto.
  - unfold dpop, dmem. destruct (dget h d) as [v|] eqn:G; [|exfalso; apply (H h); cbn; auto].
    cbn [bind]. inversion NH as [|? ? N1 N2]; subst.
    destruct (IH (ddel h d)) as (d' & E & ND' & GK); auto.
    + now apply NoDup_ddel.
    + intros q Hq. rewrite dget_ddel_other; [apply H; now right|]. intros <-. tauto.
    + exists d'. split; auto. split; auto. intros k. rewrite GK.
      destruct (existsb (Nat.eqb k) r) eqn:EX; [now rewrite orb_true_r|]. rewrite orb_false_r.
      destruct (Nat.eqb_spec k h).
      * subst. now apply dget_ddel_same.
      * apply dget_ddel_other. auto.
Qed.

Lemma existsb_eqb_In k l : existsb (Nat.eqb k) l = true <-> In k l.
Proof.
  rewrite existsb_exists. split.
  - intros (x & H & E). apply Nat.eqb_eq in E. now subst.
  - intros H. exists k. split; auto. apply Nat.eqb_refl.
Qed.

Lemma claim1_dc n h ten eth cur : DC n ten eth cur -> ~ In h cur ->
  exists ten' eth', claim1 n h ten eth = Ok (ten', eth') /\ DC n ten' eth' (cur ++ [h]).
Proof.
  intros [NT NE HT HE HC] NI. unfold claim1. destruct (dget h ten) as [old|] eqn:G.
  - destruct (HT _ _ G) as [[_ ?]|(hs & GE & Hh)]; [tauto|]. rewrite GE.
    destruct (HE _ _ GE) as (OL & NH & ALL).
    destruct (pop_all_ok hs ten NT NH) as (d' & -> & ND' & GK); [intros q Hq; rewrite ALL; congruence|].
    cbn [bind]. unfold dpop, dmem. rewrite GE. cbn [bind].
    eexists _, _. split; [reflexivity|].
    assert (OTH : forall e hs', e <> old -> dget e eth = Some hs' -> forall q, In q hs' -> ~ In q hs).
    { intros e hs' NEe GE' q Q1 Q2. apply ALL in Q2. apply (HE _ _ GE') in Q1. congruence. }
    split.
    + now apply NoDup_dset.
    + now apply NoDup_ddel.
    + intros q e. destruct (Nat.eq_dec q h) as [->|NQ].
      * rewrite dget_dset_same. intros [= <-]. left. split; auto. apply in_or_app. right. now left.
      * rewrite dget_dset_other by auto. rewrite GK. destruct (existsb (Nat.eqb q) hs) eqn:EX; [discriminate|].
        intros GQ. destruct (HT _ _ GQ) as [[-> ?]|(hs' & GE' & Hq)].
        -- left. split; auto. apply in_or_app. auto.
        -- right. exists hs'. split; auto. rewrite dget_ddel_other; auto. intros ->.
           rewrite GE' in GE. injection GE as ->. apply existsb_eqb_In in Hq. congruence.
    + intros e hs'. destruct (Nat.eq_dec e old) as [->|NEo].
      * rewrite dget_ddel_same by auto. discriminate.
      * rewrite dget_ddel_other by auto. intros GE'. destruct (HE _ _ GE') as (L & N' & A').
        split; auto. split; auto. intros q Q.
        assert (q <> h). { intros ->. apply (OTH _ _ NEo GE' h); auto. }
        rewrite dget_dset_other by auto. rewrite GK.
        destruct (existsb (Nat.eqb q) hs) eqn:EX; [|now apply A'].
        apply existsb_eqb_In in EX. exfalso. eapply OTH; eauto.
    + intros q Q. destruct (Nat.eq_dec q h) as [->|NQ]; [now rewrite dget_dset_same|].
      rewrite dget_dset_other by auto. apply in_app_or in Q as [Q|[->|[]]]; [|tauto]. rewrite GK.
      destruct (existsb (Nat.eqb q) hs) eqn:EX; [|now apply HC].
      apply existsb_eqb_In in EX. apply ALL in EX. apply HC in Q. rewrite Q in EX. injection EX as ->. lia.
  - eexists _, _. split; [reflexivity|]. split; auto.
    + now apply NoDup_dset.
    + intros q e. destruct (Nat.eq_dec q h) as [->|NQ].
      * rewrite dget_dset_same. intros [= <-]. left. split; auto. apply in_or_app. right. now left.
      * rewrite dget_dset_other by auto. intros GQ. destruct (HT _ _ GQ) as [[-> ?]|X]; auto.
        left. split; auto. apply in_or_app; auto.
    + intros e hs' GE'. destruct (HE _ _ GE') as (L & N' & A'). split; auto. split; auto.
      intros q Q. rewrite dget_dset_other; [now apply A'|]. intros ->. apply A' in Q. congruence.
    + intros q Q. destruct (Nat.eq_dec q h) as [->|NQ]; [now rewrite dget_dset_same|].
      rewrite dget_dset_other by auto. apply in_app_or in Q as [Q|[->|[]]]; [auto|tauto].
Qed.

Lemma claim_dc n hs : forall ten eth cur, DC n ten eth cur -> NoDup (cur ++ hs) ->
  exists ten' eth', claim n hs ten eth = Ok (ten', eth') /\ DC n ten' eth' (cur ++ hs).
Proof.
  induction hs as [|h r IH]; intros ten eth cur D ND; cbn.
  - rewrite app_nil_r. exists ten, eth. auto.
  - destruct (claim1_dc n h ten eth cur D) as (t1 & e1 & E & D1).
    { apply NoDup_remove_2 in ND. intros H. apply ND. apply in_or_app. auto. }
    rewrite E. cbn [bind fst snd].
    destruct (IH t1 e1 (cur ++ [h]) D1) as (t2 & e2 & E2 & D2).
    { now rewrite <- app_assoc. }
    exists t2, e2. split; auto. now rewrite <- app_assoc in D2.
Qed.

Lemma DC_mono n m ten eth : n <= m -> DC n ten eth [] -> DC m ten eth [].
Proof.
  intros L [NT NE HT HE HC]. split; auto.
  - intros h e G. destruct (HT _ _ G) as [[_ []]|X]; auto.
  - intros e hs G. destruct (HE _ _ G) as (A & B). split; [lia|auto].
  - intros h [].
Qed.

Lemma DC_close n ten eth hs : NoDup hs -> DC n ten eth hs -> DC (S n) ten (dset n hs eth) [].
Proof.
  intros NH [NT NE HT HE HC]. split; auto.
  - now apply NoDup_dset.
  - intros h e G. right. destruct (HT _ _ G) as [[-> I]|(hs' & GE & I)].
    + exists hs. split; auto. apply dget_dset_same.
    + exists hs'. split; auto. rewrite dget_dset_other; auto. intros ->. apply HE in GE. lia.
  - intros e hs'. destruct (Nat.eq_dec e n) as [->|N].
    + rewrite dget_dset_same. intros [= <-]. split; [lia|]. auto.
    + rewrite dget_dset_other by auto. intros G. destruct (HE _ _ G) as (A & B). split; [lia|auto].
  - intros h [].
Qed.

Section Runs.
  Context {T : Type}.
  Variable ok : T -> bool.

  (* weak invariant: write log since the last clear, consistent dictionaries *)
  Record BInv (cap : nat) (b : buffer T) (W : list T) : Prop := {
    bi_st : StInv (b_st b) W;
    bi_cap : st_cap (b_st b) = cap;
    bi_dc : DC (b_cnt b) (b_ten b) (b_eth b) [] }.

  Lemma BInv_new cap : 0 < cap -> BInv cap (b_new cap) [].
  Proof.
    intros C. split; auto; [now apply st_new_inv|]. split; cbn; try constructor; try discriminate; tauto.
  Qed.
  Lemma BInv_clear cap b W : BInv cap b W -> BInv cap (b_clear b) [].
  Proof.
    intros [S C D]. split; cbn; auto. apply st_clear_inv. apply S.
  Qed.

  (* an acceptable episode is stored; its handles are registered under its number *)
  Lemma BInv_store cap b W ep : BInv cap b W -> ep <> [] -> forallb ok ep = true -> length ep <= cap ->
    exists b', b_store_episode ok b ep = (b', Ok tt) /\ BInv cap b' (W ++ ep) /\
      b_cnt b' = S (b_cnt b) /\ dget (b_cnt b) (b_eth b') = Some (modseq cap (length W) (length ep)).
  Proof.
    intros [S C D] NE OK L. unfold b_store_episode. destruct ep as [|t0 e0]; [congruence|].
    rewrite OK. cbn [negb].
    destruct (st_store_episode_ok (t0 :: e0) S) as (s' & E & C' & S'); [now rewrite C|].
    rewrite E, C.
    assert (ND : NoDup (modseq cap (length W) (length (t0 :: e0)))).
    { apply modseq_NoDup; auto. rewrite <- C. apply S. }
    destruct (claim_dc (b_cnt b) (modseq cap (length W) (length (t0 :: e0))) _ _ [] D) as (t1 & e1 & E1 & D1); auto.
    rewrite E1. eexists; split; [reflexivity|]. split; [|split].
    - split; cbn; auto; [congruence|]. apply DC_close; auto.
    - reflexivity.
    - apply dget_dset_same.
  Qed.

  Lemma BInv_any cap b W ep : BInv cap b W -> exists W', BInv cap (fst (b_store_episode ok b ep)) W'.
  Proof.
    intros I. destruct ep as [|t0 e0]; [exists W; exact I|].
    destruct (forallb ok (t0 :: e0)) eqn:OK.
    - destruct (Nat.le_gt_cases (length (t0 :: e0)) cap) as [L|L].
      + destruct (BInv_store cap b W (t0 :: e0) I) as (b' & -> & I' & _); auto; [congruence|]. eauto.
      + destruct I as [S C D]. unfold b_store_episode. rewrite OK. cbn [negb].
        destruct (st_store_episode_over (t0 :: e0) S) as (s' & -> & C' & S'); [now rewrite C|].
        exists (W ++ t0 :: e0). split; cbn; auto; [congruence|]. eapply DC_mono; [|exact D]. lia.
    - exists W. destruct I as [S C D]. unfold b_store_episode. rewrite OK. cbn [negb].
      split; cbn; auto. eapply DC_mono; [|exact D]. lia.
  Qed.

  Lemma BInv_run cap os : 0 < cap -> exists W, BInv cap (b_run ok (b_new cap) os) W.
  Proof.
    intros C. unfold b_run. assert (forall b W, BInv cap b W -> exists W', BInv cap (fold_left (b_step ok) os b) W') as G.
    { induction os as [|o r IH]; intros b W I; cbn; [eauto|].
      destruct o as [ep|]; cbn [b_step].
      - destruct (BInv_any cap b W ep I) as (W' & I'). eapply IH; eauto.
      - eapply IH. eapply BInv_clear; eauto. }
    eapply G. now apply BInv_new.
  Qed.

  Lemma run_any_accepts cap os ep : 0 < cap -> ep <> [] -> forallb ok ep = true -> length ep <= cap ->
    snd (b_store_episode ok (b_run ok (b_new cap) os) ep) = Ok tt.
  Proof.
    intros C NE OK L. destruct (BInv_run cap os C) as (W & I).
    destruct (BInv_store _ _ _ _ I NE OK L) as (b' & -> & _). reflexivity.
  Qed.
  Lemma run_any_size cap os : 0 < cap -> b_size (b_run ok (b_new cap) os) <= cap.
  Proof.
    intros C. destruct (BInv_run cap os C) as (W & [S E D]). unfold b_size. rewrite (si_len S), E. lia.
  Qed.
End Runs.
