(* RpcGroup.barrier: the invariant behind C29. *)
From Verif Require Import Lib.Base Model.World Spec.WorldSpec.
Set Implicit Arguments.

Lemma fupd_same {T} (f : nat -> T) i x : fupd f i x i = x.
Proof. unfold fupd. now rewrite Nat.eqb_refl. Qed.
Lemma fupd_other {T} (f : nat -> T) i x j : j <> i -> fupd f i x j = f j.
Proof. intro. unfold fupd. now rewrite (proj2 (Nat.eqb_neq j i)). Qed.

Section Bar.
  Variable n : nat.
  Variable Pr : bool.        (* every release found its member waiting *)

  Definition at_event (p : fpc) : Prop := p = FEntered \/ p = FWaiting.
  (* member m has entered barrier R+1 and is not released *)
  Definition entered (s : bst) (R m : nat) : Prop :=
    b_flag s m = false /\ b_status s m = true /\ at_event (b_pc s m) /\ b_ent s m = S R /\ b_ex s m = R.
  (* barrier R is over for member m as far as member 0 is concerned *)
  Definition settled (s : bst) (R m : nat) : Prop :=
    entered s R m \/
    (b_flag s m = false /\ b_status s m = false /\
     ((b_pc s m = FOut /\ b_ent s m = R /\ b_ex s m = R) \/
      (b_pc s m = FWoken /\ b_ent s m = R /\ S (b_ex s m) = R) \/
      (at_event (b_pc s m) /\ b_ent s m = R /\ S (b_ex s m) = R /\ Pr = false))).

  Definition mem_ok (s : bst) (m : nat) : Prop :=
    let R := b_ex s 0 in
    match b_lead s with
    | BOut => settled s R m
    | BPoll i => settled s R m /\ (m < i -> b_status s m = true)
    | BExit i st =>
        if m <? i then settled s (S R) m
        else if i <? m then entered s R m
        else match st with
             | E1 => entered s R m
             | E2 => b_flag s m = false /\ b_status s m = false /\ at_event (b_pc s m) /\
                     b_ent s m = S R /\ b_ex s m = R
             | E3 => b_status s m = false /\ b_ent s m = S R /\ b_ex s m = R /\
                     (b_pc s m = FWoken \/ (b_pc s m = FEntered /\ Pr = false))
             end
    end.
  Definition lead_ok (s : bst) : Prop :=
    match b_lead s with
    | BOut => b_ent s 0 = b_ex s 0
    | BPoll i => b_ent s 0 = S (b_ex s 0) /\ b_status s 0 = true /\ i <= n
    | BExit i st => b_ent s 0 = S (b_ex s 0) /\ i <= n /\ (st <> E1 -> i < n)
    end.
  Definition BI (s : bst) : Prop := lead_ok s /\ forall m, 0 < m -> m < n -> mem_ok s m.

  Lemma BI_init : BI binit.
  Proof. split; [reflexivity|]. intros m L L'. cbn. right. cbn. auto 10. Qed.

  Definition good (s : bst) (l : blabel) : Prop := calm_label s l /\ (Pr = true -> prompt_label s l).

  Ltac ltb a b := let H := fresh "H" in destruct (Nat.ltb_spec a b) as [H|H]; try lia.

  Lemma BI_mem s k : BI s -> good s (BMem k) -> BI (bstep n s (BMem k)).
  Proof.
    intros [L M] [C _]. cbn [bstep].
    destruct ((0 <? k) && (k <? n)) eqn:Rg; [|split; auto].
    apply andb_true_iff in Rg as [K0 Kn]. apply Nat.ltb_lt in K0, Kn.
    pose proof (M k K0 Kn) as Mk.
    (* what the other members and member 0 see does not change *)
    assert (Fr : forall s', b_lead s' = b_lead s -> (forall m, m <> k -> b_status s' m = b_status s m /\
               b_flag s' m = b_flag s m /\ b_pc s' m = b_pc s m /\ b_ent s' m = b_ent s m /\ b_ex s' m = b_ex s m) ->
               mem_ok s' k -> BI s').
    { intros s' El Ef Ek. split.
      - unfold lead_ok in *. rewrite El. destruct (Ef 0) as (E1' & E2' & E3' & E4' & E5'); [lia|]. rewrite E1', E4', E5'. exact L.
      - intros m Lm Ln. destruct (Nat.eq_dec m k) as [->|N]; auto. specialize (M m Lm Ln).
        destruct (Ef m N) as (A1 & A2 & A3 & A4 & A5). destruct (Ef 0) as (_ & _ & _ & _ & B5); [lia|].
        unfold mem_ok, settled, entered in *. rewrite El, A1, A2, A3, A4, A5, B5. exact M. }
    assert (Ko : (0 =? k) = false) by (apply Nat.eqb_neq; lia).
    cbv zeta. unfold calm_label in C.
    destruct (b_pc s k) eqn:Pc.
    - (* enters *)
      apply Fr; [reflexivity| |].
      { intros m N. cbn. rewrite !fupd_other by auto. auto. }
      unfold mem_ok, settled, entered, at_event in *. cbn -[Nat.ltb]. rewrite !fupd_same. rewrite Pc in Mk.
      destruct (b_lead s) as [|i|i st].
      + destruct Mk as [(_ & _ & [?|?] & _)|(F & S' & [(_ & E & X)|[(? & _)|([?|?] & _)]])]; try discriminate.
        left. rewrite E, X. auto 10.
      + destruct Mk as [Mk _]. destruct Mk as [(_ & _ & [?|?] & _)|(F & S' & [(_ & E & X)|[(? & _)|([?|?] & _)]])]; try discriminate.
        split; [left; rewrite E, X; auto 10|auto].
      + ltb k i.
        * destruct Mk as [(_ & _ & [?|?] & _)|(F & S' & [(_ & E & X)|[(? & _)|([?|?] & _)]])]; try discriminate.
          left. rewrite E, X. auto 10.
        * ltb i k; [destruct Mk as (_ & _ & [?|?] & _); discriminate|].
          destruct st; [destruct Mk as (_ & _ & [?|?] & _); discriminate|destruct Mk as (_ & _ & [?|?] & _); discriminate|].
          destruct Mk as (_ & _ & _ & [?|[? _]]); discriminate.
    - (* at the event *)
      assert (Fl : b_flag s k = false).
      { unfold mem_ok, settled, entered in Mk. destruct (b_lead s) as [|i|i st].
        - tauto.
        - tauto.
        - revert Mk. ltb k i; [tauto|]. ltb i k; [tauto|]. destruct st; [tauto|tauto|]. exfalso. apply C. lia. }
      rewrite Fl. apply Fr; [reflexivity| |].
      { intros m N. cbn. rewrite !fupd_other by auto. auto. }
      unfold mem_ok, settled, entered, at_event in *. cbn -[Nat.ltb]. rewrite !fupd_same. rewrite Pc in Mk.
      destruct (b_lead s) as [|i|i st].
      + destruct Mk as [(F & S' & _ & E)|(F & S' & [(? & _)|[(? & _)|(_ & E)]])]; try discriminate; auto 10.
      + destruct Mk as [Mk Mi]. split; [|auto].
        destruct Mk as [(F & S' & _ & E)|(F & S' & [(? & _)|[(? & _)|(_ & E)]])]; try discriminate; auto 10.
      + revert Mk. ltb k i.
        * intros [(F & S' & _ & E)|(F & S' & [(? & _)|[(? & _)|(_ & E)]])]; try discriminate; auto 10.
        * ltb i k; [tauto|]. destruct st; [tauto|tauto|]. exfalso. apply C. lia.
    - split; auto.
    - (* woken *)
      apply Fr; [reflexivity| |].
      { intros m N. cbn. rewrite !fupd_other by auto. auto. }
      unfold mem_ok, settled, entered, at_event in *. cbn -[Nat.ltb]. rewrite !fupd_same. rewrite fupd_other by lia. rewrite Pc in Mk.
      destruct (b_lead s) as [|i|i st].
      + destruct Mk as [(_ & _ & [?|?] & _)|(F & S' & [(? & _)|[(_ & E & X)|([?|?] & _)]])]; try discriminate.
        right. rewrite X. auto 10.
      + destruct Mk as [Mk Mi]. split; [|auto].
        destruct Mk as [(_ & _ & [?|?] & _)|(F & S' & [(? & _)|[(_ & E & X)|([?|?] & _)]])]; try discriminate.
        right. rewrite X. auto 10.
      + revert Mk. ltb k i.
        * intros [(_ & _ & [?|?] & _)|(F & S' & [(? & _)|[(_ & E & X)|([?|?] & _)]])]; try discriminate.
          right. rewrite X. auto 10.
        * ltb i k; [intros (_ & _ & [?|?] & _); discriminate|].
          destruct st; [intros (_ & _ & [?|?] & _); discriminate|intros (_ & _ & [?|?] & _); discriminate|].
          exfalso. apply C. lia.
  Qed.

  Lemma BI_lead s : 0 < n -> BI s -> good s BLead -> BI (bstep n s BLead).
  Proof.
    intros Np [L M] [_ Pm]. cbn [bstep]. unfold lead_ok in L. unfold prompt_label in Pm.
    destruct (b_lead s) as [|i|i st] eqn:El.
    - split.
      + unfold lead_ok. cbn. rewrite L. auto with arith.
      + intros m Lm Ln. specialize (M m Lm Ln). unfold mem_ok, settled, entered in *. rewrite El in M. cbn -[Nat.ltb].
        rewrite !fupd_other by lia. split; [exact M|lia].
    - destruct L as (L1 & L2 & L3). ltb i n.
      + destruct (b_status s i) eqn:Si; (split; [unfold lead_ok; cbn; auto with arith|]);
          intros m Lm Ln; specialize (M m Lm Ln); unfold mem_ok, settled, entered in *; rewrite El in M; cbn -[Nat.ltb];
          destruct M as [M M']; (split; [exact M|]).
        * intro. destruct (Nat.eq_dec m i) as [->|]; auto. apply M'. lia.
        * lia.
      + assert (i = n) by lia. subst i. split; [unfold lead_ok; cbn; split; [auto|split; [lia|congruence]]|].
        intros m Lm Ln; specialize (M m Lm Ln); unfold mem_ok, settled in *; rewrite El in M; cbn -[Nat.ltb].
        destruct M as [M M']. rewrite (proj2 (Nat.ltb_ge m 0)) by lia. rewrite (proj2 (Nat.ltb_lt 0 m)) by lia.
        destruct M as [M|(_ & S' & _)]; [exact M|]. specialize (M' Ln). congruence.
    - destruct L as (L1 & L2 & L3). destruct st.
      + ltb i n.
        * split; [unfold lead_ok; cbn; auto|].
          intros m Lm Ln; specialize (M m Lm Ln); unfold mem_ok, settled, entered in *; rewrite El in M; cbn -[Nat.ltb].
          revert M. ltb m i; [rewrite !fupd_other by lia; auto|]. ltb i m; [rewrite !fupd_other by lia; auto|].
          assert (m = i) by lia. subst m. rewrite fupd_same. tauto.
        * assert (i = n) by lia. subst i. split; [unfold lead_ok; cbn; try rewrite fupd_same; auto|].
          intros m Lm Ln; specialize (M m Lm Ln); unfold mem_ok, settled, entered in *; rewrite El in M; cbn -[Nat.ltb].
          rewrite (proj2 (Nat.ltb_lt m n)) in M by lia. try rewrite fupd_same. rewrite !fupd_other by lia. exact M.
      + specialize (L3 ltac:(discriminate)). split; [unfold lead_ok; cbn; auto|].
        intros m Lm Ln; specialize (M m Lm Ln); unfold mem_ok, settled, entered in *; rewrite El in M; cbn -[Nat.ltb].
        assert (Pi : forall m, m <> i -> match b_pc s i with FWaiting => fupd (b_pc s) i FWoken | _ => b_pc s end m = b_pc s m).
        { intros m' N. destruct (b_pc s i); auto. now rewrite fupd_other. }
        revert M. ltb m i; [rewrite Pi, !fupd_other by lia; auto|]. ltb i m; [rewrite Pi, !fupd_other by lia; auto|].
        assert (m = i) by lia. subst m. intros (F & S' & A & E & X). repeat split; auto.
        destruct A as [A|A]; rewrite A.
        * right. split; auto. destruct Pr; auto. exfalso. specialize (Pm eq_refl). destruct i; [lia|]. congruence.
        * left. now rewrite fupd_same.
      + specialize (L3 ltac:(discriminate)). split; [unfold lead_ok; cbn; split; [auto|split; [lia|congruence]]|].
        intros m Lm Ln; specialize (M m Lm Ln); unfold mem_ok, settled, entered in *; rewrite El in M; cbn -[Nat.ltb].
        ltb m i.
        * try rewrite (proj2 (Nat.ltb_lt m i)) in M by lia.
          rewrite (proj2 (Nat.ltb_lt m (S i))) by lia. rewrite !fupd_other by lia. exact M.
        * try rewrite (proj2 (Nat.ltb_ge m i)) in M by lia. revert M. ltb i m; intro M.
          -- rewrite (proj2 (Nat.ltb_ge m (S i))) by lia.
             destruct (Nat.eq_dec m (S i)) as [->|].
             ++ rewrite (proj2 (Nat.ltb_ge (S i) (S i))) by lia. rewrite !fupd_other by lia. exact M.
             ++ rewrite (proj2 (Nat.ltb_lt (S i) m)) by lia. rewrite !fupd_other by lia. exact M.
          -- assert (m = i) by lia. subst m. rewrite (proj2 (Nat.ltb_lt i (S i))) by lia. rewrite fupd_same.
             destruct M as (S' & E & X & [P|[P Q]]).
             ++ right. rewrite X. auto 10.
             ++ right. rewrite X. unfold at_event. auto 12.
  Qed.

  Lemma BI_step s l : 0 < n -> BI s -> good s l -> BI (bstep n s l).
  Proof. intros Np I G. destruct l; [now apply BI_lead|now apply BI_mem]. Qed.

  Lemma BI_run ls : 0 < n -> forall s, BI s -> along n good s ls -> BI (brun n s ls).
  Proof.
    intros Np. induction ls as [|l ls IH]; intros s I A; cbn in *; auto. destruct A. apply IH; auto. now apply BI_step.
  Qed.

  Lemma BI_separates s : 0 < n -> BI s -> bar_separates n s.
  Proof.
    intros Np [L M] j m m' Hm Hm' J.
    set (R := b_ex s 0) in *.
    assert (B : (forall k, k < n -> b_ex s k <= R /\ R <= b_ent s k) \/ (forall k, k < n -> b_ex s k <= S R /\ S R <= b_ent s k)).
    { unfold lead_ok in L. fold R in L. destruct (b_lead s) as [|i|i st] eqn:El.
      - left. intros k Hk. destruct k as [|k]; [split; unfold R; lia|].
        specialize (M (S k) ltac:(lia) Hk). unfold mem_ok, settled, entered in M. rewrite El in M. fold R in M. lia.
      - left. intros k Hk. destruct k as [|k]; [split; unfold R in *; lia|].
        specialize (M (S k) ltac:(lia) Hk). unfold mem_ok, settled, entered in M. rewrite El in M. fold R in M. lia.
      - right. intros k Hk. destruct k as [|k]; [split; unfold R in *; lia|].
        specialize (M (S k) ltac:(lia) Hk). unfold mem_ok, settled, entered in M. rewrite El in M. fold R in M.
        destruct (S k <? i); [lia|]. destruct (i <? S k); [lia|]. destruct st; lia. }
    destruct B as [B|B]; pose proof (B m Hm); pose proof (B m' Hm'); lia.
  Qed.
End Bar.

(* ---- progress when every release finds its member waiting ---- *)
Section BarLive.
  Variable n : nat.
  Hypothesis Np : 0 < n.
  Notation BIt := (BI n true).
  Notation goodt := (good true).

  Lemma along_app P s l1 l2 : along n P s (l1 ++ l2) <-> along n P s l1 /\ along n P (brun n s l1) l2.
  Proof. revert s; induction l1 as [|l l1 IH]; intro s; cbn; [tauto|]. rewrite IH. tauto. Qed.
  Lemma brun_app s l1 l2 : brun n s (l1 ++ l2) = brun n (brun n s l1) l2.
  Proof. unfold brun. apply fold_left_app. Qed.

  (* steps member 0 still has to do in its current barrier *)
  Definition rem (l : lpc) : nat :=
    match l with
    | BOut => 0
    | BPoll i => (n - i) + 1 + (3 * n + 1)
    | BExit i E1 => 3 * (n - i) + 1
    | BExit i E2 => 3 * (n - i)
    | BExit i E3 => 3 * (n - i) - 1
    end.

  Definition all_in (s : bst) : Prop := b_lead s <> BOut /\ forall m, m < n -> S (b_ex s 0) <= b_ent s m.

  Lemma lead_step s : BIt s -> all_in s -> goodt s BLead ->
    let s' := bstep n s BLead in
    (b_lead s' = BOut /\ b_ex s' 0 = S (b_ex s 0) /\ b_ent s' = b_ent s) \/
    (rem (b_lead s') < rem (b_lead s) /\ b_ex s' = b_ex s /\ b_ent s' = b_ent s /\ b_lead s' <> BOut).
  Proof.
    intros [L M] [NB A] _. cbn [bstep]. unfold lead_ok in L. destruct (b_lead s) as [|i|i st] eqn:El; [congruence| |].
    - destruct L as (L1 & L2 & L3). destruct (Nat.ltb_spec i n) as [Hi|Hi].
      + assert (St : b_status s i = true).
        { destruct i as [|i]; auto. specialize (M (S i) ltac:(lia) Hi). unfold mem_ok, settled in M. rewrite El in M.
          destruct M as [[E|(_ & _ & B)] _]; [apply E|]. exfalso. specialize (A (S i) Hi). lia. }
        rewrite St. right. cbn. repeat split; auto; [lia|discriminate].
      + right. cbn. repeat split; auto; [lia|discriminate].
    - destruct L as (L1 & L2 & L3). destruct st.
      + destruct (Nat.ltb_spec i n) as [Hi|Hi].
        * right. cbn. repeat split; auto; [lia|discriminate].
        * left. cbn. auto using fupd_same.
      + right. cbn. specialize (L3 ltac:(discriminate)). repeat split; auto; [lia|discriminate].
      + right. cbn. specialize (L3 ltac:(discriminate)). repeat split; auto; [lia|discriminate].
  Qed.

  Lemma lead_done s : BIt s -> all_in s ->
    exists ls, along n goodt s ls /\ BIt (brun n s ls) /\ b_ex (brun n s ls) 0 = S (b_ex s 0) /\
               b_ent (brun n s ls) = b_ent s.
  Proof.
    remember (rem (b_lead s)) as r eqn:Er. assert (Hr : rem (b_lead s) <= r) by lia. clear Er.
    revert s Hr. induction r as [|r IH]; intros s Hr I A.
    - exfalso. destruct I as [L _]. destruct A as [A _]. unfold lead_ok in L.
      destruct (b_lead s) as [|i|i []]; cbn in Hr; try lia; [congruence| |];
        destruct L as (_ & _ & L); specialize (L ltac:(discriminate)); lia.
    - (* make sure BLead is allowed *)
      assert (Pre : exists l0, along n goodt s l0 /\ BIt (brun n s l0) /\ all_in (brun n s l0) /\
                b_ex (brun n s l0) = b_ex s /\ b_ent (brun n s l0) = b_ent s /\
                b_lead (brun n s l0) = b_lead s /\ goodt (brun n s l0) BLead).
      { destruct (b_lead s) as [|i|[|i] []] eqn:El;
          try (exists []; cbn; rewrite El; repeat split; auto; try apply I; try apply A;
               unfold good, calm_label, prompt_label; rewrite ?El; auto; fail).
        destruct (b_pc s (S i)) eqn:Pc.
        - exfalso. destruct I as [L M]. unfold lead_ok in L. rewrite El in L. destruct L as (_ & _ & L). specialize (L ltac:(discriminate)).
          specialize (M (S i) ltac:(lia) L). unfold mem_ok in M. rewrite El, Nat.ltb_irrefl in M.
          destruct M as (_ & _ & [?|?] & _); congruence.
        - assert (G : goodt s (BMem (S i))) by (unfold good, calm_label, prompt_label; rewrite El; auto).
          exists [BMem (S i)]. cbn [along brun fold_left]. pose proof (BI_step Np I G) as I'.
          destruct I as [L M]. unfold lead_ok in L. rewrite El in L. destruct L as (L1 & L2 & L). specialize (L ltac:(discriminate)).
          specialize (M (S i) ltac:(lia) L). unfold mem_ok in M. rewrite El, Nat.ltb_irrefl in M.
          destruct M as (F & _). revert I'. cbn [bstep]. rewrite Pc, F.
          assert (R1 : (0 <? S i) && (S i <? n) = true) by (rewrite (proj2 (Nat.ltb_lt _ _) L); reflexivity).
          rewrite R1. cbv zeta. intro I'. cbn [b_lead b_ex b_ent].
          split; [auto|]. split; [exact I'|]. split; [split; [cbn; rewrite El; discriminate|apply A]|].
          split; auto. split; auto. split; auto.
          unfold good, calm_label, prompt_label. cbn. rewrite El. split; auto. intros _. apply fupd_same.
        - exists []; cbn; rewrite El; repeat split; auto; try apply I; try apply A.
          unfold prompt_label; rewrite El; auto.
        - exfalso. destruct I as [L M]. unfold lead_ok in L. rewrite El in L. destruct L as (_ & _ & L). specialize (L ltac:(discriminate)).
          specialize (M (S i) ltac:(lia) L). unfold mem_ok in M. rewrite El, Nat.ltb_irrefl in M.
          destruct M as (_ & _ & [?|?] & _); congruence. }
      destruct Pre as (l0 & Al & I0 & A0 & Ex & En & Ld & G). set (s0 := brun n s l0) in *.
      pose proof (BI_step Np I0 G) as I1. pose proof (lead_step I0 A0 G) as St. cbv zeta in St.
      destruct St as [(D1 & D2 & D3)|(D1 & D2 & D3 & D4)].
      + exists (l0 ++ [BLead]). rewrite along_app, brun_app. fold s0. cbn [along brun fold_left]. rewrite D3, D2, En, Ex. auto 10.
      + destruct (IH (bstep n s0 BLead)) as (ls & Al' & I' & Ex' & En'); auto.
        * rewrite Ld in D1. lia.
        * split; auto. intros m Hm. rewrite D2, D3. apply A0, Hm.
        * exists (l0 ++ BLead :: ls). rewrite along_app, brun_app. fold s0. cbn [along brun fold_left].
          unfold brun in *. rewrite Ex', En', D2, D3. rewrite Ex, En. auto 10.
  Qed.

  Lemma mem_done s j : BIt s -> j <= b_ex s 0 -> 
    forall k, k <= n -> exists ls, along n goodt s ls /\ BIt (brun n s ls) /\ j <= b_ex (brun n s ls) 0 /\
      forall m, m < k -> j <= b_ex (brun n s ls) m.
  Proof.
    intros I Hj. induction k as [|k IH]; intro Hk.
    - exists []. cbn. repeat split; auto; try apply I. intros; lia.
    - destruct IH as (ls & Al & I' & H0 & Hm); [lia|]. set (s1 := brun n s ls) in *.
      destruct (le_lt_dec j (b_ex s1 k)) as [Le|Lt].
      + exists ls. repeat split; auto; try apply I'. intros m Lm. destruct (Nat.eq_dec m k) as [->|]; auto. apply Hm. lia.
      + assert (K0 : 0 < k) by (destruct k; lia). destruct I' as [L' M']. pose proof (M' k K0 ltac:(lia)) as Mk.
        assert (W : b_pc s1 k = FWoken /\ S (b_ex s1 k) = b_ex s1 0 /\ (match b_lead s1 with BExit _ _ => False | _ => True end)).
        { unfold mem_ok, settled, entered in Mk. destruct (b_lead s1) as [|i|i st].
          - destruct Mk as [Mk|(_ & _ & [Mk|[Mk|Mk]])]; [lia|lia|tauto|exfalso; destruct Mk as (_ & _ & _ & ?); discriminate].
          - destruct Mk as [[Mk|(_ & _ & [Mk|[Mk|Mk]])] _]; [lia|lia|tauto|exfalso; destruct Mk as (_ & _ & _ & ?); discriminate].
          - exfalso. destruct (k <? i); [destruct Mk as [Mk|(_ & _ & [Mk|[Mk|Mk]])]; lia|].
            destruct (i <? k); [lia|]. destruct st; lia. }
        destruct W as (W & Wx & Wl).
        assert (G : goodt s1 (BMem k)).
        { unfold good, calm_label, prompt_label. destruct (b_lead s1); auto. destruct Wl. }
        exists (ls ++ [BMem k]). rewrite along_app, brun_app. fold s1. cbn [along brun fold_left].
        split; [auto|]. split; [apply BI_step; auto; split; auto|].
        cbn [bstep]. rewrite W. rewrite (proj2 (Nat.ltb_lt 0 k)), (proj2 (Nat.ltb_lt k n)) by lia. cbn.
        split; [rewrite fupd_other by lia; auto|]. intros m Lm. destruct (Nat.eq_dec m k) as [->|].
        * rewrite fupd_same. lia.
        * rewrite fupd_other by auto. apply Hm. lia.
  Qed.

  Lemma all_return s j : BIt s -> (forall m, m < n -> j <= b_ent s m) ->
    exists ls, along n goodt s ls /\ forall m, m < n -> j <= b_ex (brun n s ls) m.
  Proof.
    intros I E.
    assert (exists l0, along n goodt s l0 /\ BIt (brun n s l0) /\ j <= b_ex (brun n s l0) 0) as (l0 & Al & I0 & H0).
    { destruct (le_lt_dec j (b_ex s 0)) as [Le|Lt].
      - exists []. cbn. repeat split; auto; apply I.
      - assert (A : all_in s).
        { split; [|intros m Hm; specialize (E m Hm); lia]. intro El. destruct I as [L _]. unfold lead_ok in L. rewrite El in L.
          specialize (E 0 Np). lia. }
        destruct (lead_done I A) as (ls & Al & I' & Ex & _). exists ls. split; auto. split; auto.
        specialize (E 0 Np). destruct I as [L _]. unfold lead_ok in L. destruct (b_lead s); lia. }
    destruct (@mem_done (brun n s l0) j I0 H0 n (le_n n)) as (ls & Al' & _ & _ & Hm).
    exists (l0 ++ ls). rewrite along_app, brun_app. auto.
  Qed.
End BarLive.
