(* World.create_rpc_group: the invariant behind C30. *)
From Verif Require Import Lib.Base Model.World Spec.WorldSpec Proofs.BarrierProofs.
Set Implicit Arguments.

Section Cr.
  Variable n : nat.

  (* member m, when member 0 has completed R creations *)
  Definition waiting_in (s : gst) (R m : nat) : Prop :=
    g_sig s m = Some false /\ g_called s m = S R /\ g_ret s m = R.
  Definition ready_for (s : gst) (R m : nat) : Prop :=
    waiting_in s R m \/
    (g_sig s m <> Some false /\ g_called s m = R /\ g_ret s m = R) \/
    (g_sig s m = Some true /\ g_called s m = R /\ S (g_ret s m) = R).

  Definition cm_ok (s : gst) (m : nat) : Prop :=
    let R := g_ret s 0 in
    match g_lead s with
    | COut | CStart => ready_for s R m
    | CPoll rs i => ready_for s R m /\ (rs m = Some true -> waiting_in s R m) /\ (m < i -> rs m = Some true)
    | CUnlock d i => if d m then ready_for s (S R) m else waiting_in s R m
    end.
  Definition cl_ok (s : gst) : Prop :=
    match g_lead s with
    | COut => g_called s 0 = g_ret s 0
    | CStart => g_called s 0 = S (g_ret s 0) /\ g_sig s 0 = Some false
    | CPoll rs i => g_called s 0 = S (g_ret s 0) /\ g_sig s 0 = Some false /\ i <= n
    | CUnlock d i => g_called s 0 = S (g_ret s 0) /\ i <= n /\ forall m, m < i -> d m = true
    end.
  Definition GI (s : gst) : Prop := cl_ok s /\ forall m, 0 < m -> m < n -> cm_ok s m.

  Lemma GI_init : GI ginit.
  Proof. split; [reflexivity|]. intros m _ _. cbn. right. left. cbn. repeat split; auto. discriminate. Qed.

  Hypothesis Np : 0 < n.

  Lemma GI_step s l : GI s -> GI (gstep n s l).
  Proof.
    intros [L M]. destruct l as [k|k|k| |k]; cbn [gstep].
    - (* ACall *)
      destruct ((k <? n) && (g_called s k =? g_ret s k)) eqn:B; [|split; auto].
      apply andb_true_iff in B as [Kn Eq]. apply Nat.ltb_lt in Kn. apply Nat.eqb_eq in Eq.
      destruct (Nat.eqb_spec k 0) as [->|K0].
      + assert (El : g_lead s = COut).
        { unfold cl_ok in L. destruct (g_lead s); auto; lia. }
        split.
        * unfold cl_ok in *. rewrite El in L. cbn. rewrite ?fupd_same. split; auto.
        * intros m Lm Ln. specialize (M m Lm Ln). unfold cm_ok, ready_for, waiting_in in *. rewrite El in M. cbn.
          rewrite !fupd_other by lia. exact M.
      + split.
        * unfold cl_ok in *. cbn [g_lead g_called g_ret g_sig]. rewrite !fupd_other by lia. exact L.
        * intros m Lm Ln. destruct (Nat.eq_dec m k) as [->|N].
          -- specialize (M k Lm Ln). unfold cm_ok, ready_for, waiting_in in *. cbn [g_lead g_called g_ret g_sig].
             rewrite !fupd_same. destruct (g_lead s) as [| |rs i|d i].
             ++ left. destruct M as [M|[M|M]]; repeat split; lia.
             ++ left. destruct M as [M|[M|M]]; repeat split; lia.
             ++ destruct M as (M & M1 & M2). split; [left; destruct M as [M|[M|M]]; repeat split; lia|].
                split; [|exact M2]. intro Q. specialize (M1 Q). lia.
             ++ destruct (d k); [|lia]. left. destruct M as [M|[M|M]]; repeat split; lia.
          -- specialize (M m Lm Ln). unfold cm_ok, ready_for, waiting_in in *. cbn [g_lead g_called g_ret g_sig].
             rewrite !fupd_other by lia. exact M.
    - (* AEval *)
      destruct (g_lead s) as [| |rs i|d i] eqn:El; try (split; auto; fail).
      destruct (rs k) eqn:Rk; [split; auto|]. unfold cl_ok in L. rewrite El in L. split; [unfold cl_ok; cbn; auto|].
      intros m Lm Ln. specialize (M m Lm Ln). unfold cm_ok in *. rewrite El in M. cbn [glead g_lead g_called g_ret g_sig].
      destruct M as (M & M1 & M2). split; [exact M|].
      destruct (Nat.eq_dec m k) as [->|N].
      + rewrite fupd_same. split.
        * intro Q. unfold ready_for in M. destruct M as [M|[M|M]]; [exact M| |]; exfalso;
            destruct (g_sig s k) as [[]|]; try discriminate; destruct M as [? _]; congruence.
        * intro Q. specialize (M2 Q). congruence.
      + rewrite fupd_other by auto. auto.
    - (* AUnl *)
      destruct (g_lead s) as [| |rs i|d i] eqn:El; try (split; auto; fail).
      destruct ((k <? n) && negb (d k)) eqn:B; [|split; auto].
      apply andb_true_iff in B as [Kn Dk]. apply Nat.ltb_lt in Kn. apply negb_true_iff in Dk.
      unfold cl_ok in L. rewrite El in L. destruct L as (L1 & L2 & L3). split.
      + unfold cl_ok. cbn. split; auto. split; auto. intros m Lm. unfold fupd. destruct (m =? k); auto.
      + intros m Lm Ln. specialize (M m Lm Ln). unfold cm_ok, ready_for, waiting_in in *. rewrite El in M. cbn [g_lead g_called g_ret g_sig].
        destruct (Nat.eq_dec m k) as [->|N].
        * rewrite !fupd_same. rewrite Dk in M. right. right. repeat split; lia.
        * rewrite !fupd_other by auto. exact M.
    - (* ALead *)
      unfold cl_ok in L. destruct (g_lead s) as [| |rs i|d i] eqn:El.
      + split; auto. unfold cl_ok. now rewrite El.
      + split; [unfold cl_ok; cbn; destruct L; repeat split; auto; lia|].
        intros m Lm Ln. specialize (M m Lm Ln). unfold cm_ok in *. rewrite El in M. cbn.
        split; [exact M|]. split; [discriminate|lia].
      + destruct L as (L1 & L2 & L3). destruct (Nat.ltb_spec i n) as [Hi|Hi].
        * destruct (rs i) as [[]|] eqn:Ri.
          -- split; [unfold cl_ok; cbn; auto|]. intros m Lm Ln. specialize (M m Lm Ln). unfold cm_ok in *. rewrite El in M. cbn.
             destruct M as (M & M1 & M2). split; [exact M|]. split; [exact M1|]. intro. destruct (Nat.eq_dec m i) as [->|]; auto. apply M2. lia.
          -- split; [unfold cl_ok; cbn; auto|]. intros m Lm Ln. specialize (M m Lm Ln). unfold cm_ok in *. rewrite El in M. cbn. apply M.
          -- split; auto. unfold cl_ok. rewrite El. auto.
        * split; [unfold cl_ok; cbn; repeat split; auto; lia|].
          intros m Lm Ln. specialize (M m Lm Ln). unfold cm_ok in *. rewrite El in M. cbn.
          destruct M as (M & M1 & M2). apply M1, M2. lia.
      + destruct L as (L1 & L2 & L3). destruct (Nat.ltb_spec i n) as [Hi|Hi].
        * destruct (d i) eqn:Di.
          -- split; [unfold cl_ok; cbn; repeat split; auto|].
             ++ intros m Lm. destruct (Nat.eq_dec m i) as [->|]; auto. apply L3. lia.
             ++ intros m Lm Ln. specialize (M m Lm Ln). unfold cm_ok in *. rewrite El in M. cbn. exact M.
          -- split; auto. unfold cl_ok. rewrite El. auto.
        * split; [unfold cl_ok; cbn; now try rewrite fupd_same|].
          intros m Lm Ln. specialize (M m Lm Ln). unfold cm_ok, ready_for, waiting_in in *. rewrite El in M. cbn [g_lead g_called g_ret g_sig].
          rewrite (L3 m) in M by lia. rewrite fupd_same, fupd_other by lia. exact M.
    - (* ARet *)
      destruct ((0 <? k) && (k <? n) && (g_called s k =? S (g_ret s k))) eqn:B; [|split; auto].
      apply andb_true_iff in B as [B Eq]. apply andb_true_iff in B as [K0 Kn]. apply Nat.ltb_lt in K0, Kn. apply Nat.eqb_eq in Eq.
      destruct (g_sig s k) as [[]|] eqn:Sk; try (split; auto; fail). split.
      + unfold cl_ok in *. cbn [g_lead g_called g_ret g_sig]. rewrite fupd_other by lia. exact L.
      + intros m Lm Ln. specialize (M m Lm Ln). unfold cm_ok, ready_for, waiting_in in *. cbn [g_lead g_called g_ret g_sig].
        rewrite (@fupd_other _ (g_ret s) k _ 0) by lia.
        destruct (Nat.eq_dec m k) as [->|N]; [|rewrite !fupd_other by auto; exact M]. rewrite !fupd_same. rewrite Sk in *.
        destruct (g_lead s) as [| |rs i|d i].
        * right. left. destruct M as [M|[M|M]]; [destruct M; congruence|lia|]. repeat split; try lia. congruence.
        * right. left. destruct M as [M|[M|M]]; [destruct M; congruence|lia|]. repeat split; try lia. congruence.
        * destruct M as (M & M1 & M2). split; [|split; [|exact M2]].
          -- right. left. destruct M as [M|[M|M]]; [destruct M; congruence|lia|]. repeat split; try lia. congruence.
          -- intro Q. destruct (M1 Q) as (? & _). congruence.
        * destruct (d k); [|destruct M; congruence].
          right. left. destruct M as [M|[M|M]]; [destruct M; congruence|lia|]. repeat split; try lia. congruence.
  Qed.

  Lemma GI_run ls : forall s, GI s -> GI (grun n s ls).
  Proof. induction ls as [|l ls IH]; intros s I; cbn; auto. apply IH. now apply GI_step. Qed.

  Lemma GI_waits s : GI s -> creation_waits n s.
  Proof.
    intros [L M] j m m' Hm Hm' J. set (R := g_ret s 0) in *.
    assert (B : (forall k, k < n -> g_ret s k <= R /\ R <= g_called s k) \/ (forall k, k < n -> g_ret s k <= S R /\ S R <= g_called s k)).
    { unfold cl_ok in L. fold R in L. destruct (g_lead s) as [| |rs i|d i] eqn:El.
      - left. intros [|k] Hk; [split; unfold R in *; lia|]. specialize (M (S k) ltac:(lia) Hk).
        unfold cm_ok, ready_for, waiting_in in M. rewrite El in M. fold R in M. lia.
      - left. intros [|k] Hk; [split; unfold R in *; lia|]. specialize (M (S k) ltac:(lia) Hk).
        unfold cm_ok, ready_for, waiting_in in M. rewrite El in M. fold R in M. lia.
      - left. intros [|k] Hk; [split; unfold R in *; lia|]. specialize (M (S k) ltac:(lia) Hk).
        unfold cm_ok, ready_for, waiting_in in M. rewrite El in M. fold R in M. lia.
      - right. intros [|k] Hk; [split; unfold R in *; lia|]. specialize (M (S k) ltac:(lia) Hk).
        unfold cm_ok, ready_for, waiting_in in M. rewrite El in M. fold R in M. destruct (d (S k)); lia. }
    destruct B as [B|B]; pose proof (B m Hm); pose proof (B m' Hm'); lia.
  Qed.

  (* ---- progress ---- *)
  Lemma grun_app s l1 l2 : grun n s (l1 ++ l2) = grun n (grun n s l1) l2.
  Proof. unfold grun. apply fold_left_app. Qed.

  Definition frame (s s' : gst) : Prop := g_called s' = g_called s /\ g_ret s' = g_ret s.

  (* from the unlock phase *)
  Lemma unlock_done s : GI s -> forall d i, g_lead s = CUnlock d i ->
    exists ls, g_ret (grun n s ls) 0 = S (g_ret s 0) /\ g_called (grun n s ls) = g_called s /\
               (forall m, 0 < m -> g_ret (grun n s ls) m = g_ret s m).
  Proof.
    intros I d i. remember (n - i) as r eqn:Er. revert s I d i Er. induction r as [|r IH]; intros s I d i Er El.
    - exists [ALead]. cbn [grun fold_left gstep]. rewrite El. rewrite (proj2 (Nat.ltb_ge i n)) by lia. cbn.
      rewrite ?fupd_same. repeat split; auto. intros. now rewrite fupd_other by lia.
    - pose proof (GI_step (AUnl i) I) as I1. pose proof (GI_step ALead I1) as I2.
      assert (Hi : i < n) by lia.
      assert (X : exists d', g_lead (gstep n (gstep n s (AUnl i)) ALead) = CUnlock d' (S i) /\
                frame s (gstep n (gstep n s (AUnl i)) ALead)).
      { cbn [gstep]. rewrite El. rewrite (proj2 (Nat.ltb_lt i n)) by lia. cbn [andb]. destruct (d i) eqn:Di; cbn [negb].
        - rewrite El, Di. rewrite (proj2 (Nat.ltb_lt i n)) by lia. exists d. repeat split.
        - cbn [g_lead]. rewrite (proj2 (Nat.ltb_lt i n)) by lia. rewrite fupd_same. eexists. repeat split. }
      destruct X as (d' & El' & F1 & F2). destruct (IH _ I2 d' (S i)) as (ls & A & B & C); [lia|exact El'|].
      exists (AUnl i :: ALead :: ls). cbn [grun fold_left]. unfold grun in *. rewrite A, B, F1, F2. repeat split; auto.
      intros m Hm. rewrite C by auto. now rewrite F2.
  Qed.

  Definition all_called (s : gst) : Prop := forall m, m < n -> S (g_ret s 0) <= g_called s m.

  Lemma sig_false s : GI s -> all_called s -> (match g_lead s with CStart | CPoll _ _ => True | _ => False end) ->
    forall m, m < n -> g_sig s m = Some false.
  Proof.
    intros [L M] A P [|m] Hm.
    - unfold cl_ok in L. destruct (g_lead s); try destruct P; tauto.
    - specialize (M (S m) ltac:(lia) Hm). specialize (A (S m) Hm). unfold cm_ok, ready_for, waiting_in in M.
      destruct (g_lead s); try destruct P; [destruct M as [M|[M|M]]|destruct M as [[M|[M|M]] _]]; try lia; apply M.
  Qed.

  (* polling with no negative answer so far *)
  Lemma poll_done s : GI s -> all_called s -> forall rs i, g_lead s = CPoll rs i ->
    (forall m, i <= m -> m < n -> rs m <> Some false) ->
    exists ls d, g_lead (grun n s ls) = CUnlock d 0 /\ frame s (grun n s ls) /\ GI (grun n s ls).
  Proof.
    intros I A rs i. remember (n - i) as r eqn:Er. revert s I A rs i Er. induction r as [|r IH]; intros s I A rs i Er El Nf.
    - exists [ALead], (fun _ => false). pose proof (GI_step ALead I) as I1. cbn [grun fold_left]. split; [|split; [|exact I1]].
      + cbn [gstep]. rewrite El. rewrite (proj2 (Nat.ltb_ge i n)) by lia. reflexivity.
      + cbn [gstep]. rewrite El. rewrite (proj2 (Nat.ltb_ge i n)) by lia. now split.
    - assert (Hi : i < n) by lia. pose proof (GI_step (AEval i) I) as I1. pose proof (GI_step ALead I1) as I2.
      assert (Sf : g_sig s i = Some false) by (apply sig_false; auto; now rewrite El).
      assert (X : exists rs', g_lead (gstep n (gstep n s (AEval i)) ALead) = CPoll rs' (S i) /\
                frame s (gstep n (gstep n s (AEval i)) ALead) /\ forall m, m <> i -> rs' m = rs m).
      { cbn [gstep]. rewrite El. destruct (rs i) as [[]|] eqn:Ri.
        - rewrite El, Ri. rewrite (proj2 (Nat.ltb_lt i n)) by lia. exists rs. repeat split.
        - exfalso. apply (Nf i); auto.
        - rewrite Sf. cbn [glead g_lead]. rewrite (proj2 (Nat.ltb_lt i n)) by lia. rewrite fupd_same. eexists. repeat split.
          intros m N. now rewrite fupd_other. }
      destruct X as (rs' & El' & [F1 F2] & Rs). destruct (IH _ I2) with (rs := rs') (i := S i) as (ls & d & B & [C1 C2] & D); auto; [|lia| |].
      + unfold all_called. rewrite F1, F2. exact A.
      + intros m Lm Ln. rewrite Rs by lia. apply Nf; lia.
      + exists (AEval i :: ALead :: ls), d. cbn [grun fold_left]. unfold grun in *. split; auto. split; auto.
        split; [rewrite C1; exact F1|rewrite C2; exact F2].
  Qed.

  Lemma to_unlock s : GI s -> all_called s -> g_lead s <> COut ->
    exists ls d i, g_lead (grun n s ls) = CUnlock d i /\ frame s (grun n s ls) /\ GI (grun n s ls).
  Proof.
    intros I A NO.
    assert (St : forall s, GI s -> all_called s -> g_lead s = CStart ->
               exists ls d i, g_lead (grun n s ls) = CUnlock d i /\ frame s (grun n s ls) /\ GI (grun n s ls)).
    { clear - Np. intros s I A El. pose proof (GI_step ALead I) as I1.
      assert (E1 : gstep n s ALead = glead (CPoll (fun _ => None) 0) s) by (cbn [gstep]; now rewrite El).
      rewrite E1 in I1.
      destruct (@poll_done (glead (CPoll (fun _ => None) 0) s) I1 A (fun _ => None) 0 eq_refl) as (ls & d & B & C & D); [discriminate|].
      exists (ALead :: ls), d, 0. unfold grun in *. cbn [fold_left]. rewrite E1. auto. }
    destruct (g_lead s) as [| |rs i|d i] eqn:El; [congruence|auto| |].
    - clear NO. remember (n - i) as r eqn:Er. revert s I A rs i Er El. induction r as [|r IH]; intros s I A rs i Er El.
      + destruct (poll_done I A El) as (ls & d & B & C & D); [intros; lia|]. exists ls, d, 0. auto.
      + assert (Hi : i < n) by lia. destruct (rs i) as [[]|] eqn:Ri.
        * pose proof (GI_step ALead I) as I1.
          assert (E1 : gstep n s ALead = glead (CPoll rs (S i)) s).
          { cbn [gstep]. rewrite El, Ri. now rewrite (proj2 (Nat.ltb_lt i n)) by lia. }
          rewrite E1 in I1. destruct (IH _ I1 A rs (S i)) as (ls & d & i' & B & C & D); [lia|reflexivity|].
          exists (ALead :: ls), d, i'. unfold grun in *. cbn [fold_left]. rewrite E1. auto.
        * pose proof (GI_step ALead I) as I1.
          assert (E1 : gstep n s ALead = glead CStart s).
          { cbn [gstep]. rewrite El, Ri. now rewrite (proj2 (Nat.ltb_lt i n)) by lia. }
          rewrite E1 in I1. destruct (St _ I1 A eq_refl) as (ls & d & i' & B & C & D).
          exists (ALead :: ls), d, i'. unfold grun in *. cbn [fold_left]. rewrite E1. auto.
        * pose proof (GI_step (AEval i) I) as I1. pose proof (GI_step ALead I1) as I2.
          assert (Sf : g_sig s i = Some false) by (apply sig_false; auto; now rewrite El).
          assert (E1 : gstep n (gstep n s (AEval i)) ALead = glead (CPoll (fupd rs i (Some true)) (S i)) s).
          { cbn [gstep]. rewrite El, Ri, Sf. cbn [glead g_lead]. rewrite (proj2 (Nat.ltb_lt i n)) by lia. now rewrite fupd_same. }
          rewrite E1 in I2. destruct (IH _ I2 A (fupd rs i (Some true)) (S i)) as (ls & d & i' & B & C & D); [lia|reflexivity|].
          exists (AEval i :: ALead :: ls), d, i'. unfold grun in *. cbn [fold_left]. rewrite E1. auto.
    - exists [], d, i. cbn. repeat split; auto; apply I.
  Qed.

  Lemma ret_all s j : GI s -> j <= g_ret s 0 -> forall k, k <= n ->
    exists ls, GI (grun n s ls) /\ j <= g_ret (grun n s ls) 0 /\ forall m, m < k -> j <= g_ret (grun n s ls) m.
  Proof.
    intros I Hj. induction k as [|k IH]; intro Hk.
    - exists []. cbn. repeat split; auto; try apply I. intros; lia.
    - destruct IH as (ls & I' & H0 & Hm); [lia|]. set (s1 := grun n s ls) in *.
      destruct (le_lt_dec j (g_ret s1 k)) as [Le|Lt].
      + exists ls. repeat split; auto; try apply I'. intros m Lm. destruct (Nat.eq_dec m k) as [->|]; auto. apply Hm. lia.
      + assert (K0 : 0 < k) by (destruct k; lia). destruct I' as [L' M']. pose proof (M' k K0 ltac:(lia)) as Mk.
        assert (W : g_sig s1 k = Some true /\ g_called s1 k = S (g_ret s1 k)  /\ S (g_ret s1 k) = g_ret s1 0).
        { unfold cm_ok, ready_for, waiting_in in Mk. destruct (g_lead s1) as [| |rs i|d i].
          - destruct Mk as [Mk|[Mk|Mk]]; try lia. repeat split; try lia. apply Mk.
          - destruct Mk as [Mk|[Mk|Mk]]; try lia. repeat split; try lia. apply Mk.
          - destruct Mk as [[Mk|[Mk|Mk]] _]; try lia. repeat split; try lia. apply Mk.
          - destruct (d k); lia. }
        destruct W as (W1 & W2 & W3). exists (ls ++ [ARet k]). rewrite grun_app. fold s1. cbn [grun fold_left].
        split; [apply GI_step; split; auto|]. cbn [gstep].
        rewrite W1, W2, Nat.eqb_refl, (proj2 (Nat.ltb_lt 0 k)), (proj2 (Nat.ltb_lt k n)) by lia. cbn.
        split; [rewrite fupd_other by lia; auto|]. intros m Lm. destruct (Nat.eq_dec m k) as [->|].
        * rewrite fupd_same. lia.
        * rewrite fupd_other by auto. apply Hm. lia.
  Qed.

  Lemma create_returns s j : GI s -> (forall m, m < n -> j <= g_called s m) ->
    exists ls, forall m, m < n -> j <= g_ret (grun n s ls) m.
  Proof.
    intros I E.
    assert (exists l0, GI (grun n s l0) /\ j <= g_ret (grun n s l0) 0) as (l0 & I0 & H0).
    { destruct (le_lt_dec j (g_ret s 0)) as [Le|Lt]; [exists []; cbn; split; auto; apply I|].
      assert (Q : j = S (g_ret s 0)).
      { specialize (E 0 Np). destruct I as [L _]. unfold cl_ok in L. destruct (g_lead s); lia. }
      assert (A : all_called s) by (intros m Hm; specialize (E m Hm); lia).
      assert (NO : g_lead s <> COut).
      { intro El. destruct I as [L _]. unfold cl_ok in L. rewrite El in L. specialize (E 0 Np). lia. }
      destruct (to_unlock I A NO) as (l1 & d & i & El & [F1 F2] & I1).
      destruct (unlock_done I1 El) as (l2 & R0 & _). exists (l1 ++ l2). rewrite grun_app. split; [now apply GI_run|].
      rewrite R0, F2. lia. }
    destruct (@ret_all (grun n s l0) j I0 H0 n (le_n n)) as (ls & _ & _ & Hm). exists (l0 ++ ls). rewrite grun_app. auto.
  Qed.
End Cr.
