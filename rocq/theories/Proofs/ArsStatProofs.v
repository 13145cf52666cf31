(* Running statistics and the filter protocol of ARS. *)
From Coq Require Import QArith Permutation.
From Verif Require Import Lib.Rat Model.Losses Model.Ars Spec.ArsSpec Proofs.ProjectProofs.
Close Scope Q_scope.
Open Scope nat_scope.
Set Implicit Arguments.

Definition sq (xs : list Qc) : Qc := qsum (map (fun x => x * x)%Qc xs).
Lemma sq_app a b : sq (a ++ b) = (sq a + sq b)%Qc.
Proof. unfold sq. now rewrite map_app, qsum_app. Qed.
Lemma nq_neq n : 0 < n -> nq n <> 0%Qc.
Proof. intros. apply Qcpos_neq, nq_pos; auto. Qed.

Lemma dev_sum c xs : qsum (map (fun x => (x - c) * (x - c))%Qc xs) = (sq xs - (c + c) * qsum xs + nq (length xs) * c * c)%Qc.
Proof.
  unfold sq. induction xs as [|x xs IH].
  - cbn. rewrite nq_0. ring.
  - cbn [map qsum length]. rewrite IH, nq_S. ring.
Qed.
Lemma sqdev_alt xs : sqdev xs = (sq xs - qsum xs * qsum xs / nq (length xs))%Qc.
Proof.
  unfold sqdev. rewrite dev_sum. unfold mean_of. destruct xs as [|x xs].
  - reflexivity.
  - assert (nq (length (x :: xs)) <> 0%Qc) by (apply nq_neq; cbn; lia). field; auto.
Qed.
Lemma qsum_perm a b : Permutation a b -> qsum a = qsum b.
Proof. induction 1; cbn; auto; [congruence | ring | congruence]. Qed.
Lemma sq_perm a b : Permutation a b -> sq a = sq b.
Proof. intros. apply qsum_perm, Permutation_map; auto. Qed.

Definition represents (r : rstat) (xs : list Qc) : Prop :=
  rn r = length xs /\ rM r = mean_of xs /\ rS r = sqdev xs.
Lemma represents_perm r a b : Permutation a b -> represents r a -> represents r b.
Proof.
  intros P (H1 & H2 & H3). repeat split.
  - rewrite H1. apply Permutation_length; auto.
  - rewrite H2. unfold mean_of. now rewrite (qsum_perm P), (Permutation_length P).
  - rewrite H3, !sqdev_alt. now rewrite (qsum_perm P), (sq_perm P), (Permutation_length P).
Qed.
Lemma represents_new : represents rs_new [].
Proof. repeat split. Qed.

Lemma push_represents r xs x : represents r xs -> represents (push r x) (xs ++ [x]).
Proof.
  intros (H1 & H2 & H3). unfold push. rewrite H1.
  destruct (Nat.eqb_spec (S (length xs)) 1).
  - destruct xs; [|cbn in *; lia]. repeat split; cbn [rn rM rS].
    + unfold mean_of. cbn. change (nq 1) with 1%Qc. field. discriminate.
    + rewrite H3, !sqdev_alt. cbn. change (nq 0) with 0%Qc. change (nq 1) with 1%Qc.
      unfold sq. cbn. replace (0 * 0 / 0)%Qc with 0%Qc by reflexivity. field. discriminate.
  - assert (Hn : 0 < length xs) by lia. pose proof (nq_neq Hn) as N.
    assert (N' : nq (S (length xs)) <> 0%Qc) by (apply nq_neq; lia).
    repeat split; cbn [rn rM rS].
    + rewrite app_length. cbn. lia.
    + rewrite H2. unfold mean_of. rewrite qsum_app, app_length. cbn [qsum length].
      replace (length xs + 1) with (S (length xs)) by lia. rewrite nq_S in *. field. auto.
    + rewrite H3, H2, !sqdev_alt, sq_app, qsum_app, app_length. unfold mean_of, sq at 3.
      cbn [qsum length map].
      replace (length xs + 1) with (S (length xs)) by lia. rewrite nq_S in *. field. auto.
Qed.
Lemma pushes_represents xs : forall r ys, represents r ys -> represents (pushes r xs) (ys ++ xs).
Proof.
  induction xs as [|x xs IH]; intros r ys H; cbn.
  - now rewrite app_nil_r.
  - replace (ys ++ x :: xs) with ((ys ++ [x]) ++ xs) by now rewrite <- app_assoc.
    apply IH, push_represents; auto.
Qed.

Lemma merge_represents a b xs ys : represents a xs -> represents b ys -> xs ++ ys <> [] ->
  exists r, merge a b = Some r /\ represents r (xs ++ ys).
Proof.
  intros (H1 & H2 & H3) (G1 & G2 & G3) Hne. unfold merge. rewrite H1, G1, H2, G2, H3, G3.
  assert (Hl : 0 < length xs + length ys).
  { rewrite <- app_length. destruct (xs ++ ys); [congruence|cbn; lia]. }
  destruct (Nat.eqb_spec (length xs + length ys) 0); [lia|].
  eexists. split; [reflexivity|].
  pose proof (nq_neq Hl) as N.
  assert (Z0 : forall x : Qc, (x / nq 0 = 0)%Qc) by (intros; unfold Qcdiv; change (/ nq 0)%Qc with 0%Qc; ring).
  repeat split; cbn [rn rM rS].
  - now rewrite app_length.
  - unfold mean_of. rewrite qsum_app, app_length.
    destruct xs as [|x xs]; [|destruct ys as [|y ys]].
    + cbn [length qsum Nat.add] in *. rewrite !Z0. rewrite nq_0. field. auto.
    + cbn [length qsum] in *. rewrite !Z0. rewrite !Nat.add_0_r in *. rewrite nq_0. field. auto.
    + assert (nq (length (x :: xs)) <> 0%Qc) by (apply nq_neq; cbn; lia).
      assert (nq (length (y :: ys)) <> 0%Qc) by (apply nq_neq; cbn; lia).
      rewrite nq_add in *. field. auto.
  - rewrite !sqdev_alt, sq_app, qsum_app, app_length. unfold mean_of.
    destruct xs as [|x xs]; [|destruct ys as [|y ys]].
    + cbn [length qsum Nat.add] in *. rewrite !Z0. rewrite nq_0. unfold sq at 1 3. cbn. field. auto.
    + cbn [length qsum] in *. rewrite !Z0. rewrite !Nat.add_0_r in *. rewrite nq_0.
      unfold sq at 2 4. cbn. field. auto.
    + assert (nq (length (x :: xs)) <> 0%Qc) by (apply nq_neq; cbn; lia).
      assert (nq (length (y :: ys)) <> 0%Qc) by (apply nq_neq; cbn; lia).
      rewrite nq_add in *. field. auto.
Qed.
Lemma represents_var r xs : represents r xs -> 2 <= length xs -> var r = unbiased_var xs.
Proof.
  intros (H1 & H2 & H3) L. unfold var, unbiased_var. rewrite H1, H3.
  destruct (Nat.ltb_spec 1 (length xs)); [reflexivity|lia].
Qed.
Lemma represents_var1 r xs : represents r xs -> length xs < 2 -> var r = (mean_of xs * mean_of xs)%Qc.
Proof.
  intros (H1 & H2 & H3) L. unfold var. rewrite H1, H2.
  destruct (Nat.ltb_spec 1 (length xs)); [lia|reflexivity].
Qed.

(* ---- filter calls ---- *)
Section Filter.
  Variables (D : Type) (sd : Qc -> D) (d_one : D).
  Notation filt := (filt D).

  (* observations recorded by a sequence of calls, and those recorded up to the last Apply *)
  Fixpoint seen (ops : list fop) : list Qc :=
    match ops with
    | [] => [] | Filter x true :: r => x :: seen r | _ :: r => seen r
    end.
  Lemma seen_app a b : seen (a ++ b) = seen a ++ seen b.
  Proof. induction a as [|[x []|] a IH]; cbn; auto. now rewrite IH. Qed.
  Lemma frun_app (f : filt) a b : frun sd f (a ++ b) = frun sd (frun sd f a) b.
  Proof. revert f. induction a as [|[x u|] a IH]; intros f; cbn; auto. Qed.

  Lemma frun_rs ops : forall (f : filt) xs, represents (f_rs f) xs -> represents (f_rs (frun sd f ops)) (xs ++ seen ops).
  Proof.
    induction ops as [|[x []|] ops IH]; intros f xs H; cbn [frun seen].
    - now rewrite app_nil_r.
    - replace (xs ++ x :: seen ops) with ((xs ++ [x]) ++ seen ops) by now rewrite <- app_assoc.
      apply IH. cbn. apply push_represents; auto.
    - apply IH. cbn. auto.
    - apply IH. cbn. auto.
  Qed.
  Lemma frun_std_frozen ops : ~ In Apply ops -> forall f : filt, f_std (frun sd f ops) = f_std f.
  Proof.
    induction ops as [|[x u|] ops IH]; intros HA f; cbn [frun].
    - reflexivity.
    - rewrite IH; [destruct u; reflexivity|]. intros I. apply HA. now right.
    - exfalso. apply HA. now left.
  Qed.
  Lemma frun_mref ops : ~ In Apply ops -> forall f : filt, f_mean (frun sd f ops) = f_mean f.
  Proof.
    induction ops as [|[x u|] ops IH]; intros HA f; cbn [frun].
    - reflexivity.
    - rewrite IH; [destruct u; reflexivity|]. intros I. apply HA. now right.
    - exfalso. apply HA. now left.
  Qed.

  (* ---- members ---- *)
  Definition holds (f : filt) (xs ys : list Qc) := represents (f_rs f) xs /\ represents (f_local f) ys.
  Lemma acts_some xs : forall (f : filt) a b, holds f a b ->
    exists g, acts d_one (Some f) xs = Some g /\ holds g (a ++ xs) (b ++ xs).
  Proof.
    induction xs as [|x xs IH]; intros f a b H; cbn.
    - exists f. now rewrite !app_nil_r.
    - destruct H as [H1 H2].
      destruct (IH (fst (filter_call f x true)) (a ++ [x]) (b ++ [x])) as (g & E & G).
      { split; cbn; apply push_represents; auto. }
      exists g. split; [exact E|]. rewrite <- !app_assoc in G. exact G.
  Qed.
  Lemma acts_none xs : xs <> [] -> exists g, acts d_one None xs = Some g /\ holds g xs xs.
  Proof.
    destruct xs as [|x xs]; [congruence|]. intros _. cbn.
    destruct (@acts_some xs (fst (filter_call (f_new d_one) x true)) [x] [x]) as (g & E & G).
    { split; cbn; apply (@push_represents rs_new []); apply represents_new. }
    exists g. auto.
  Qed.

  (* every member's filter holds the merged observations *)
  Definition merged (ms : list (member D)) (xs : list Qc) : Prop :=
    Forall (fun m => exists f, m = Some f /\ holds f xs []) ms.

  Lemma collect_all_spec ms : forall (f : filt) xs os, represents (f_rs f) xs -> xs <> [] ->
    Forall2 (fun m o => exists g a, m = Some g /\ holds g a o) ms os ->
    exists f', collect_all f ms = COk f' /\ represents (f_rs f') (xs ++ concat os).
  Proof.
    induction ms as [|m ms IH]; intros f xs os H Hne F; inversion F as [|? o ? os' (g & a & -> & [Hg1 Hg2]) F']; subst; cbn.
    - exists f. now rewrite app_nil_r.
    - unfold collect. destruct (merge_represents H Hg2) as (r & E & R).
      { destruct xs; [congruence|discriminate]. }
      rewrite E. destruct (IH (rebind f r) (xs ++ o) os') as (f' & E' & R'); auto.
      + destruct xs; [congruence|discriminate].
      + exists f'. split; auto. rewrite <- app_assoc in R'. exact R'.
  Qed.
  Lemma sync_all_spec (g : filt) xs ws : holds g xs [] -> Forall (fun m => m <> None) ws ->
    exists ws', sync_all sd (Some g) ws = Ok ws' /\ length ws' = length ws /\ merged ws' xs.
  Proof.
    intros H. induction ws as [|w ws IH]; intros F; cbn.
    - exists []. repeat split; constructor.
    - inversion F as [|? ? Hw F']; subst. destruct w as [f|]; [|congruence]. cbn.
      destruct (IH F') as (ws' & E & L & M). rewrite E. cbn.
      exists (Some (apply_stats sd (sync f g)) :: ws'). repeat split; cbn; [lia|].
      constructor; auto. eexists. split; [reflexivity|]. exact H.
  Qed.
  Lemma merged_not_none ms xs : merged ms xs -> Forall (fun m => m <> None) ms.
  Proof. intros F. eapply Forall_impl; [|exact F]. intros m (f & -> & _). discriminate. Qed.

  (* one round in which the filter exists everywhere after acting *)
  Lemma round_spec (mg : filt) ws a os : represents (f_rs mg) a -> a <> [] ->
    Forall2 (fun m o => exists g b, m = Some g /\ holds g b o) (Some mg :: ws) os ->
    exists ms', filter_round sd (Some mg :: ws) = Ok ms' /\ length ms' = S (length ws) /\ merged ms' (a ++ concat os).
  Proof.
    intros H Hne F. destruct (collect_all_spec _ H Hne F) as (f' & E & R).
    unfold filter_round. rewrite E.
    assert (Hg : holds (clear_local (apply_stats sd f')) (a ++ concat os) []).
    { split; [exact R|apply represents_new]. }
    assert (Fw : Forall (fun m => m <> None) ws).
    { inversion F as [|? ? ? ? _ F']; subst. clear -F'.
      induction F' as [|m o ? ? (g & b & -> & _)]; constructor; auto. discriminate. }
    destruct (sync_all_spec Hg Fw) as (ws' & E' & L & M). rewrite E'. cbn [bind].
    eexists. split; [reflexivity|]. split; [cbn; lia|]. constructor; auto. eexists; eauto.
  Qed.

  Definition fresh (ms : list (member D)) : Prop := Forall (fun m => m = None) ms.

  (* what the histories add: the manager's observations come twice *)
  Definition round_obs (o : list (list Qc)) : list Qc := hd [] o ++ concat o.

  Lemma fold_acts_nil (m : member D) : acts d_one m [] = m. Proof. reflexivity. Qed.

  Lemma round_merged ms xs o : merged ms xs -> xs <> [] -> length o = length ms ->
    exists ms', filter_round sd (map2 (acts d_one) ms o) = Ok ms' /\ length ms' = length ms /\
      (ms <> [] -> merged ms' (xs ++ round_obs o)).
  Proof.
    intros M Hne L. destruct ms as [|m ms]; destruct o as [|o0 os]; cbn in L; try lia.
    - exists []. repeat split; auto. congruence.
    - inversion M as [|? ? (f & -> & Hf) Mw]; subst. cbn [map2].
      destruct (acts_some o0 Hf) as (g & Eg & [G1 G2]). rewrite Eg.
      assert (F : Forall2 (fun m o => exists g b, m = Some g /\ holds g b o)
                    (Some g :: map2 (acts d_one) ms os) (o0 :: os)).
      { constructor; [exists g, (xs ++ o0); split; auto; split; auto|].
        assert (L' : length os = length ms) by lia. clear -Mw L'. revert os L'.
        induction Mw as [|m ms (f & -> & Hf) Mw IH]; intros [|o os] L'; cbn in L'; try lia; cbn; constructor.
        - destruct (acts_some o Hf) as (g & E & G). exists g, (xs ++ o). auto.
        - apply IH; lia. }
      destruct (@round_spec g (map2 (acts d_one) ms os) (xs ++ o0) (o0 :: os) G1) as (ms' & E & L' & M'); auto.
      { destruct xs; [congruence|discriminate]. }
      exists ms'. split; [exact E|]. split.
      + rewrite L', map2_length by (cbn in *; lia). reflexivity.
      + intros _. unfold round_obs. cbn [hd]. rewrite app_assoc. exact M'.
  Qed.

  Lemma sync_all_none ws : (exists r, sync_all sd None ws = Ok r) <-> Forall (fun m => m = None) ws.
  Proof.
    induction ws as [|w ws IH]; cbn.
    - split; eauto.
    - destruct w as [f|]; cbn.
      + split; [intros (r & E); discriminate|]. intros F. inversion F; discriminate.
      + destruct (sync_all sd None ws) as [r|] eqn:E; cbn.
        * split; [intros _; constructor; auto; apply IH; eauto | eauto].
        * split; [intros (r & E'); discriminate|]. intros F. inversion F; subst.
          destruct (proj2 IH) as (r & E'); auto. discriminate.
  Qed.
  Lemma sync_all_none_id ws r : sync_all sd None ws = Ok r -> r = ws.
  Proof.
    revert r. induction ws as [|w ws IH]; cbn; intros r E; [congruence|].
    destruct w as [f|]; cbn in E; [discriminate|].
    destruct (sync_all sd None ws); cbn in E; [|discriminate]. injection E as <-. f_equal. now apply IH.
  Qed.
  Lemma collect_all_none (f : filt) ms r : collect_all f ms = COk r -> Forall (fun m => m <> None) ms.
  Proof.
    revert f. induction ms as [|[g|] ms IH]; intros f E; cbn in E; try discriminate; constructor; try discriminate.
    destruct (collect f g); [|discriminate]. eauto.
  Qed.

  Lemma map2_fresh_nil ms o : fresh ms -> length o = length ms -> concat o = [] -> map2 (acts d_one) ms o = ms.
  Proof.
    intros F. revert o. induction F as [|m ms -> F IH]; intros [|a o] L C; cbn in *; try lia; auto.
    apply app_eq_nil in C as [-> C]. rewrite fold_acts_nil. f_equal. apply IH; auto.
  Qed.

  (* a completing round from a fresh group: nothing observed, or everybody observed *)
  Lemma round_fresh ms o ms' : fresh ms -> length o = length ms -> ms <> [] ->
    filter_round sd (map2 (acts d_one) ms o) = Ok ms' ->
    length ms' = length ms /\
    ((fresh ms' /\ concat o = []) \/ (merged ms' (round_obs o) /\ hd [] o <> [])).
  Proof.
    intros Fr L Hne E. destruct ms as [|m ms]; [congruence|]. destruct o as [|o0 os]; [cbn in L; lia|].
    inversion Fr as [|? ? -> Frw]; subst. cbn [map2] in E. cbn in L.
    destruct o0 as [|x o0].
    - rewrite fold_acts_nil in E. cbn [filter_round] in E.
      destruct (sync_all sd None (map2 (acts d_one) ms os)) as [ws'|] eqn:Es; cbn in E; [|discriminate].
      injection E as <-. pose proof (proj1 (sync_all_none _) (ex_intro _ _ Es)) as N.
      apply sync_all_none_id in Es. subst ws'. split; [cbn; rewrite map2_length by lia; auto|].
      left. split; [constructor; auto|]. cbn [concat app].
      assert (L' : length os = length ms) by lia. clear -N L' Frw. revert os N L'.
      induction Frw as [|m ms -> F IH]; intros [|o os] N L'; cbn in *; try lia; auto.
      inversion N as [|? ? Nm N']; subst. destruct o; [|destruct (@acts_none (q :: o)) as (g & Eg & _); congruence].
      cbn. apply IH; auto.
    - destruct (@acts_none (x :: o0)) as (g & Eg & [G1 G2]); [discriminate|]. rewrite Eg in E.
      assert (C : exists f', collect_all g (Some g :: map2 (acts d_one) ms os) = COk f').
      { unfold filter_round in E. match type of E with context [collect_all ?a ?b] => destruct (collect_all a b) as [| |f0] eqn:C end; [discriminate|discriminate|]. exists f0. exact C. }
      destruct C as (f' & C). pose proof (collect_all_none _ _ C) as NN. inversion NN as [|? ? _ NN']; subst.
      assert (F : Forall2 (fun m o => exists g b, m = Some g /\ holds g b o)
                    (Some g :: map2 (acts d_one) ms os) ((x :: o0) :: os)).
      { constructor; [exists g, (x :: o0); split; auto; split; auto|].
        assert (L' : length os = length ms) by lia. clear -Frw L' NN'. revert os L' NN'.
        induction Frw as [|m ms -> F IH]; intros [|o os] L' NN'; cbn in *; try lia; constructor.
        - inversion NN' as [|? ? Nm N']; subst. destruct o; [exfalso; apply Nm; reflexivity|].
          destruct (@acts_none (q :: o)) as (g & E & G); [discriminate|]. exists g, (q :: o). auto.
        - apply IH; [lia|]. inversion NN'; auto. }
      destruct (@round_spec g (map2 (acts d_one) ms os) (x :: o0) ((x :: o0) :: os) G1) as (ms'' & E' & L' & M'); auto.
      { discriminate. }
      pose proof (eq_trans (eq_sym E') E) as E3. injection E3 as ->. split; [cbn; rewrite L', map2_length by lia; auto|].
      right. split; [exact M'|discriminate].
  Qed.

  Definition history_obs (h : list (list (list Qc))) : list Qc := concat (map round_obs h).

  Lemma rounds_merged h : forall ms xs, merged ms xs -> xs <> [] -> ms <> [] ->
    Forall (fun o => length o = length ms) h ->
    exists ms', rounds sd d_one ms h = Ok ms' /\ length ms' = length ms /\ merged ms' (xs ++ history_obs h).
  Proof.
    induction h as [|o h IH]; intros ms xs M Hx Hm F; cbn [rounds].
    - exists ms. unfold history_obs. cbn. rewrite app_nil_r. auto.
    - inversion F as [|? ? Lo F']; subst.
      destruct (round_merged o M Hx Lo) as (m1 & E & L & M1). rewrite E. cbn [bind].
      assert (m1 <> []) by (intros ->; destruct ms; cbn in L; [congruence|lia]).
      destruct (IH m1 (xs ++ round_obs o)) as (m2 & E2 & L2 & M2); auto.
      { destruct xs; [congruence|discriminate]. }
      { eapply Forall_impl; [|exact F']. cbn. intros; congruence. }
      exists m2. rewrite E2. repeat split; auto; [congruence|].
      unfold history_obs in *. cbn. rewrite app_assoc. exact M2.
  Qed.

  Lemma rounds_fresh h : forall ms, fresh ms -> ms <> [] -> Forall (fun o => length o = length ms) h ->
    forall ms', rounds sd d_one ms h = Ok ms' ->
    (fresh ms' /\ Forall (fun o => concat o = []) h) \/
    (merged ms' (history_obs h) /\ Exists (fun o => hd [] o <> []) h).
  Proof.
    induction h as [|o h IH]; intros ms Fr Hm F ms' E; cbn [rounds] in E.
    - injection E as <-. auto.
    - inversion F as [|? ? Lo F']; subst.
      destruct (filter_round sd (map2 (acts d_one) ms o)) as [m1|] eqn:E1; cbn in E; [|discriminate].
      destruct (round_fresh o Fr Lo Hm E1) as (L & H).
      assert (m1 <> []) by (intros ->; destruct ms; cbn in L; [congruence|lia]).
      assert (F1 : Forall (fun o => length o = length m1) h).
      { eapply Forall_impl; [|exact F']. cbn. intros; congruence. }
      destruct H as [[Fr1 C]|[M1 Hd]].
      + destruct (IH m1 Fr1 ltac:(auto) F1 ms' E) as [[G1 G2]|[G1 G2]]; [left|right]; auto.
        split; auto. unfold history_obs in *. cbn. unfold round_obs at 1. rewrite C, app_nil_r.
        destruct o as [|a o]; cbn; auto. cbn in C. apply app_eq_nil in C as [-> _]. exact G1.
      + right. destruct (@rounds_merged h m1 (round_obs o)) as (m2 & E2 & _ & M2); auto.
        { unfold round_obs. destruct (hd [] o); [congruence|discriminate]. }
        rewrite E2 in E. injection E as <-. split; [exact M2|]. now left.
  Qed.
End Filter.
