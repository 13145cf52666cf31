(* Alignment of the MADDPG buffers: storing does not depend on the stored values. *)
From Verif Require Import Lib.Base Model.Buffer Model.Maddpg Spec.MaddpgSpec Proofs.BufferProofs Proofs.BufferDict.
Set Implicit Arguments.

Section Rel.
  Variables (A B : Type) (P : A -> B -> Prop).
  Definition srel (g : storage A) (s : storage B) : Prop :=
    st_cap g = st_cap s /\ st_idx g = st_idx s /\ Forall2 P (st_data g) (st_data s).
  Lemma F2_len {C D} (Q : C -> D -> Prop) l m : Forall2 Q l m -> length l = length m.
  Proof. induction 1; cbn; auto. Qed.
  Lemma F2_upd l m p x y : Forall2 P l m -> P x y -> Forall2 P (upd p x l) (upd p y m).
  Proof. intros F. revert p. induction F; intros [|p] H1; cbn; constructor; auto. Qed.
  Lemma srel_store1 g s x y : srel g s -> P x y ->
    srel (fst (st_store1 g x)) (fst (st_store1 s y)) /\ snd (st_store1 g x) = snd (st_store1 s y).
  Proof.
    intros (C & I & F) H. pose proof (F2_len F) as L. unfold st_store1. rewrite C, I, L.
    destruct (length (st_data s) =? st_cap s).
    - destruct (st_idx s <? length (st_data s)); cbn; split; auto; repeat split; auto.
      apply F2_upd; auto.
    - destruct (length (st_data s) <? st_cap s); cbn; split; auto; repeat split; auto.
      apply Forall2_app; auto.
  Qed.
  Lemma srel_loop xs ys : Forall2 P xs ys -> forall g s, srel g s ->
    srel (fst (st_store_loop g xs)) (fst (st_store_loop s ys)) /\
    snd (st_store_loop g xs) = snd (st_store_loop s ys).
  Proof.
    induction 1 as [|x y xs ys H F IH]; intros g s R; cbn; [auto|].
    destruct (srel_store1 R H) as [R1 E1].
    destruct (st_store1 g x) as [g1 r1], (st_store1 s y) as [s1 r2]; cbn in *. subst r2.
    destruct r1 as [p|e]; cbn; auto.
    destruct (IH _ _ R1) as [R2 E2].
    destruct (st_store_loop g1 xs) as [g2 q1], (st_store_loop s1 ys) as [s2 q2]; cbn in *. subst q2.
    destruct q1; cbn; auto.
  Qed.
  Lemma srel_store g s xs ys : srel g s -> Forall2 P xs ys ->
    srel (fst (st_store_episode g xs)) (fst (st_store_episode s ys)).
  Proof.
    intros R F. destruct (srel_loop F R) as [R1 E1]. unfold st_store_episode.
    destruct (st_store_loop g xs) as [g2 q1], (st_store_loop s ys) as [s2 q2]; cbn in *. subst q2.
    destruct q1 as [ps|]; cbn; auto. destruct (has_dup ps); cbn; auto.
  Qed.
End Rel.

Section Aligned.
  Context {T : Type}.
  Variable ok : T -> bool.
  Variables agents cap : nat.
  Hypothesis Hcap : 0 < cap.
  Hypothesis Hag : 0 < agents.
  Variable H : list (list (list T)).

  (* store_episodes refuses the joint episode before touching any buffer *)
  Definition refused (je : list (list T)) : Prop :=
    length je <> agents \/ (exists e e', In e je /\ In e' je /\ length e <> length e') \/ (forall e, In e je -> e = []).
  Definition proper (je : list (list T)) : Prop :=
    length je = agents /\
    exists n, 0 < n <= cap /\ forall e, In e je -> length e = n /\ forallb ok e = true.

  Definition reachable (b : buffer T) : Prop := exists os, b = b_run ok (b_new cap) os.
  Lemma reachable_store b e : reachable b -> reachable (fst (b_store_episode ok b e)).
  Proof. intros (os & ->). exists (os ++ [BStore e]). unfold b_run. now rewrite fold_left_app. Qed.
  Lemma reachable_accepts b e : reachable b -> e <> [] -> forallb ok e = true -> length e <= cap ->
    snd (b_store_episode ok b e) = Ok tt.
  Proof. intros (os & ->). apply run_any_accepts; auto. Qed.
  Lemma accept_storage b e : snd (b_store_episode ok b e) = Ok tt ->
    b_st (fst (b_store_episode ok b e)) = fst (st_store_episode (b_st b) e).
  Proof.
    unfold b_store_episode. destruct e as [|x e]; [discriminate|].
    destruct (negb (forallb ok (x :: e))); [discriminate|].
    destruct (st_store_episode (b_st b) (x :: e)) as [s1 [hs|er]]; [|discriminate].
    destruct (claim (b_cnt b) hs (b_ten b) (b_eth b)) as [[t1 e1]|]; [reflexivity|discriminate].
  Qed.

  Definition inv (g : storage (nat * nat)) (bs : list (buffer T)) : Prop :=
    length bs = agents /\
    forall a b, nth_error bs a = Some b ->
      reachable b /\ srel (fun tg x => step_of H (fst tg) (snd tg) a = Some x) g (b_st b).

  Lemma store_each_ok g n : forall bs je a0, length je = length bs -> 0 < n <= cap ->
    (forall e, In e je -> length e = n /\ forallb ok e = true) ->
    (forall a b, nth_error bs a = Some b ->
      reachable b /\ srel (fun tg x => step_of H (fst tg) (snd tg) (a0 + a) = Some x) g (b_st b)) ->
    forall k, (forall a e t, nth_error je a = Some e -> step_of H k t (a0 + a) = nth_error e t) ->
    exists bs', store_each ok bs je = (bs', Ok tt) /\ length bs' = length bs /\
      forall a b, nth_error bs' a = Some b ->
        reachable b /\ srel (fun tg x => step_of H (fst tg) (snd tg) (a0 + a) = Some x)
                         (fst (st_store_episode g (map (pair k) (seq 0 n)))) (b_st b).
  Proof.
    induction bs as [|b bs IH]; intros [|e je] a0 L Hn He Hb k Hk; cbn in L; try lia; cbn [store_each].
    - exists []. split; auto. split; auto. intros [|a] b E; discriminate.
    - destruct (He e (or_introl eq_refl)) as [Le Oe]. destruct (Hb 0 b eq_refl) as [Rb Sb].
      rewrite Nat.add_0_r in Sb.
      assert (Ee : snd (b_store_episode ok b e) = Ok tt).
      { apply reachable_accepts; auto; [|lia]. intros ->. cbn in Le. lia. }
      pose proof (accept_storage _ _ Ee) as Es. pose proof (reachable_store e Rb) as Rb1.
      destruct (b_store_episode ok b e) as [b1 r1]; cbn in Ee, Es, Rb1. subst r1.
      destruct (IH je (S a0)) with (k := k) as (bs' & E & L' & G); try lia.
      + intros e' I. apply He. now right.
      + intros a b' Ea. replace (S a0 + a) with (a0 + S a) by lia. apply (Hb (S a)). exact Ea.
      + intros a e' t Ea. replace (S a0 + a) with (a0 + S a) by lia. apply (Hk (S a)). exact Ea.
      + rewrite E. exists (b1 :: bs'). split; auto. split; [cbn; lia|].
        intros [|a] b' Ea; cbn in Ea.
        * injection Ea as <-. split; auto. rewrite Nat.add_0_r, Es. apply srel_store; auto.
          assert (Q : forall t, step_of H k t a0 = nth_error e t).
          { intros t. specialize (Hk 0 e t eq_refl). now rewrite Nat.add_0_r in Hk. }
          rewrite <- Le. clear - Q.
          assert (G : forall pre suf, e = pre ++ suf ->
            Forall2 (fun tg x => step_of H (fst tg) (snd tg) a0 = Some x) (map (pair k) (seq (length pre) (length suf))) suf).
          { intros pre suf. revert pre. induction suf as [|x suf IH]; intros pre E; cbn; constructor.
            - cbn. rewrite Q, E, nth_error_app2, Nat.sub_diag by lia. reflexivity.
            - specialize (IH (pre ++ [x])). rewrite app_length, Nat.add_1_r in IH. apply IH.
              now rewrite <- app_assoc. }
          apply (G [] e eq_refl).
        * replace (a0 + S a) with (S a0 + a) by lia. apply G. exact Ea.
  Qed.

  Lemma refused_noop g bs je : inv g bs -> refused je -> fst (store_episodes ok bs je) = bs.
  Proof.
    intros [L I] R. unfold store_episodes. destruct (Nat.eqb_spec (length je) (length bs)) as [El|]; [|reflexivity].
    cbn [negb]. destruct (all_same_length je) eqn:Es; [|reflexivity]. cbn [negb].
    assert (S : forall e e', In e je -> In e' je -> length e = length e').
    { destruct je as [|e0 je]; [cbn in Es; discriminate|]. cbn in Es. rewrite forallb_forall in Es.
      assert (G : forall e, In e (e0 :: je) -> length e = length e0).
      { intros e [->|Ie]; auto. apply Nat.eqb_eq, Es, Ie. }
      intros e e' I1 I2. rewrite (G e I1), (G e' I2). reflexivity. }
    destruct R as [R|[(e & e' & I1 & I2 & N)|R]]; [congruence|exfalso; apply N; auto|].
    destruct bs as [|b bs], je as [|e je]; cbn in *; auto; try lia.
    rewrite (R e (or_introl eq_refl)). reflexivity.
  Qed.
  Lemma proper_step g bs k je : inv g bs -> nth_error H k = Some je -> proper je ->
    exists bs' g', store_episodes ok bs je = (bs', Ok tt) /\ inv g' bs'.
  Proof.
    intros [L I] Ek [Lj (n & Hn & He)]. unfold store_episodes. rewrite Lj, L, Nat.eqb_refl. cbn [negb].
    assert (Es : all_same_length je = true).
    { destruct je as [|e0 je]; [cbn in Lj; lia|]. cbn. apply forallb_forall. intros e Ie. apply Nat.eqb_eq.
      rewrite (proj1 (He e (or_intror Ie))), (proj1 (He e0 (or_introl eq_refl))). auto. }
    rewrite Es. cbn [negb].
    destruct (@store_each_ok g n bs je 0 ltac:(lia) Hn He I k) as (bs' & E & L' & G).
    - intros a e t Ea. unfold step_of. rewrite Ek. cbn [Nat.add]. now rewrite Ea.
    - exists bs', (fst (st_store_episode g (map (pair k) (seq 0 n)))). split; auto. split; [lia|exact G].
  Qed.

  Lemma run_aligned : forall h pre, H = pre ++ h -> (forall je, In je h -> refused je \/ proper je) ->
    forall g bs, inv g bs -> exists g', inv g' (mb_run ok bs h).
  Proof.
    induction h as [|je h IH]; intros pre EH Hh g bs I; cbn.
    - exists g. exact I.
    - assert (Ek : nth_error H (length pre) = Some je).
      { rewrite EH, nth_error_app2, Nat.sub_diag by lia. reflexivity. }
      assert (Hnext : forall g' bs', inv g' bs' -> exists g'', inv g'' (mb_run ok bs' h)).
      { intros g' bs' I'. apply (IH (pre ++ [je])) with (g := g'); auto.
        - now rewrite <- app_assoc.
        - intros je' Ij. apply Hh. now right. }
      destruct (Hh je (or_introl eq_refl)) as [R|P].
      + unfold mb_run in *. rewrite (refused_noop I R). apply (Hnext g bs I).
      + destruct (proper_step _ I Ek P) as (bs' & g' & E & I'). unfold mb_run in *. rewrite E. cbn [fst].
        apply (Hnext g' bs' I').
  Qed.
  Lemma inv_new : inv (st_new cap) (mb_new agents cap).
  Proof.
    split; [apply repeat_length|]. intros a b E. apply nth_error_In, repeat_spec in E. subst b.
    split; [exists []; reflexivity|]. repeat split; constructor.
  Qed.

  Lemma inv_sizes g bs : inv g bs -> forall b, In b bs -> b_size b = length (st_data g).
  Proof.
    intros [_ I] b Ib. apply In_nth_error in Ib as (a & Ea). destruct (I a b Ea) as [_ (_ & _ & F)].
    symmetry. apply (F2_len F).
  Qed.
  Lemma F2_nth {C D} (Q : C -> D -> Prop) l m i x : Forall2 Q l m -> nth_error l i = Some x ->
    exists y, nth_error m i = Some y /\ Q x y.
  Proof. intros F. revert i. induction F; intros [|i] E; cbn in *; try discriminate; eauto. injection E as <-. eauto. Qed.
  Lemma inv_position g bs i : inv g bs -> i < length (st_data g) ->
    exists k t, forall a b, nth_error bs a = Some b -> exists x, nth_error (st_data (b_st b)) i = Some x /\ step_of H k t a = Some x.
  Proof.
    intros [_ I] Hi. destruct (nth_error (st_data g) i) as [[k t]|] eqn:E; [|apply nth_error_None in E; lia].
    exists k, t. intros a b Ea. destruct (I a b Ea) as [_ (_ & _ & F)].
    destruct (F2_nth _ F E) as (x & Ex & Hx). exists x. auto.
  Qed.

  Lemma sample_method_spec (b : buffer T) indexes : (forall i, In i indexes -> i < b_size b) ->
    exists xs, sample_method indexes b = Ok (length indexes, xs) /\ length xs = length indexes /\
      (forall j i, nth_error indexes j = Some i -> nth_error xs j = nth_error (st_data (b_st b)) i).
  Proof.
    intros Hi. unfold sample_method.
    assert (E : filter (fun i => i <? b_size b) indexes = indexes).
    { clear - Hi. induction indexes as [|i l IH]; cbn [filter]; auto.
      destruct (Nat.ltb_spec i (b_size b)); [|specialize (Hi i (or_introl eq_refl)); lia].
      f_equal. apply IH. intros; apply Hi; right; auto. }
    rewrite E. destruct (@index_all_ok _ (st_data (b_st b)) indexes) as (xs & Ex & L & G).
    { intros i Ii. apply Hi; auto. }
    rewrite Ex. cbn. exists xs. rewrite L. auto.
  Qed.
  Lemma sample_each_spec indexes : forall bs : list (buffer T), (forall b i, In b bs -> In i indexes -> i < b_size b) ->
    exists batches, sample_each (length indexes) indexes bs = Ok batches /\ length batches = length bs /\
      (forall a b xs, nth_error bs a = Some b -> nth_error batches a = Some xs ->
        length xs = length indexes /\
        forall j i, nth_error indexes j = Some i -> nth_error xs j = nth_error (st_data (b_st b)) i).
  Proof.
    induction bs as [|b bs IH]; intros Hi; cbn [sample_each].
    - exists []. repeat split; auto; destruct a; discriminate.
    - destruct (@sample_method_spec b indexes) as (xs & E & L & G). { intros i Ii. apply Hi; [left|]; auto. }
      rewrite E. cbn [bind]. rewrite Nat.eqb_refl.
      destruct IH as (bt & E' & L' & G'). { intros b' i Ib Ii. apply Hi; [right|]; auto. }
      rewrite E'. cbn [bind]. exists (xs :: bt). split; auto. split; [cbn; lia|].
      intros [|a] b' ys Ea Eb; cbn in *; [injection Ea as <-; injection Eb as <-; auto|]. eapply G'; eauto.
  Qed.
End Aligned.
