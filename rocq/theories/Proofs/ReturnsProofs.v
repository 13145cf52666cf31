From Verif Require Import Lib.Rat Model.Returns Spec.ReturnsSpec.
Open Scope nat_scope.
Set Implicit Arguments.

Lemma sumn_shift f a n : sumn f (S a) n = sumn (fun k => f (S k)) a n.
Proof. revert a; induction n; intros a; cbn; auto. now rewrite IHn. Qed.
Lemma sumn_scale c f a n : sumn (fun k => c * f k)%Qc a n = (c * sumn f a n)%Qc.
Proof. revert a; induction n; intros a; cbn; [ring|rewrite IHn; ring]. Qed.
Lemma sumn_plus f h a n : sumn (fun k => f k + h k)%Qc a n = (sumn f a n + sumn h a n)%Qc.
Proof. revert a; induction n; intros a; cbn; [ring|rewrite IHn; ring]. Qed.
Lemma rev_seq_S a n : rev (seq a (S n)) = (a + n) :: rev (seq a n).
Proof. rewrite seq_S, rev_app_distr. reflexivity. Qed.
Lemma Qcpower_S g k : Qcpower g (S k) = (g * Qcpower g k)%Qc.
Proof. reflexivity. Qed.

Section R.
  Context {S : Type}.
  Variable t0 : tr S.
  Notation "ep @ i" := (nth i ep t0) (at level 9).
  Implicit Types ep e : list (tr S).

  Lemma at_length i f ep : length (at_ i f ep) = length ep.
  Proof. unfold at_. destruct (nth_error ep i); auto. apply upd_length. Qed.
  Lemma at_same i f ep : i < length ep -> (at_ i f ep) @ i = f (ep @ i).
  Proof.
    intros L. unfold at_. destruct (nth_error ep i) eqn:N.
    - rewrite upd_nth, Nat.eqb_refl. apply Nat.ltb_lt in L as ->. cbn. f_equal.
      now rewrite (nth_error_nth _ _ t0 N).
    - apply nth_error_None in N. lia.
  Qed.
  Lemma at_other i f ep k : k <> i -> (at_ i f ep) @ k = ep @ k.
  Proof.
    intros L. unfold at_. destruct (nth_error ep i) eqn:N; auto.
    rewrite upd_nth. destruct (Nat.eqb_spec i k); [lia|]. reflexivity.
  Qed.
  Lemma rew_nth ep i : i < length ep -> rew ep i = tr_r (ep @ i).
  Proof. intros L. unfold rew. rewrite (nth_error_nth' ep t0 L). reflexivity. Qed.
  Lemma val_nth ep i : i < length ep -> val ep i = tr_value (ep @ i).
  Proof. intros L. unfold val. rewrite (nth_error_nth' ep t0 L). reflexivity. Qed.

  Lemma sbv_refl (a : tr S) : same_but_value a a.
  Proof. unfold same_but_value. destruct a; reflexivity. Qed.
  Lemma sbv_set (a b : tr S) v : same_but_value a b -> same_but_value a (set_value v b).
  Proof. unfold same_but_value. intros ->. destruct a; reflexivity. Qed.
  Lemma sbv_r (a b : tr S) : same_but_value a b -> tr_r b = tr_r a.
  Proof. unfold same_but_value. intros ->. reflexivity. Qed.

  Lemma disc_sum_S g ep i m :
    disc_sum t0 g ep i (Datatypes.S m) = (tr_r (ep @ i) + g * disc_sum t0 g ep (Datatypes.S i) m)%Qc.
  Proof.
    unfold disc_sum. cbn [sumn]. rewrite sumn_shift, Nat.add_0_r. change (Qcpower g 0) with 1%Qc.
    rewrite <- sumn_scale. f_equal; [ring|]. apply sumn_ext. intros k _.
    rewrite Qcpower_S. replace (i + Datatypes.S k) with (Datatypes.S i + k) by lia. ring.
  Qed.
  Lemma disc_sum_snoc g ep i m :
    disc_sum t0 g ep i (Datatypes.S m) = (disc_sum t0 g ep i m + Qcpower g m * tr_r (ep @ (i + m)))%Qc.
  Proof. unfold disc_sum. now rewrite sumn_S_r. Qed.

  (* ---------------- RAINBOW ---------------- *)
  Definition same_rew ep e := length e = length ep /\ forall k, k < length ep -> same_but_value (ep @ k) (e @ k).
  Lemma same_rew_refl ep : same_rew ep ep.
  Proof. split; auto. intros. apply sbv_refl. Qed.
  Lemma same_rew_at ep e i v : same_rew ep e -> same_rew ep (at_ i (set_value v) e).
  Proof.
    intros [L H]. split; [now rewrite at_length|]. intros k Hk.
    destruct (Nat.eq_dec k i) as [->|N].
    - rewrite at_same by lia. apply sbv_set. auto.
    - rewrite at_other by auto. auto.
  Qed.

  Lemma horner_fold g ep e i m acc :
    same_rew ep e -> i + m <= length ep ->
    fold_left (fun acc j => (acc * g + rew e (i + j))%Qc) (rev (seq 0 m)) acc =
    (disc_sum t0 g ep i m + Qcpower g m * acc)%Qc.
  Proof.
    intros [L H]. revert acc. induction m; intros acc Hm.
    - cbn. unfold disc_sum. cbn. ring.
    - rewrite rev_seq_S. cbn [fold_left]. rewrite IHm by lia. rewrite disc_sum_snoc.
      cbn [Nat.add]. rewrite rew_nth by lia. rewrite (sbv_r (H (i + m) ltac:(lia))). rewrite Qcpower_S. ring.
  Qed.
  Lemma rb_inner_sum n g ep e i : same_rew ep e -> i < length ep ->
    rb_inner n g e i = disc_sum t0 g ep i (Nat.min n (length ep - i)).
  Proof.
    intros H Hi. pose proof H as [L _]. unfold rb_inner. rewrite L.
    rewrite (@horner_fold g ep) by (auto; lia). ring.
  Qed.
  Lemma rb_loop n g ep m e :
    same_rew ep e -> m <= length ep ->
    (forall i, m <= i < length ep -> tr_value (e @ i) = disc_sum t0 g ep i (Nat.min n (length ep - i))) ->
    let e' := fold_left (fun e i => at_ i (set_value (rb_inner n g e i)) e) (rev (seq 0 m)) e in
    same_rew ep e' /\ forall i, i < length ep -> tr_value (e' @ i) = disc_sum t0 g ep i (Nat.min n (length ep - i)).
  Proof.
    revert e. induction m; intros e Se Hm Hv.
    - cbn. split; auto. intros; apply Hv; lia.
    - rewrite rev_seq_S. cbn [fold_left Nat.add]. apply IHm.
      + apply same_rew_at. auto.
      + lia.
      + intros i Hi. pose proof Se as [L _]. destruct (Nat.eq_dec i m) as [->|N].
        * rewrite at_same by lia. cbn [set_value tr_value]. apply rb_inner_sum; auto; lia.
        * rewrite at_other by auto. apply Hv. lia.
  Qed.
  Lemma rb_store_spec n g ep e : rb_store n g ep = Ok e ->
    length e = length ep /\
    forall i, i < length ep -> same_but_value (ep @ i) (e @ i) /\
                               tr_value (e @ i) = disc_sum t0 g ep i (Nat.min n (length ep - i)).
  Proof.
    unfold rb_store. destruct ep as [|x r]; [discriminate|]. set (ep := x :: r) in *. intros H.
    injection H as <-.
    destruct (@rb_loop n g ep (length ep) (at_ (length ep - 1) (set_value (rew ep (length ep - 1))) ep)) as [[L A] B].
    - apply same_rew_at, same_rew_refl.
    - auto.
    - intros; lia.
    - split; auto.
  Qed.

  (* ---------------- A2C returns ---------------- *)
  Lemma ac_loop g ep m e :
    same_rew ep e -> m < length ep ->
    (forall i, m <= i < length ep -> tr_value (e @ i) = disc_sum t0 g ep i (length ep - i)) ->
    let e' := fold_left (fun e i => at_ (i - 1) (set_value (val e i * g + rew e (i - 1))%Qc) e) (rev (seq 1 m)) e in
    same_rew ep e' /\ forall i, i < length ep -> tr_value (e' @ i) = disc_sum t0 g ep i (length ep - i).
  Proof.
    revert e. induction m; intros e Se Hm Hv.
    - cbn. split; auto. intros; apply Hv; lia.
    - rewrite rev_seq_S. cbn [fold_left]. replace (1 + m - 1) with m by lia. apply IHm.
      + apply same_rew_at. auto.
      + lia.
      + intros i Hi. pose proof Se as [L R]. destruct (Nat.eq_dec i m) as [->|N].
        * rewrite at_same by lia. cbn [set_value tr_value].
          rewrite val_nth, Hv, rew_nth, (sbv_r (R m ltac:(lia))) by lia.
          replace (length ep - m) with (Datatypes.S (length ep - (1 + m))) by lia.
          rewrite disc_sum_S. cbn [Nat.add]. ring.
        * rewrite at_other by auto. apply Hv. lia.
  Qed.
  Lemma ac_values_spec g ep : ep <> [] ->
    same_rew ep (ac_values g ep) /\
    forall i, i < length ep -> tr_value ((ac_values g ep) @ i) = disc_sum t0 g ep i (length ep - i).
  Proof.
    intros N. assert (0 < length ep) by (destruct ep; cbn; [congruence|lia]).
    unfold ac_values. apply ac_loop.
    - apply same_rew_at, same_rew_refl.
    - lia.
    - intros i Hi. replace i with (length ep - 1) by lia. rewrite at_same by lia. cbn [set_value tr_value].
      rewrite rew_nth by lia. replace (length ep - (length ep - 1)) with 1 by lia.
      rewrite disc_sum_S. unfold disc_sum. cbn. ring.
  Qed.

  (* ---------------- A2C advantages ---------------- *)
  Section Gae.
    Variables (g l : Qc) (V : S -> Qc).
    Lemma gae_fold_app ep st :
      fold_left (ac_gae_step g l V) (rev ep) st = fold_right (fun t a => ac_gae_step g l V a t) st ep.
    Proof. rewrite <- fold_left_rev_right, rev_involutive. reflexivity. Qed.
    (* recursive reading of the loop: (advantage, critic) of the first step *)
    Definition head_v ep : Qc := match ep with [] => 0%Qc | t :: _ => V (tr_s t) end.
    Fixpoint gg ep : Qc :=
      match ep with
      | [] => 0%Qc
      | t :: r => (gg r * g * (1 - fl (tr_t t)) * l + (tr_r t + g * head_v r * (1 - fl (tr_t t)) - V (tr_s t)))%Qc
      end.
    Fixpoint gl ep : list (tr S) := match ep with [] => [] | t :: r => set_gae (gg ep) t :: gl r end.
    Lemma gen_gl ep : fold_left (ac_gae_step g l V) (rev ep) ([], 0%Qc, 0%Qc) = (gl ep, head_v ep, gg ep).
    Proof.
      rewrite gae_fold_app. induction ep as [|t r IH]; [reflexivity|].
      cbn [fold_right]. rewrite IH. reflexivity.
    Qed.
    Lemma gen_eq ep : ac_gae_general g l V ep = gl ep.
    Proof. unfold ac_gae_general. now rewrite gen_gl. Qed.
    Lemma gl_length ep : length (gl ep) = length ep.
    Proof. induction ep; cbn; auto. Qed.
    Lemma gl_nth ep i : i < length ep -> (gl ep) @ i = set_gae (gg (skipn i ep)) (ep @ i).
    Proof. revert i; induction ep as [|t r IH]; intros [|i] H; cbn in H |- *; try lia; auto. apply IH. lia. Qed.
    Lemma head_v_skip ep i : head_v (skipn i ep) = if i <? length ep then V (tr_s (ep @ i)) else 0%Qc.
    Proof. revert i; induction ep as [|t r IH]; intros [|i]; cbn -[Nat.ltb]; auto. apply IH. Qed.
    Lemma skipn_nth ep i : i < length ep -> skipn i ep = ep @ i :: skipn (Datatypes.S i) ep.
    Proof. revert i; induction ep as [|t r IH]; intros [|i] H; cbn in *; try lia; auto. apply IH; lia. Qed.
    Lemma gg_rec ep i : i < length ep ->
      gg (skipn i ep) =
      (gg (skipn (Datatypes.S i) ep) * g * (1 - fl (tr_t (ep @ i))) * l
       + (tr_r (ep @ i) + g * (if Datatypes.S i <? length ep then V (tr_s (ep @ (Datatypes.S i))) else 0) * (1 - fl (tr_t (ep @ i)))
          - V (tr_s (ep @ i))))%Qc.
    Proof. intros H. rewrite (skipn_nth _ H) at 1. cbn [gg]. now rewrite head_v_skip. Qed.

    Lemma gae_S ep i : i < length ep ->
      gae t0 g l V ep i = (td g V (ep @ i) + g * l * gae t0 g l V ep (Datatypes.S i))%Qc.
    Proof.
      intros H. unfold gae. replace (length ep - i) with (Datatypes.S (length ep - Datatypes.S i)) by lia.
      cbn [sumn]. rewrite sumn_shift, Nat.add_0_r, <- sumn_scale. change (Qcpower (g * l) 0) with 1%Qc. f_equal; [ring|].
      apply sumn_ext. intros k _. rewrite Qcpower_S.
      replace (i + Datatypes.S k) with (Datatypes.S i + k) by lia. ring.
    Qed.
    Lemma gae_end ep : gae t0 g l V ep (length ep) = 0%Qc.
    Proof. unfold gae. now rewrite Nat.sub_diag. Qed.

    Lemma cut_length ep : length (cut t0 ep) = length ep.
    Proof. unfold cut. now rewrite map_length, seq_length. Qed.
    Lemma cut_nth ep i : i < length ep -> (cut t0 ep) @ i =
      let t := ep @ i in
      MkTr (tr_s t) (tr_n t) (tr_r t) (tr_t t || Nat.eqb (i + 1) (length ep)) (tr_value t) (tr_gae t) (tr_len t).
    Proof.
      intros H. unfold cut.
      set (f := fun k => _). rewrite (@nth_indep _ _ i t0 (f 0)) by (now rewrite map_length, seq_length).
      rewrite map_nth, seq_nth by auto. reflexivity.
    Qed.
    Lemma cut_id ep : ends_terminal t0 ep -> forall i, i < length ep -> td g V ((cut t0 ep) @ i) = td g V (ep @ i).
    Proof.
      intros E i Hi. rewrite cut_nth by auto. cbv zeta. unfold td. cbn [tr_r tr_t tr_n tr_s].
      destruct (Nat.eqb_spec (i + 1) (length ep)) as [Q|Q].
      - replace i with (length ep - 1) by lia. unfold ends_terminal in E. rewrite E. reflexivity.
      - now rewrite orb_false_r.
    Qed.
    Lemma gae_ext e1 e2 : length e1 = length e2 ->
      (forall i, i < length e1 -> td g V (e1 @ i) = td g V (e2 @ i)) ->
      forall i, gae t0 g l V e1 i = gae t0 g l V e2 i.
    Proof. intros L H i. unfold gae. rewrite <- L. apply sumn_ext. intros k Hk. now rewrite H by lia. Qed.

    Lemma gg_gae ep : chained t0 V ep -> no_early_end t0 ep ->
      forall i, i <= length ep -> gg (skipn i ep) = gae t0 g l V (cut t0 ep) i.
    Proof.
      intros C N i Hi. remember (length ep - i) as m eqn:M. revert i Hi M. induction m; intros i Hi M.
      - replace i with (length ep) by lia. rewrite skipn_all. rewrite <- (cut_length ep) at 1. now rewrite gae_end.
      - rewrite gg_rec by lia. rewrite IHm by lia. rewrite (@gae_S (cut t0 ep) i) by (rewrite cut_length; lia).
        rewrite cut_nth by lia. cbv zeta. unfold td. cbn [tr_r tr_t tr_n tr_s].
        destruct (Nat.ltb_spec (Datatypes.S i) (length ep)) as [Q|Q].
        + destruct (Nat.eqb_spec (i + 1) (length ep)); [lia|].
          rewrite (N i) by lia. rewrite orb_false_r. rewrite (C i) by lia.
          replace (i + 1) with (Datatypes.S i) by lia. cbn. ring.
        + destruct (Nat.eqb_spec (i + 1) (length ep)); [|lia]. rewrite orb_true_r.
          replace (Datatypes.S i) with (length (cut t0 ep)) by (rewrite cut_length; lia).
          rewrite gae_end. ring.
    Qed.
  End Gae.

  (* lambda = 1: the discounted return minus the value telescopes *)
  Lemma gg_one g V ep : no_early_end t0 ep ->
    forall i, i < length ep -> gg g 1 V (skipn i ep) = (disc_sum t0 g ep i (length ep - i) - V (tr_s (ep @ i)))%Qc.
  Proof.
    intros N i Hi. remember (length ep - i) as m eqn:M. revert i Hi M. induction m; intros i Hi M; [lia|].
    rewrite gg_rec by lia. rewrite disc_sum_S.
    destruct (Nat.ltb_spec (Datatypes.S i) (length ep)) as [Q|Q].
    - rewrite IHm by lia. rewrite (N i) by lia. cbn. ring.
    - replace (skipn (Datatypes.S i) ep) with (@nil (tr S)) by (rewrite skipn_all2; auto; lia).
      replace m with 0 by lia. cbn. unfold disc_sum. cbn. ring.
  Qed.

  Lemma Qcpower_0_S k : Qcpower 0 (Datatypes.S k) = 0%Qc.
  Proof. cbn. ring. Qed.
  Lemma gae_zero g V ep i : i < length ep -> gae t0 g 0 V ep i = td g V (ep @ i).
  Proof.
    intros H. rewrite gae_S by auto. ring.
  Qed.
  Lemma gg_zero g V ep i : chained t0 V ep -> ends_terminal t0 ep -> i < length ep ->
    gg g 0 V (skipn i ep) = td g V (ep @ i).
  Proof.
    intros C E Hi. rewrite gg_rec by auto. unfold td.
    destruct (Nat.ltb_spec (Datatypes.S i) (length ep)) as [Q|Q].
    - rewrite (C i) by lia. replace (i + 1) with (Datatypes.S i) by lia.
      destruct (tr_t (ep @ i)); cbn; ring.
    - replace i with (length ep - 1) by lia. rewrite E. cbn. ring.
  Qed.

  Lemma sbvg_intro (a b : tr S) v : same_but_value a b -> same_but_value_gae a (set_gae v b).
  Proof. unfold same_but_value, same_but_value_gae. intros ->. destruct a; reflexivity. Qed.

  (* properties of an episode only depend on the attributes other than value *)
  Lemma same_rew_s ep e i : same_rew ep e -> i < length ep ->
    tr_s (e @ i) = tr_s (ep @ i) /\ tr_n (e @ i) = tr_n (ep @ i) /\ tr_r (e @ i) = tr_r (ep @ i) /\ tr_t (e @ i) = tr_t (ep @ i).
  Proof. intros [L H] Hi. specialize (H i Hi). unfold same_but_value in H. rewrite H. cbn. auto. Qed.
  Lemma same_rew_chained V ep e : same_rew ep e -> chained t0 V ep -> chained t0 V e.
  Proof.
    intros H C i Hi. pose proof H as [L _]. rewrite L in Hi.
    destruct (same_rew_s H (i := i)) as (_ & -> & _ & _); [lia|].
    destruct (same_rew_s H Hi) as (-> & _). auto.
  Qed.
  Lemma same_rew_noend ep e : same_rew ep e -> no_early_end t0 ep -> no_early_end t0 e.
  Proof.
    intros H C i Hi. pose proof H as [L _]. rewrite L in Hi.
    destruct (same_rew_s H (i := i)) as (_ & _ & _ & ->); [lia|]. auto.
  Qed.
  Lemma same_rew_ends ep e : same_rew ep e -> 0 < length ep -> ends_terminal t0 ep -> ends_terminal t0 e.
  Proof.
    intros H P C. pose proof H as [L _]. unfold ends_terminal. rewrite L.
    destruct (same_rew_s H (i := length ep - 1)) as (_ & _ & _ & ->); [lia|]. auto.
  Qed.
  Lemma same_rew_td g V ep e i : same_rew ep e -> i < length ep -> td g V (e @ i) = td g V (ep @ i).
  Proof. intros H Hi. unfold td. destruct (same_rew_s H Hi) as (-> & -> & -> & ->). reflexivity. Qed.
  Lemma same_rew_cut_td g V ep e i : same_rew ep e -> i < length ep ->
    td g V ((cut t0 e) @ i) = td g V ((cut t0 ep) @ i).
  Proof.
    intros H Hi. pose proof H as [L _]. rewrite !cut_nth by lia. cbv zeta. unfold td. cbn [tr_r tr_t tr_n tr_s].
    rewrite L. destruct (same_rew_s H Hi) as (-> & -> & -> & ->). reflexivity.
  Qed.

  Lemma nth_map_tr (f : tr S -> tr S) e i : i < length e -> (map f e) @ i = f (e @ i).
  Proof.
    intros H. rewrite (@nth_indep _ _ i t0 (f t0)) by (now rewrite map_length). apply map_nth.
  Qed.

  Section Store.
    Variables (g l : Qc) (V : S -> Qc).
    Lemma ac_store_form ep e : ac_store g l V ep = Ok e ->
      ep <> [] /\ e = (if Qc_eq_dec l 1 then ac_gae1 V (ac_values g ep)
                       else if Qc_eq_dec l 0 then ac_gae0 g V (ac_values g ep)
                       else ac_gae_general g l V (ac_values g ep)).
    Proof. unfold ac_store. destruct ep; [discriminate|]. intros H. injection H as <-. split; [discriminate|reflexivity]. Qed.
    Lemma ac_store_frame ep e : ac_store g l V ep = Ok e ->
      length e = length ep /\
      forall i, i < length ep -> same_but_value_gae (ep @ i) (e @ i) /\
                                 tr_value (e @ i) = disc_sum t0 g ep i (length ep - i).
    Proof.
      intros H. apply ac_store_form in H as [N ->].
      destruct (@ac_values_spec g ep N) as [[L A] B].
      destruct (Qc_eq_dec l 1); [|destruct (Qc_eq_dec l 0)].
      - unfold ac_gae1. rewrite map_length. split; auto. intros i Hi. rewrite nth_map_tr by lia.
        split; [apply sbvg_intro; auto|cbn; auto].
      - unfold ac_gae0. rewrite map_length. split; auto. intros i Hi. rewrite nth_map_tr by lia.
        split; [apply sbvg_intro; auto|cbn; auto].
      - rewrite gen_eq, gl_length. split; auto. intros i Hi. rewrite gl_nth by lia.
        split; [apply sbvg_intro; auto|cbn; auto].
    Qed.
    Lemma ac_store_cut ep e : l <> 0%Qc -> chained t0 V ep -> no_early_end t0 ep ->
      ac_store g l V ep = Ok e -> forall i, i < length ep -> tr_gae (e @ i) = gae t0 g l V (cut t0 ep) i.
    Proof.
      intros L0 C NE H i Hi. apply ac_store_form in H as [N ->].
      destruct (@ac_values_spec g ep N) as [SR B]. pose proof SR as [L _].
      assert (G : gg g l V (skipn i (ac_values g ep)) = gae t0 g l V (cut t0 ep) i).
      { rewrite gg_gae; [|eapply same_rew_chained; eauto|eapply same_rew_noend; eauto|lia].
        apply gae_ext; rewrite !cut_length; auto. intros k Hk. apply same_rew_cut_td; auto. lia. }
      destruct (Qc_eq_dec l 1) as [E1|L1]; [|destruct (Qc_eq_dec l 0); [contradiction|]].
      - rewrite E1 in G |- *. unfold ac_gae1. rewrite nth_map_tr by lia. cbn [set_gae tr_gae]. rewrite B by auto.
        rewrite <- G, gg_one; [|eapply same_rew_noend; eauto|lia]. f_equal. rewrite L. unfold disc_sum.
        apply sumn_ext. intros k Hk. destruct (same_rew_s SR (i := i + k)) as (_ & _ & -> & _); [lia|]. reflexivity.
      - rewrite gen_eq, gl_nth by lia. exact G.
    Qed.
    Lemma ac_store_zero ep e : l = 0%Qc -> ac_store g l V ep = Ok e ->
      forall i, i < length ep -> tr_gae (e @ i) = gae t0 g l V ep i.
    Proof.
      intros E H i Hi. apply ac_store_form in H as [N ->].
      destruct (@ac_values_spec g ep N) as [SR B]. pose proof SR as [L _]. rewrite E.
      destruct (Qc_eq_dec 0 1) as [Q|_]; [discriminate|]. destruct (Qc_eq_dec 0 0) as [_|Q]; [|congruence].
      unfold ac_gae0. rewrite nth_map_tr by lia. cbn [set_gae tr_gae]. rewrite gae_zero by auto.
      unfold td. destruct (same_rew_s SR Hi) as (-> & -> & -> & ->).
      destruct (tr_t (ep @ i)); cbn; ring.
    Qed.
    Lemma ac_store_wf ep e : chained t0 V ep -> no_early_end t0 ep -> ends_terminal t0 ep ->
      ac_store g l V ep = Ok e -> forall i, i < length ep -> tr_gae (e @ i) = gae t0 g l V ep i.
    Proof.
      intros C NE E H i Hi. destruct (Qc_eq_dec l 0) as [Q|Q].
      - eapply ac_store_zero; eauto.
      - rewrite (@ac_store_cut ep e Q C NE H i Hi). apply gae_ext; rewrite ?cut_length; auto.
        intros k Hk. apply cut_id; auto.
    Qed.
  End Store.
End R.
