From Verif Require Import Lib.Rat Model.Returns Spec.ReturnsSpec Proofs.ReturnsProofs.
Open Scope nat_scope.
Set Implicit Arguments.

Lemma prodn_S_r f a n : prodn f a (S n) = (prodn f a n * f (a + n)%nat)%Qc.
Proof.
  revert a; induction n; intros a.
  - cbn. rewrite Nat.add_0_r. ring.
  - change (prodn f a (S (S n))) with (f a * prodn f (S a) (S n))%Qc. rewrite IHn. cbn [prodn].
    replace (S a + n) with (a + S n) by lia. ring.
Qed.
Lemma prodn_ext f h a n : (forall k, a <= k < a + n -> f k = h k) -> prodn f a n = prodn h a n.
Proof. revert a; induction n; intros a H; cbn; auto. rewrite (H a), (IHn (S a)); auto; [intros; apply H; lia|lia]. Qed.

Section F.
  Variables (g : Qc) (v c d : nat -> Qc) (m : nat).   (* m: last step *)
  Definition code_target (s : nat) : Qc :=
    (v s + sumn (fun k => Qcpower g k * prodn c s k * d (s + k)%nat) 0 (m - s)
     - Qcpower g (m - s) * prodn c s (m - s) * v m)%Qc.
  Lemma code_last : code_target m = 0%Qc.
  Proof. unfold code_target. rewrite Nat.sub_diag. cbn. ring. Qed.
  Lemma code_rec s : s < m ->
    code_target s = (v s + d s + g * c s * (code_target (S s) - v (S s)))%Qc.
  Proof.
    intros H. unfold code_target. replace (m - s) with (S (m - S s)) by lia.
    cbn [sumn]. rewrite sumn_shift. change (Qcpower g 0) with 1%Qc. cbn [prodn]. rewrite Nat.add_0_r.
    rewrite (@sumn_ext _ (fun k => (g * c s) * (Qcpower g k * prodn c (S s) k * d (S s + k)%nat))%Qc 0 (m - S s)).
    - rewrite sumn_scale. rewrite Qcpower_S. ring.
    - intros k _. cbn [prodn]. rewrite Qcpower_S. replace (s + S k) with (S s + k) by lia. ring.
  Qed.
  Lemma code_vtrace s : s <= m ->
    code_target s = (vtrace g v c d (S m) s - Qcpower g (m - s) * prodn c s (m - s) * (v m + d m))%Qc.
  Proof.
    intros H. unfold code_target, vtrace. replace (S m - s) with (S (m - s)) by lia.
    rewrite sumn_S_r. cbn [Nat.add]. replace (s + (m - s)) with m by lia. ring.
  Qed.
End F.
Lemma code_target_ext g v c d v' c' d' m s :
  (forall k, k <= m -> v k = v' k /\ c k = c' k /\ d k = d' k) -> s <= m ->
  code_target g v c d m s = code_target g v' c' d' m s.
Proof.
  intros H Hs. unfold code_target. destruct (H s Hs) as (-> & _ & _). destruct (H m ltac:(lia)) as (-> & _ & _).
  rewrite (@prodn_ext c c' s (m - s)) by (intros k Hk; apply H; lia). f_equal. f_equal. apply sumn_ext.
  intros k Hk. destruct (H (s + k) ltac:(lia)) as (_ & _ & ->).
  rewrite (@prodn_ext c c' s k) by (intros j Hj; apply H; lia). reflexivity.
Qed.

Section Loop.
  Variables (g : Qc) (value delta c : list Qc).
  Definition tgt (off len : nat) (s : nat) : Qc :=
    code_target g (fun k => nth (off + k) value 0%Qc) (fun k => nth (off + k) c 0%Qc)
                (fun k => nth (off + k) delta 0%Qc) (len - 1) s.

  Lemma inner_inv off len n vs :
    off + len <= length vs -> n <= len - 1 ->
    (forall s, n <= s < len -> nth (off + s) vs 0%Qc = tgt off len s) ->
    let r := fold_left (fun v rev_step =>
                   let idx := off + rev_step in
                   upd idx (nth idx value 0 + nth idx delta 0
                            + g * nth idx c 0 * (nth (idx + 1) v 0 - nth (idx + 1) value 0))%Qc v)
                (rev (seq 0 n)) vs in
    length r = length vs /\
    (forall s, s < len -> nth (off + s) r 0%Qc = tgt off len s) /\
    (forall k, k < off \/ off + n <= k -> nth k r 0%Qc = nth k vs 0%Qc).
  Proof.
    revert vs. induction n; intros vs L Hn H.
    - cbn. split; [|split]; auto. intros s Hs. apply H. lia.
    - rewrite rev_seq_S. cbn [fold_left]. cbn [Nat.add]. cbv zeta.
      match goal with |- context [fold_left _ _ ?x] => set (vs1 := x) end.
      assert (L1 : length vs1 = length vs) by (apply upd_length).
      destruct (IHn vs1) as (A & B & C).
      + lia.
      + lia.
      + intros s Hs. unfold vs1. rewrite upd_nth. destruct (Nat.eqb_spec (off + n) (off + s)) as [E|E].
        * assert (s = n) by lia. subst s. destruct (Nat.ltb_spec (off + n) (length vs)); [|lia]. cbn [andb].
          unfold tgt. rewrite code_rec by lia. replace (off + S n) with (off + n + 1) by lia.
          do 4 f_equal. replace (off + n + 1) with (off + S n) by lia. rewrite H by lia. reflexivity.
        * cbn [andb]. apply H. lia.
      + split; [rewrite <- L1; exact A|]. split; [exact B|]. intros k Hk. etransitivity; [apply C; lia|].
        unfold vs1. rewrite upd_nth. destruct (Nat.eqb_spec (off + n) k); [lia|reflexivity].
  Qed.
  Lemma inner_spec off len vs :
    0 < len -> off + len <= length vs -> (forall k, off <= k -> nth k vs 0%Qc = 0%Qc) ->
    let r := im_inner g value delta c off len vs in
    length r = length vs /\ (forall s, s < len -> nth (off + s) r 0%Qc = tgt off len s) /\
    (forall k, k < off \/ off + len <= k -> nth k r 0%Qc = nth k vs 0%Qc).
  Proof.
    intros P L Z. destruct (@inner_inv off len (len - 1) vs) as (A & B & C); auto.
    - intros s Hs. replace s with (len - 1) by lia. rewrite Z by lia. unfold tgt. now rewrite code_last.
    - cbv zeta. unfold im_inner. split; [exact A|]. split; [exact B|]. intros k Hk. apply C. lia.
  Qed.

  Lemma shift_inv vs off n vss : off + n <= length vss ->
    let r := fold_left (fun v k => upd (off + k) (nth (off + k + 1) vs 0%Qc) v) (seq 0 n) vss in
    length r = length vss /\
    forall k, nth k r 0%Qc = if (off <=? k) && (k <? off + n) then nth (k + 1) vs 0%Qc else nth k vss 0%Qc.
  Proof.
    induction n; intros L.
    - cbn [seq fold_left]. split; auto. intros k.
      destruct (Nat.leb_spec off k), (Nat.ltb_spec k (off + 0)); cbn [andb]; auto; lia.
    - rewrite seq_S, fold_left_app. cbn [fold_left Nat.add]. destruct IHn as [A B]; [lia|]. cbv zeta in A, B |- *.
      rewrite upd_length. split; auto. intros k. rewrite upd_nth, A, B.
      destruct (Nat.eqb_spec (off + n) k) as [<-|N].
      + destruct (Nat.ltb_spec (off + n) (length vss)); [|lia]. cbn [andb].
        destruct (Nat.leb_spec off (off + n)); [|lia]. destruct (Nat.ltb_spec (off + n) (off + S n)); [|lia]. reflexivity.
      + cbn [andb]. destruct (Nat.leb_spec off k); cbn [andb]; auto.
        destruct (Nat.ltb_spec k (off + n)), (Nat.ltb_spec k (off + S n)); auto; lia.
  Qed.
  Lemma shift_spec vs off len vss : 0 < len -> off + len <= length vss ->
    let r := im_shift vs off len vss in
    length r = length vss /\
    forall k, nth k r 0%Qc = if (off <=? k) && (k <? off + (len - 1)) then nth (k + 1) vs 0%Qc else nth k vss 0%Qc.
  Proof. intros P L. apply shift_inv. lia. Qed.

  Definition sum (l : list nat) := fold_right Nat.add 0 l.
  Definition body := (fun '((vs, vss), offset) len =>
                        let vs' := im_inner g value delta c offset len vs in
                        ((vs', im_shift vs' offset len vss), offset + len)).
  Lemma loop_inv lens off vs vss vs' vss' off' :
    (forall n, In n lens -> 0 < n) -> length vss = length vs -> off + sum lens <= length vs ->
    (forall k, off <= k -> nth k vs 0%Qc = 0%Qc) -> (forall k, off <= k -> nth k vss 0%Qc = 0%Qc) ->
    fold_left body lens ((vs, vss), off) = ((vs', vss'), off') ->
    length vs' = length vs /\ length vss' = length vs /\
    (forall k, k < off -> nth k vs' 0%Qc = nth k vs 0%Qc /\ nth k vss' 0%Qc = nth k vss 0%Qc) /\
    (forall j len, nth_error lens j = Some len -> forall s, s < len ->
       nth (off + sum (firstn j lens) + s) vs' 0%Qc = tgt (off + sum (firstn j lens)) len s /\
       nth (off + sum (firstn j lens) + s) vss' 0%Qc =
         (if S s <? len then nth (off + sum (firstn j lens) + S s) vs' 0%Qc else 0%Qc)).
  Proof.
    revert off vs vss. induction lens as [|len r IH]; intros off vs vss P LL LT Z1 Z2 E.
    - cbn in E. injection E as <- <- <-. repeat split; auto; intros; destruct j; discriminate.
    - cbn [fold_left] in E. unfold body at 2 in E. cbv zeta in E. cbn in LT.
      assert (Pl : 0 < len) by (apply P; left; auto).
      destruct (@inner_spec off len vs) as (A & B & C); auto; [lia|]. cbv zeta in A, B, C.
      set (v1 := im_inner g value delta c off len vs) in *.
      destruct (@shift_spec v1 off len vss) as (A2 & B2); auto; [lia|]. cbv zeta in A2, B2.
      set (w1 := im_shift v1 off len vss) in *.
      apply IH in E; auto.
      + destruct E as (E1 & E2 & E3 & E4). split; [congruence|]. split; [congruence|]. split.
        * intros k Hk. destruct (E3 k) as [-> ->]; [lia|]. split; [apply C; lia|]. rewrite B2.
          destruct (Nat.leb_spec off k); [lia|reflexivity].
        * intros [|j] len' Hj s Hs; cbn [nth_error firstn] in Hj |- *.
          -- injection Hj as <-. change (sum []) with 0. rewrite Nat.add_0_r.
             destruct (E3 (off + s)) as [-> ->]; [lia|]. split; [apply B; auto|].
             rewrite B2. destruct (Nat.leb_spec off (off + s)); [|lia]. cbn [andb].
             destruct (Nat.ltb_spec (off + s) (off + (len - 1))) as [Q|Q].
             ++ destruct (Nat.ltb_spec (S s) len); [|lia].
                destruct (E3 (off + S s)) as [-> _]; [lia|]. f_equal. lia.
             ++ destruct (Nat.ltb_spec (S s) len); [lia|]. apply Z2. lia.
          -- change (sum (len :: firstn j r)) with (len + sum (firstn j r)).
             specialize (E4 j len' Hj s Hs). rewrite Nat.add_assoc. exact E4.
      + intros n Hn. apply P. right; auto.
      + congruence.
      + rewrite A. unfold sum. lia.
      + intros k Hk. rewrite C by lia. apply Z1. lia.
      + intros k Hk. rewrite B2. destruct (Nat.ltb_spec k (off + (len - 1))); [lia|]. rewrite andb_false_r. apply Z2. lia.
  Qed.
End Loop.

Section Batch.
  Context {S : Type}.
  Variable t0 : tr S.
  Notation "ep @ i" := (nth i ep t0) (at level 9).
  Implicit Types (ep : list (tr S)) (sts : list (list (tr S))).
  Variables (g bc br : Qc) (V : S -> Qc) (sim : tr S -> Qc).

  Definition stored_from (st : list (tr S)) : Prop := exists ep, im_store ep = Ok st.
  Lemma stored_lens sts : (forall st, In st sts -> stored_from st) ->
    filter (fun n => negb (Nat.eqb n 0)) (map (@tr_len S) (concat sts)) = map (@length _) sts.
  Proof.
    induction sts as [|st r IH]; intros H; [reflexivity|].
    cbn [concat map]. rewrite map_app, filter_app, IH by (intros; apply H; right; auto).
    destruct (H st (or_introl eq_refl)) as (ep & E). destruct ep as [|t e]; [discriminate|].
    cbn in E. injection E as <-. cbn [map filter tr_len set_len Nat.eqb negb app]. rewrite map_map.
    assert (Z : filter (fun n => negb (n =? 0)) (map (fun x : tr S => tr_len (set_len 0 x)) e) = []).
    { clear. induction e; cbn; auto. }
    rewrite Z. cbn. now rewrite map_length.
  Qed.
  Lemma stored_pos st : stored_from st -> 0 < length st.
  Proof. intros ([|t e] & E); [discriminate|]. cbn in E. injection E as <-. cbn. lia. Qed.

  Lemma sum_lengths sts : sum (map (@length (tr S)) sts) = length (concat sts).
  Proof. induction sts; cbn; auto. rewrite app_length. unfold sum in *. lia. Qed.
  Lemma start_sum sts j : sum (firstn j (map (@length (tr S)) sts)) = start sts j.
  Proof. unfold start. now rewrite firstn_map, sum_lengths. Qed.
  Lemma nth_concat sts j st s : nth_error sts j = Some st -> s < length st ->
    nth_error (concat sts) (start sts j + s) = nth_error st s.
  Proof.
    revert j; induction sts as [|x r IH]; intros [|j] E Hs; cbn in E; try discriminate.
    - injection E as ->. unfold start. cbn. rewrite nth_error_app1 by auto. reflexivity.
    - unfold start. cbn [firstn concat]. rewrite app_length. rewrite nth_error_app2 by lia.
      replace (length x + length (concat (firstn j r)) + s - length x) with (start r j + s) by (unfold start; lia).
      apply IH; auto.
  Qed.
  Lemma nth_map_concat (f : tr S -> Qc) sts j st s : nth_error sts j = Some st -> s < length st ->
    nth (start sts j + s) (map f (concat sts)) 0%Qc = f (st @ s).
  Proof.
    intros E Hs. apply nth_error_nth. apply map_nth_error. rewrite (@nth_concat sts j st s E Hs).
    apply nth_error_nth'. auto.
  Qed.

  Lemma clipped_min b x : clipped b x = Qcmin b x.
  Proof. unfold clipped, Qcmin, Qcltb. destruct (Qclt_le_dec x b); reflexivity. Qed.
  Lemma im_delta_wtd t : im_delta g br V sim t = wtd g (clipped br (sim t)) V t.
  Proof. unfold im_delta, wtd, td, im_rho. rewrite clipped_min. destruct (tr_t t); ring. Qed.

  Lemma targets_spec sts : (forall st, In st sts -> stored_from st) ->
    exists vs vss, im_targets g bc br V sim (concat sts) = Ok (vs, vss) /\
      length vs = length (concat sts) /\ length vss = length (concat sts) /\
      forall j st, nth_error sts j = Some st -> forall s, s < length st ->
        nth (start sts j + s) vs 0%Qc =
          (vtrace_of t0 g bc br V sim st s
           - Qcpower g (length st - 1 - s)
             * prodn (fun k => clipped bc (sim (st @ k))) s (length st - 1 - s)
             * (V (tr_s (st @ (length st - 1)))
                + wtd g (clipped br (sim (st @ (length st - 1)))) V (st @ (length st - 1))))%Qc /\
        nth (start sts j + s) vss 0%Qc =
          (if Datatypes.S s <? length st then nth (start sts j + Datatypes.S s) vs 0%Qc else 0%Qc).
  Proof.
    intros H. unfold im_targets. rewrite stored_lens by auto.
    pose proof (sum_lengths sts) as SL. unfold sum in SL. rewrite SL, Nat.eqb_refl. cbn [negb].
    unfold im_loop. fold (@body g (map (fun t => V (tr_s t)) (concat sts)) (map (im_delta g br V sim) (concat sts)) (map (im_c bc sim) (concat sts))).
    match goal with |- context [fold_left ?b ?l ?x] => destruct (fold_left b l x) as [[vs vss] off'] eqn:E end.
    exists vs, vss. split; [reflexivity|].
    apply loop_inv in E.
    - destruct E as (E1 & E2 & _ & E4). rewrite repeat_length in *. split; [auto|]. split; [auto|].
      intros j st Hj s Hs. pose proof (map_nth_error (@length _) _ _ Hj) as Hj'.
      destruct (E4 j _ Hj' s Hs) as [A B]. rewrite start_sum in A, B. cbn [Nat.add] in A, B.
      split; [|exact B]. rewrite A. unfold tgt.
      set (m := length st - 1).
      erewrite (@code_target_ext g _ _ _ (fun k => V (tr_s (st @ k))) (fun k => clipped bc (sim (st @ k)))
                 (fun k => wtd g (clipped br (sim (st @ k))) V (st @ k))); [| |lia].
      + rewrite code_vtrace by lia. unfold vtrace_of. replace (Datatypes.S m) with (length st) by lia. reflexivity.
      + intros k Hk. rewrite !(@nth_map_concat _ sts j st k) by (auto; lia). unfold im_c.
        rewrite clipped_min, im_delta_wtd. auto.
    - intros n Hn. apply in_map_iff in Hn as (st & <- & I). apply stored_pos. auto.
    - auto.
    - rewrite repeat_length, sum_lengths. lia.
    - intros k _. apply nth_repeat.
    - intros k _. apply nth_repeat.
  Qed.
End Batch.
