From Verif Require Import Lib.Rat Model.WeightTree Spec.WeightTreeSpec.

(* ---- offsets ---- *)
Lemma wt_sizes_length d : length (wt_sizes d) = d.
Proof. unfold wt_sizes. now rewrite map_length, rev_length, seq_length. Qed.

Lemma wt_sizes_nth d i : i < d -> nth_error (wt_sizes d) i = Some (2 ^ (d - 1 - i)).
Proof.
  intros L. unfold wt_sizes. rewrite nth_error_map.
  assert (E : nth_error (rev (seq 0 d)) i = Some (d - 1 - i)).
  { rewrite (nth_error_nth' _ 0) by (rewrite rev_length, seq_length; auto).
    rewrite rev_nth by (rewrite seq_length; auto). rewrite seq_length, seq_nth by lia. f_equal. lia. }
  now rewrite E.
Qed.

Lemma firstn_S_nth {A} (l : list A) i x : nth_error l i = Some x -> firstn (S i) l = firstn i l ++ [x].
Proof. revert i; induction l; intros [|i] H; cbn in *; try discriminate.
  - now injection H as ->. - f_equal. auto. Qed.

Lemma list_sum_app' l1 l2 : list_sum (l1 ++ l2) = list_sum l1 + list_sum l2.
Proof. apply list_sum_app. Qed.

Lemma off_0 d : wt_off d 0 = 0. Proof. reflexivity. Qed.
Lemma off_S d i : i < d -> wt_off d (S i) = wt_off d i + 2 ^ (d - 1 - i).
Proof. intros L. unfold wt_off. rewrite (firstn_S_nth (wt_sizes d) i _ (wt_sizes_nth d i L)).
  rewrite list_sum_app'. cbn. lia. Qed.

Lemma pow2_split d i : i < d -> 2 ^ (d - i) = 2 ^ (d - 1 - i) + 2 ^ (d - 1 - i).
Proof. intros. replace (d - i) with (S (d - 1 - i)) by lia. cbn. lia. Qed.
Lemma pow2_pos n : 0 < 2 ^ n. Proof. induction n; cbn; lia. Qed.

Lemma off_closed d i : i <= d -> wt_off d i + 2 ^ (d - i) = 2 ^ d.
Proof.
  induction i; intros L. - rewrite off_0, Nat.sub_0_r. reflexivity.
  - rewrite off_S by lia. rewrite <- IHi by lia. rewrite (pow2_split d i) by lia.
    replace (d - S i) with (d - 1 - i) by lia. lia.
Qed.
Lemma off_total d : wt_off d d = 2 ^ d - 1.
Proof. pose proof (off_closed d d (le_n _)). rewrite Nat.sub_diag in H. cbn in H. lia. Qed.
Lemma off_mono d i i' : i <= i' -> i' <= d -> wt_off d i <= wt_off d i'.
Proof. intros H. induction H; intros L; auto. rewrite off_S by lia. assert (wt_off d i <= wt_off d m) by (apply IHle; lia). lia. Qed.
Lemma pos_inj d i j i' j' : i < d -> i' < d -> j < 2 ^ (d - 1 - i) -> j' < 2 ^ (d - 1 - i') ->
  wt_off d i + j = wt_off d i' + j' -> i = i' /\ j = j'.
Proof.
  intros Li Li' Lj Lj' E.
  destruct (Nat.lt_trichotomy i i') as [H|[H|H]].
  - pose proof (off_mono d (S i) i' H ltac:(lia)). rewrite off_S in H0 by lia. lia.
  - subst. lia.
  - pose proof (off_mono d (S i') i H ltac:(lia)). rewrite off_S in H0 by lia. lia.
Qed.
Lemma pos_lt d i j : i < d -> j < 2 ^ (d - 1 - i) -> wt_off d i + j < wt_off d d.
Proof. intros L Lj. pose proof (off_mono d (S i) d ltac:(lia) (le_n _)). rewrite off_S in H by lia. lia. Qed.

(* ---- xor with one ---- *)
Lemma lxor1_even k : Nat.lxor (2 * k) 1 = 2 * k + 1.
Proof. apply Nat.bits_inj. intros [|n].
  - rewrite Nat.lxor_spec. now rewrite Nat.testbit_even_0, Nat.testbit_odd_0.
  - rewrite Nat.lxor_spec, Nat.testbit_even_succ, Nat.testbit_odd_succ by lia.
    replace 1 with (2 * 0 + 1) by lia. rewrite Nat.testbit_odd_succ, Nat.bits_0 by lia. now destruct (Nat.testbit k n). Qed.
Lemma lxor1_odd k : Nat.lxor (2 * k + 1) 1 = 2 * k.
Proof. rewrite <- lxor1_even. now rewrite Nat.lxor_assoc, Nat.lxor_nilpotent, Nat.lxor_0_r. Qed.
Lemma land_low b m c : b < 2 ^ m -> Nat.land b (2 ^ m * c) = 0.
Proof.
  intros L. apply Nat.bits_inj. intros n. rewrite Nat.land_spec, Nat.bits_0.
  rewrite (Nat.mul_comm (2 ^ m)).
  destruct (Nat.lt_ge_cases n m).
  - now rewrite Nat.mul_pow2_bits_low, andb_false_r.
  - assert (Nat.testbit b n = false); [|now rewrite H0].
    destruct b as [|b]; [apply Nat.bits_0|].
    apply Nat.bits_above_log2. apply Nat.log2_lt_pow2 in L; lia.
Qed.
Lemma lxor_off a m c : 1 <= m -> a < 2 ^ m -> Nat.lxor a (1 + 2 ^ m * c) = Nat.lxor a 1 + 2 ^ m * c.
Proof.
  intros M L.
  assert (P : 1 < 2 ^ m) by (destruct m as [|m]; [lia|]; cbn; pose proof (pow2_pos m); lia).
  assert (X : Nat.lxor a 1 < 2 ^ m).
  { assert (E : 2 ^ m = 2 * 2 ^ (m - 1)) by (rewrite <- Nat.pow_succ_r'; f_equal; lia).
    destruct (Nat.Even_or_Odd a) as [[k ->]|[k ->]].
    - rewrite lxor1_even. lia.
    - rewrite lxor1_odd. lia. }
  rewrite (Nat.add_nocarry_lxor 1) by now apply land_low.
  rewrite <- Nat.lxor_assoc. symmetry. apply Nat.add_nocarry_lxor. now apply land_low.
Qed.

Lemma comp_index d i j : i < d -> j < 2 ^ (d - i) -> Nat.lxor j (1 + wt_off d i) = wt_off d i + Nat.lxor j 1.
Proof.
  intros L Lj.
  assert (E : wt_off d i = 2 ^ (d - i) * (2 ^ i - 1)).
  { pose proof (off_closed d i ltac:(lia)). rewrite Nat.mul_sub_distr_l, <- Nat.pow_add_r.
    replace (d - i + i) with d by lia. lia. }
  rewrite E, lxor_off; auto; lia.
Qed.

(* ---- nodes ---- *)
Definition node (f : nat -> Qc) (i j : nat) : Qc := sumn f (j * 2 ^ i) (2 ^ i).
Lemma node_0 f j : node f 0 j = f j.
Proof. unfold node. cbn. rewrite Nat.mul_1_r. ring. Qed.
Lemma node_S f i j : node f (S i) j = (node f i (2 * j) + node f i (2 * j + 1))%Qc.
Proof. unfold node. rewrite Nat.pow_succ_r'. replace (2 * 2 ^ i) with (2 ^ i + 2 ^ i) by lia.
  rewrite sumn_add. f_equal; f_equal; lia. Qed.
Lemma node_pair f i k : (node f i k + node f i (Nat.lxor k 1))%Qc = node f (S i) (k / 2).
Proof.
  rewrite node_S. destruct (Nat.Even_or_Odd k) as [[q ->]|[q ->]].
  - rewrite lxor1_even. replace (2 * q / 2) with q by (rewrite Nat.mul_comm, Nat.div_mul; lia). reflexivity.
  - rewrite lxor1_odd. replace ((2 * q + 1) / 2) with q.
    + ring. + rewrite (Nat.mul_comm 2), Nat.div_add_l by lia. cbn. lia.
Qed.
Lemma node_ext f g i j : (forall k, j * 2 ^ i <= k < j * 2 ^ i + 2 ^ i -> f k = g k) -> node f i j = node g i j.
Proof. apply sumn_ext. Qed.
Lemma node_tset_other f x v i j : x / 2 ^ i <> j -> node (tset f x v) i j = node f i j.
Proof.
  intros N. apply node_ext. intros k K. unfold tset. destruct (Nat.eqb_spec k x); auto. subst. exfalso. apply N.
  symmetry. apply (Nat.div_unique x (2 ^ i) j (x - j * 2 ^ i)); lia.
Qed.

Definition LvlOk (d : nat) (w : list Qc) (f : nat -> Qc) (i : nat) : Prop :=
  forall j, j < 2 ^ (d - 1 - i) -> nth_error w (wt_off d i + j) = Some (node f i j).

Lemma lvl_ext d w f g i : (forall k, f k = g k) -> LvlOk d w f i -> LvlOk d w g i.
Proof. intros E H j Lj. rewrite (H j Lj). f_equal. apply node_ext. auto. Qed.

(* writing inside level i leaves the other levels alone *)
Lemma lvl_upd_other d w f i j v l : i < d -> l < d -> j < 2 ^ (d - 1 - i) -> l <> i ->
  LvlOk d w f l -> LvlOk d (upd (wt_off d i + j) v w) f l.
Proof.
  intros Li Ll Lj N H k Lk. rewrite upd_other; auto. intros E.
  destruct (pos_inj d i j l k) as [? _]; auto.
Qed.

Record WInv (t : wtree) (f : nat -> Qc) : Prop := {
  wi_size : 1 <= wt_size t;
  wi_len : length (wt_w t) = wt_off (wt_d t) (wt_d t);
  wi_pad : forall k, wt_size t <= k -> f k = 0%Qc;
  wi_lvl : forall i, i < wt_d t -> LvlOk (wt_d t) (wt_w t) f i }.

Lemma depth_pos s : 1 <= wt_depth s. Proof. unfold wt_depth. lia. Qed.
Lemma depth_cover s : 1 <= s -> s <= 2 ^ (wt_depth s - 1).
Proof. intros. unfold wt_depth. replace (Nat.log2_up s + 1 - 1) with (Nat.log2_up s) by lia.
  destruct (Nat.eq_dec s 1). - subst. cbn. lia. - apply Nat.log2_log2_up_spec. lia. Qed.
Lemma depth_2 s : 2 <= s -> 2 <= wt_depth s.
Proof. intros. unfold wt_depth. assert (0 < Nat.log2_up s) by (apply Nat.log2_up_pos; lia). lia. Qed.

Lemma wt_new_inv s : 1 <= s -> WInv (wt_new s) (fun _ => 0%Qc).
Proof.
  intros S1. unfold wt_new, wt_d. split; cbn [wt_size wt_w]; auto.
  - now rewrite repeat_length.
  - intros i L j Lj. pose proof (pos_lt _ _ _ L Lj).
    rewrite nth_error_repeat by auto. f_equal. symmetry. apply sumn_zero. auto.
Qed.

(* ---- update_leaf ---- *)
Lemma ul_loop_inv d f x v : forall n i w index value comp,
  let f' := tset f x v in
  1 <= i -> i + n = d - 1 -> 2 <= d -> x < 2 ^ (d - 1) ->
  length w = wt_off d d ->
  (forall l, l < i -> LvlOk d w f' l) -> (forall l, i <= l < d -> LvlOk d w f l) ->
  index = x / 2 ^ (i - 1) ->
  value = node f' (i - 1) index -> comp = node f' (i - 1) (Nat.lxor index 1) ->
  exists w' v' c', ul_loop d n i w index value comp = (w', Ok (v', c')) /\
    length w' = wt_off d d /\ (forall l, l < d - 1 -> LvlOk d w' f' l) /\
    (v' + c')%Qc = node f' (d - 1) 0.
Proof.
  induction n as [|n IH]; intros i w index value comp f' I1 E D2 X LW LO HI EI EV EC.
  - exists w, value, comp. cbn. split; auto. split; auto. split; [intros l Hl; apply LO; lia|].
    rewrite EV, EC, node_pair. replace (S (i - 1)) with (d - 1) by lia. f_equal.
    rewrite EI, Nat.div_div by (try lia; apply Nat.pow_nonzero; lia).
    rewrite Nat.mul_comm, <- Nat.pow_succ_r'. apply Nat.div_small. replace (S (i - 1)) with (d - 1) by lia. auto.
  - cbn [ul_loop].
    assert (EI2 : index / 2 = x / 2 ^ i).
    { rewrite EI, Nat.div_div by (try lia; apply Nat.pow_nonzero; lia).
      rewrite Nat.mul_comm, <- Nat.pow_succ_r'. do 2 f_equal. lia. }
    assert (LI : index / 2 < 2 ^ (d - 1 - i)).
    { rewrite EI2. apply Nat.div_lt_upper_bound; [apply Nat.pow_nonzero; lia|].
      rewrite <- Nat.pow_add_r. replace (i + (d - 1 - i)) with (d - 1) by lia. auto. }
    pose proof (pos_lt d i _ ltac:(lia) LI) as PL.
    destruct (Nat.ltb_spec (index / 2 + wt_off d i) (length w)) as [_|G]; [|lia].
    rewrite (Nat.add_comm (index / 2)). rewrite comp_index;
      [|lia | eapply Nat.lt_le_trans; [exact LI|apply Nat.pow_le_mono_r; lia]].
    set (w1 := upd (wt_off d i + index / 2) (value + comp)%Qc w).
    assert (VV : (value + comp)%Qc = node f' i (index / 2)).
    { rewrite EV, EC, node_pair. f_equal. lia. }
    assert (LC : Nat.lxor (index / 2) 1 < 2 ^ (d - 1 - i)).
    { assert (P2 : 2 ^ (d - 1 - i) = 2 * 2 ^ (d - 1 - i - 1)) by (rewrite <- Nat.pow_succ_r'; f_equal; lia).
      destruct (Nat.Even_or_Odd (index / 2)) as [[k K]|[k K]]; rewrite K in *.
      - rewrite lxor1_even. lia. - rewrite lxor1_odd. lia. }
    assert (LvI : LvlOk d w1 f' i).
    { intros j Lj. unfold w1. destruct (Nat.eq_dec j (index / 2)) as [->|NE].
      - rewrite upd_same by lia. congruence.
      - rewrite upd_other by lia. rewrite (HI i ltac:(lia) j Lj). f_equal. symmetry.
        apply node_tset_other. congruence. }
    rewrite (LvI _ LC).
    apply IH; auto; try lia.
    + unfold w1. rewrite upd_length. auto.
    + intros l Ll. destruct (Nat.eq_dec l i) as [->|NE]; auto.
      apply lvl_upd_other; auto; try lia. apply LO; lia.
    + intros l Ll. apply lvl_upd_other; auto; try lia. apply HI; lia.
    + rewrite EI2. do 2 f_equal. lia.
    + rewrite VV. f_equal. lia.
    + f_equal. lia.
Qed.

Lemma update_leaf_inv t f v i : WInv t f -> 2 <= wt_size t -> valid_idx (wt_size t) i ->
  exists w', wt_update_leaf t v i = (MkWt (wt_size t) (Qcmax (wt_max t) v) w', Ok tt) /\
    WInv (MkWt (wt_size t) (Qcmax (wt_max t) v) w') (tset f (Z.to_nat i) v).
Proof.
  intros [S1 LW PAD LV] S2 [I0 I1]. unfold wt_update_leaf.
  destruct (Z.leb_spec 0 i); [|lia]. destruct (Z.leb_spec i (Z.of_nat (wt_size t))); [|lia]. cbn [andb negb].
  set (x := Z.to_nat i). assert (X : x < wt_size t) by lia.
  pose proof (depth_cover _ S1) as DC. pose proof (depth_2 _ S2) as D2.
  unfold wt_d in *. set (d := wt_depth (wt_size t)) in *.
  assert (XL : x < 2 ^ (d - 1 - 0)) by (rewrite Nat.sub_0_r; lia).
  pose proof (pos_lt d 0 x ltac:(lia) XL) as PL. rewrite off_0 in PL. cbn in PL.
  destruct (Nat.ltb_spec x (length (wt_w t))); [|lia].
  set (w1 := upd x v (wt_w t)).
  assert (L0 : LvlOk d w1 (tset f x v) 0).
  { intros j Lj. rewrite node_0. unfold w1, tset. rewrite off_0. cbn [Nat.add].
    destruct (Nat.eqb_spec j x) as [->|NE].
    - apply upd_same. lia.
    - rewrite upd_other by auto. specialize (LV 0 ltac:(lia) j Lj). rewrite off_0, node_0 in LV. exact LV. }
  assert (LC : Nat.lxor x 1 < 2 ^ (d - 1 - 0)).
  { assert (P2 : 2 ^ (d - 1 - 0) = 2 * 2 ^ (d - 2)) by (rewrite <- Nat.pow_succ_r'; f_equal; lia).
    destruct (Nat.Even_or_Odd x) as [[k K]|[k K]]; rewrite K in *.
    - rewrite lxor1_even. lia. - rewrite lxor1_odd. lia. }
  pose proof (L0 _ LC) as NC. rewrite off_0 in NC. cbn [Nat.add] in NC. rewrite NC.
  destruct (ul_loop_inv d f x v (d - 2) 1 w1 x v (node (tset f x v) 0 (Nat.lxor x 1))) as (w2 & v' & c' & E & L2 & LV2 & SV); auto; try lia.
  - unfold w1. now rewrite upd_length.
  - intros l Hl. replace l with 0 by lia. auto.
  - intros l Hl. unfold w1. replace x with (wt_off d 0 + x) by (rewrite off_0; lia).
    apply lvl_upd_other; auto; try lia. apply LV; lia.
  - change (2 ^ (1 - 1)) with 1. now rewrite Nat.div_1_r.
  - cbn [Nat.sub]. rewrite node_0. unfold tset. now rewrite Nat.eqb_refl.
  - rewrite E. eexists; split; [reflexivity|].
    split; cbn [wt_size wt_w]; auto; unfold wt_d; cbn [wt_size]; fold d.
    + now rewrite upd_length.
    + intros k K. unfold tset. destruct (Nat.eqb_spec k x); [lia|auto].
    + intros l Hl.
      assert (EP : length w2 - 1 = wt_off d (d - 1) + 0).
      { rewrite L2. pose proof (off_S d (d - 1) ltac:(lia)). replace (S (d - 1)) with d in H2 by lia.
        replace (d - 1 - (d - 1)) with 0 in H2 by lia. cbn in H2. lia. }
      rewrite EP. destruct (Nat.eq_dec l (d - 1)) as [->|NE].
      * intros j Lj. replace (d - 1 - (d - 1)) with 0 in Lj by lia. cbn in Lj.
        replace j with 0 by lia. rewrite upd_same; [congruence|].
        rewrite L2. apply pos_lt; [lia|]. apply pow2_pos.
      * apply lvl_upd_other; auto; try lia; [apply pow2_pos|]. apply LV2. lia.
Qed.

(* ---- find ---- *)
Lemma find_loop_inv d w f : length w = wt_off d d -> (forall i, i < d -> LvlOk d w f i) ->
  forall n weight index, n < d -> index < 2 ^ (d - 1 - n) ->
  (0 < weight)%Qc -> (weight <= node f n index)%Qc ->
  exists r, find_loop d w n weight index = Ok r /\ r < 2 ^ (d - 1) /\
    (0 < weight + sumn f 0 (index * 2 ^ n) - sumn f 0 r)%Qc /\
    (weight + sumn f 0 (index * 2 ^ n) - sumn f 0 r <= f r)%Qc.
Proof.
  intros LW LV. induction n as [|n IH]; intros weight index ND LI W0 W1.
  - exists index. cbn. rewrite Nat.mul_1_r. rewrite node_0 in W1. rewrite Nat.sub_0_r in LI.
    split; auto. split; auto. split; qcl.
  - cbn [find_loop].
    assert (P2 : 2 ^ (d - 1 - n) = 2 * 2 ^ (d - 1 - S n)) by (rewrite <- Nat.pow_succ_r'; f_equal; lia).
    assert (L2 : index * 2 < 2 ^ (d - 1 - n)) by lia.
    unfold wget. rewrite (LV n ltac:(lia) _ L2). cbn [bind].
    rewrite node_S in W1. rewrite (Nat.mul_comm 2 index) in W1.
    assert (Q : (index * 2 * 2 ^ n) = index * 2 ^ S n) by (rewrite Nat.pow_succ_r'; lia).
    destruct (Qcltb_spec (node f n (index * 2)) weight) as [G|G].
    + destruct (IH (weight - node f n (index * 2) * 1)%Qc (index * 2 + 1)) as (r & E & R & A & B); try lia.
      { qcl. } { qcl. }
      exists r. split; auto. split; auto.
      assert (EQ : sumn f 0 ((index * 2 + 1) * 2 ^ n) = (sumn f 0 (index * 2 ^ S n) + node f n (index * 2))%Qc).
      { rewrite <- Q. unfold node. rewrite Nat.mul_add_distr_r, Nat.mul_1_l, sumn_add. reflexivity. }
      rewrite EQ in A, B. split; qcl.
    + destruct (IH (weight - node f n (index * 2) * 0)%Qc (index * 2 + 0)) as (r & E & R & A & B); try lia.
      { qcl. } { rewrite Nat.add_0_r. qcl. }
      exists r. split; auto. split; auto. rewrite Nat.add_0_r, Q in A, B. split; qcl.
Qed.

Lemma sumn_total f a n : sumn f a n = total_from f a n.
Proof. reflexivity. Qed.

Lemma root_eq t f : WInv t f -> wt_sum t = node f (wt_d t - 1) 0.
Proof.
  intros [S1 LW PAD LV]. pose proof (depth_pos (wt_size t)) as D1. unfold wt_sum.
  assert (H : nth_error (wt_w t) (wt_off (wt_d t) (wt_d t - 1) + 0) = Some (node f (wt_d t - 1) 0)).
  { apply LV; [unfold wt_d; lia|apply pow2_pos]. }
  assert (EP : wt_off (wt_d t) (wt_d t - 1) + 0 = length (wt_w t) - 1).
  { rewrite LW. assert (D1' : 1 <= wt_d t) by exact D1. generalize dependent (wt_d t). intros d _ _ _ D.
    pose proof (off_S d (d - 1) ltac:(lia)) as X. replace (S (d - 1)) with d in X by lia.
    replace (d - 1 - (d - 1)) with 0 in X by lia. cbn in X. lia. }
  rewrite EP in H. assert (length (wt_w t) <> 0).
  { intros Z. destruct (wt_w t); [discriminate|discriminate]. }
  clear - H H0. revert H H0. generalize (wt_w t) as l. intros l H NE.
  destruct (exists_last (l := l)) as (l' & x & ->); [intros ->; now apply NE|].
  rewrite last_last. rewrite app_length in H. cbn in H.
  rewrite nth_error_app2 in H by lia. replace (length l' + 1 - 1 - length l') with 0 in H by lia.
  now injection H.
Qed.

Lemma root_total t f : WInv t f -> wt_sum t = total_from f 0 (wt_size t).
Proof.
  intros I. rewrite (root_eq _ _ I). destruct I as [S1 LW PAD LV]. rewrite <- sumn_total. unfold node.
  pose proof (depth_cover _ S1) as DC. unfold wt_d.
  replace (2 ^ (wt_depth (wt_size t) - 1)) with (wt_size t + (2 ^ (wt_depth (wt_size t) - 1) - wt_size t)) by lia.
  rewrite Nat.mul_0_l, sumn_add. rewrite (@sumn_zero f (0 + _)); [ring|]. intros; apply PAD; lia.
Qed.

Lemma find_inv t f x : WInv t f -> (0 < x)%Qc -> (x <= wt_sum t)%Qc ->
  exists r, wt_find1 t x = Ok r /\ r < wt_size t /\ (prefix f r < x)%Qc /\ (x <= prefix f (S r))%Qc.
Proof.
  intros I X0 X1. pose proof (root_eq _ _ I) as RE. destruct I as [S1 LW PAD LV].
  pose proof (depth_pos (wt_size t)) as D1.
  destruct (find_loop_inv _ _ _ LW LV (wt_d t - 1) x 0) as (r & E & R & A & B); auto.
  - unfold wt_d; lia. - apply pow2_pos. - now rewrite <- RE.
  - assert (P : (0 < f r)%Qc) by qcl.
    assert (RS : r < wt_size t).
    { destruct (Nat.lt_ge_cases r (wt_size t)); auto. rewrite (PAD r) in P by auto. exfalso. qcl. }
    unfold wt_find1. rewrite E. cbn [bind]. exists r. split; [f_equal; lia|]. split; auto.
    unfold prefix. rewrite <- !sumn_total. rewrite sumn_S_r. cbn [Nat.add].
    rewrite Nat.mul_0_l in A, B. cbn [sumn] in A, B. split; qcl.
Qed.

(* weight 0: always leaf 0 *)
Lemma find_loop_zero d w f : length w = wt_off d d -> (forall i, i < d -> LvlOk d w f i) ->
  (forall k, (0 <= f k)%Qc) ->
  forall n, n < d -> find_loop d w n 0%Qc 0 = Ok 0.
Proof.
  intros LW LV NN. induction n as [|n IH]; intros L; auto. cbn [find_loop]. change (0 * 2) with 0.
  unfold wget. rewrite (LV n ltac:(lia) 0) by apply pow2_pos. cbn [bind].
  assert (0 <= node f n 0)%Qc by (apply sumn_nonneg; auto).
  destruct (Qcltb_spec (node f n 0) 0%Qc); [exfalso; qcl|].
  replace (0 - node f n 0 * 0)%Qc with 0%Qc by ring. apply IH. lia.
Qed.
Lemma find_zero t f : WInv t f -> (forall k, (0 <= f k)%Qc) -> wt_find1 t 0%Qc = Ok 0.
Proof.
  intros [S1 LW PAD LV] NN. unfold wt_find1. erewrite find_loop_zero; eauto.
  pose proof (depth_pos (wt_size t)). unfold wt_d. lia.
Qed.

(* ---- batch ---- *)
Lemma In_uinsert x y l : In x (uinsert y l) <-> x = y \/ In x l.
Proof.
  induction l as [|z r IH]; cbn [uinsert]; [cbn; intuition|].
  destruct (y <? z); [cbn; intuition|]. destruct (Nat.eqb_spec y z) as [<-|].
  - cbn. clear IH. intuition.
  - cbn [In]. rewrite IH. intuition.
Qed.
Lemma In_np_unique x l : In x (np_unique l) <-> In x l.
Proof. induction l; cbn; [tauto|]. rewrite In_uinsert, IHl. intuition. Qed.

Lemma fold_upd_length (ps : list (nat * Qc)) w :
  length (fold_left (fun w p => upd (fst p) (snd p) w) ps w) = length w.
Proof. revert w; induction ps; intros; cbn; auto. rewrite IHps. apply upd_length. Qed.

(* assigning g(j) at offset o+j, for all j in needs *)
Lemma fold_upd_get (o : nat) (g : nat -> Qc) needs : forall w k,
  (forall j, In j needs -> o + j < length w) ->
  nth_error (fold_left (fun w p => upd (fst p) (snd p) w) (map (fun j => (o + j, g j)) needs) w) k
  = if existsb (fun j => o + j =? k) needs then Some (g (k - o)) else nth_error w k.
Proof.
  induction needs as [|j r IH]; intros w k L; cbn; auto.
  rewrite IH by (intros; rewrite upd_length; apply L; now right).
  destruct (existsb (fun j0 => o + j0 =? k) r) eqn:EX; [now rewrite orb_true_r|rewrite orb_false_r].
  destruct (Nat.eqb_spec (o + j) k).
  - subst. rewrite upd_same by (apply L; now left). do 2 f_equal. lia.
  - now apply upd_other.
Qed.

Lemma index_all_fun {A} (l : list A) is (g : nat -> A) (p : nat -> nat) :
  (forall j, In j is -> nth_error l (p j) = Some (g j)) ->
  index_all l (map p is) = Ok (map g is).
Proof.
  induction is as [|i r IH]; cbn; intros H; auto.
  rewrite H by auto. rewrite IH by auto. reflexivity.
Qed.

Lemma combine_map2 {A B C} (f : A -> B) (g : A -> C) l : combine (map f l) (map g l) = map (fun x => (f x, g x)) l.
Proof. induction l; cbn; congruence. Qed.

Lemma ub_loop_inv d f f' : forall n i w needs,
  1 <= i -> i + n = d -> length w = wt_off d d ->
  (forall j, In j needs -> j < 2 ^ (d - i)) ->
  (forall j, j < 2 ^ (d - i) -> ~ In j needs -> node f' (i - 1) j = node f (i - 1) j) ->
  (forall l, l < i -> LvlOk d w f' l) -> (forall l, i <= l < d -> LvlOk d w f l) ->
  exists w', ub_loop d n i w needs = (w', Ok tt) /\ length w' = wt_off d d /\
    (forall l, l < d -> LvlOk d w' f' l).
Proof.
  induction n as [|n IH]; intros i w needs I1 E LW LN SAME LO HI.
  - exists w. cbn. split; auto. split; auto. intros l Hl. apply LO. lia.
  - cbn [ub_loop]. set (ns := np_unique (map (fun j => j / 2) needs)).
    assert (P2 : 2 ^ (d - i) = 2 * 2 ^ (d - 1 - i)) by (rewrite <- Nat.pow_succ_r'; f_equal; lia).
    assert (LNS : forall j, In j ns -> j < 2 ^ (d - 1 - i)).
    { intros j Hj. apply In_np_unique, in_map_iff in Hj as (q & <- & Hq). apply LN in Hq.
      apply Nat.div_lt_upper_bound; lia. }
    assert (RD : forall j, j < 2 ^ (d - i) -> nth_error w (wt_off d (i - 1) + j) = Some (node f' (i - 1) j)).
    { intros j Lj. apply LO; [lia|]. replace (d - 1 - (i - 1)) with (d - i) by lia. auto. }
    rewrite (index_all_fun w ns (fun j => node f' (i - 1) (j * 2)) (fun j => wt_off d (i - 1) + j * 2)).
    2:{ intros j Hj. apply RD. apply LNS in Hj. lia. }
    cbn [bind].
    rewrite (index_all_fun w ns (fun j => node f' (i - 1) (j * 2 + 1)) (fun j => wt_off d (i - 1) + j * 2 + 1)).
    2:{ intros j Hj. rewrite <- Nat.add_assoc. apply RD. apply LNS in Hj. lia. }
    cbn [bind]. unfold wassign.
    assert (FB : forallb (fun k => k <? length w) (map (fun j => wt_off d i + j) ns) = true).
    { apply forallb_forall. intros k Hk. apply in_map_iff in Hk as (j & <- & Hj).
      apply Nat.ltb_lt. rewrite LW. apply pos_lt; auto. lia. }
    rewrite FB. rewrite combine_map2, map_map, combine_map2. cbn [fst snd].
    set (w1 := fold_left _ _ w).
    assert (GET : forall k, nth_error w1 k = if existsb (fun j => wt_off d i + j =? k) ns
              then Some ((fun j => node f' (i - 1) (j * 2) + node f' (i - 1) (j * 2 + 1))%Qc (k - wt_off d i))
              else nth_error w k).
    { intros k. unfold w1. apply (fold_upd_get (wt_off d i)
         (fun j => node f' (i - 1) (j * 2) + node f' (i - 1) (j * 2 + 1))%Qc ns w k).
      intros j Hj. rewrite LW. apply pos_lt; auto. lia. }
    assert (OTHER : forall g l, l < d -> l <> i -> LvlOk d w g l -> LvlOk d w1 g l).
    { intros g l Ll NE H j Lj. rewrite GET.
      destruct (existsb _ ns) eqn:EX; [|now apply H].
      apply existsb_exists in EX as (q & Hq & Eq). apply Nat.eqb_eq in Eq.
      destruct (pos_inj d i q l j) as [? _]; auto; lia. }
    apply IH; try lia.
    + unfold w1. now rewrite fold_upd_length.
    + intros j Hj. replace (d - S i) with (d - 1 - i) by lia. auto.
    + replace (S i - 1) with (S (i - 1)) by lia. intros j Lj NI. rewrite !node_S.
      assert (N : forall q, q / 2 = j -> ~ In q needs).
      { intros q Q Hq. apply NI. apply In_np_unique. rewrite <- Q. apply (in_map (fun j => j / 2)). auto. }
      replace (d - S i) with (d - 1 - i) in Lj by lia.
      f_equal; apply SAME; try lia; apply N.
      * rewrite Nat.mul_comm. apply Nat.div_mul. lia.
      * rewrite (Nat.mul_comm 2), Nat.div_add_l by lia. cbn. lia.
    + intros l Ll. destruct (Nat.eq_dec l i) as [->|NE].
      * intros j Lj. rewrite GET.
        destruct (existsb (fun j0 => wt_off d i + j0 =? wt_off d i + j) ns) eqn:EX.
        -- replace (wt_off d i + j - wt_off d i) with j by lia. cbn beta.
           replace i with (S (i - 1)) at 3 by lia. rewrite node_S. rewrite (Nat.mul_comm 2). reflexivity.
        -- rewrite (HI i ltac:(lia) j Lj). f_equal.
           assert (NI : ~ In j ns).
           { intros H. assert (existsb (fun j0 => wt_off d i + j0 =? wt_off d i + j) ns = true); [|congruence].
             apply existsb_exists. exists j. split; auto. apply Nat.eqb_refl. }
           assert (N : forall q, q / 2 = j -> ~ In q needs).
           { intros q Q Hq. apply NI. apply In_np_unique. rewrite <- Q. apply (in_map (fun j => j / 2)). auto. }
           replace i with (S (i - 1)) by lia. rewrite !node_S.
           f_equal; symmetry; apply SAME; try lia; apply N.
           ++ rewrite Nat.mul_comm. apply Nat.div_mul. lia.
           ++ rewrite (Nat.mul_comm 2), Nat.div_add_l by lia. cbn. lia.
      * apply OTHER; auto; try lia. apply LO. lia.
    + intros l Ll. apply OTHER; try lia. apply HI. lia.
Qed.

Definition tset_all (f : nat -> Qc) (ps : list (nat * Qc)) := fold_left (fun f p => tset f (fst p) (snd p)) ps f.

Lemma tset_all_notin ps : forall f k, ~ In k (map fst ps) -> tset_all f ps k = f k.
Proof.
  induction ps as [|[i x] r IH]; intros f k N; cbn; auto. cbn in N.
  unfold tset_all in *. rewrite IH by tauto. unfold tset. destruct (Nat.eqb_spec k i); auto. subst; tauto.
Qed.

Lemma fold_upd_tset ps : forall f w,
  (forall i, In i (map fst ps) -> i < length w) ->
  (forall k, k < length w -> nth_error w k = Some (f k)) ->
  forall k, k < length w ->
  nth_error (fold_left (fun w p => upd (fst p) (snd p) w) ps w) k = Some (tset_all f ps k).
Proof.
  induction ps as [|[i x] r IH]; intros f w L H k K; cbn; auto.
  unfold tset_all. cbn. apply IH; cbn; rewrite ?upd_length; auto.
  - intros; apply L; cbn; auto.
  - intros q Q. unfold tset. destruct (Nat.eqb_spec q i).
    + subst. now apply upd_same. + rewrite upd_other; auto.
Qed.

Lemma map_fst_combine {A B} (a : list A) (b : list B) : length a = length b -> map fst (combine a b) = a.
Proof. revert b; induction a; intros [|y b] H; cbn in *; try discriminate; auto. f_equal; auto. Qed.

Lemma fold_upd_high ps : forall (w : list Qc) k, (forall i, In i (map fst ps) -> i <> k) ->
  nth_error (fold_left (fun w p => upd (fst p) (snd p) w) ps w) k = nth_error w k.
Proof. induction ps as [|[i x] r IH]; intros w k H; cbn; auto. rewrite IH by (intros; apply H; now right).
  apply upd_other. apply H. now left. Qed.

Lemma combine_map_l {A B C} (g : A -> B) (a : list A) (b : list C) :
  combine (map g a) b = map (fun p => (g (fst p), snd p)) (combine a b).
Proof. revert b; induction a; intros [|y b]; cbn; auto. f_equal; auto. Qed.

Lemma spec_batch_tset_all f ws is :
  fold_left (fun f p => tset f (Z.to_nat (fst p)) (snd p)) (combine is ws) f
  = tset_all f (combine (map Z.to_nat is) ws).
Proof.
  rewrite combine_map_l. unfold tset_all. generalize (combine is ws) f. intros l.
  induction l; intros g; cbn; auto.
Qed.

Lemma in_range_spec s z : in_range s z = true <-> valid_idx s z.
Proof. unfold in_range, valid_idx. rewrite andb_true_iff, Z.leb_le, Z.ltb_lt. tauto. Qed.

Definition batch_max (m : Qc) (ws : list Qc) :=
  match ws with [] => m | x :: r => Qcmax m (qmax_list x r) end.

Lemma update_batch_inv t f ws is : WInv t f -> valid_op (wt_size t) (WBatch ws is) ->
  exists w', wt_update_batch t ws is = (MkWt (wt_size t) (batch_max (wt_max t) ws) w', Ok tt) /\
    WInv (MkWt (wt_size t) (batch_max (wt_max t) ws) w') (spec_step f (WBatch ws is)).
Proof.
  intros I [LE VI]. unfold wt_update_batch. rewrite LE, Nat.eqb_refl. cbn [negb].
  destruct ws as [|x r].
  { destruct is; [|discriminate]. exists (wt_w t). destruct t; cbn in *. auto. }
  assert (FB : forallb (in_range (wt_size t)) is = true).
  { apply forallb_forall. intros z Hz. apply in_range_spec. auto. }
  rewrite FB. cbn [negb]. destruct I as [S1 LW PAD LV].
  pose proof (depth_cover _ S1) as DC. pose proof (depth_pos (wt_size t)) as D1.
  unfold wt_d in *. set (d := wt_depth (wt_size t)) in *.
  set (ws := x :: r) in *. set (ns := map Z.to_nat is).
  assert (LNS : forall j, In j ns -> j < wt_size t).
  { intros j Hj. apply in_map_iff in Hj as (z & <- & Hz). apply VI in Hz. destruct Hz. lia. }
  assert (L0 : 2 ^ (d - 1) <= length (wt_w t)).
  { rewrite LW. pose proof (off_mono d 1 d ltac:(lia) (le_n _)). rewrite off_S, off_0 in H by lia.
    rewrite Nat.sub_0_r in H. cbn in H. lia. }
  unfold wassign.
  assert (FB2 : forallb (fun i => i <? length (wt_w t)) ns = true).
  { apply forallb_forall. intros j Hj. apply Nat.ltb_lt. apply LNS in Hj. lia. }
  rewrite FB2. set (w1 := fold_left _ _ (wt_w t)).
  set (f' := tset_all f (combine ns ws)).
  assert (MF : map fst (combine ns ws) = ns) by (apply map_fst_combine; unfold ns; rewrite map_length; auto).
  destruct (ub_loop_inv d f f' (d - 1) 1 w1 ns) as (w2 & E & L2 & LV2); auto; try lia.
  - unfold w1. now rewrite fold_upd_length.
  - intros j Hj. apply LNS in Hj. replace (d - 1) with (d - 1) by lia. lia.
  - intros j Lj NI. cbn [Nat.sub]. rewrite !node_0. apply tset_all_notin. now rewrite MF.
  - intros l Ll. replace l with 0 by lia. intros j Lj. rewrite off_0, node_0. cbn [Nat.add].
    rewrite Nat.sub_0_r in Lj. unfold w1, f'.
    (* restrict to the leaf part *)
    assert (LVL0 : forall k, k < 2 ^ (d - 1) -> nth_error (wt_w t) k = Some (f k)).
    { intros k K. specialize (LV 0 ltac:(lia) k). rewrite Nat.sub_0_r, off_0, node_0 in LV. now apply LV. }
    clear - LVL0 Lj MF LNS DC L0. revert LVL0 L0.
    assert (B : forall i, In i (map fst (combine ns ws)) -> i < 2 ^ (d - 1)).
    { rewrite MF. intros i Hi. apply LNS in Hi. lia. }
    clear MF. generalize dependent (combine ns ws). intros ps B. generalize (wt_w t) as w. revert f.
    induction ps as [|[i v] q IH]; intros f w LVL0 L0; cbn; auto.
    apply IH.
    + intros; apply B; now right.
    + intros k K. unfold tset. destruct (Nat.eqb_spec k i).
      * subst. apply upd_same. lia. * rewrite upd_other; auto.
    + rewrite upd_length. auto.
  - intros l Hl j Lj. unfold w1. rewrite fold_upd_high; [apply LV; auto; lia|].
    rewrite MF. intros i Hi EQ. apply LNS in Hi.
    destruct (pos_inj d 0 i l j) as [? _]; rewrite ?off_0, ?Nat.sub_0_r; try lia.
  - rewrite E. exists w2. split; auto. split; cbn [wt_size wt_w]; auto.
    + intros k K. cbn [spec_step]. rewrite spec_batch_tset_all. fold ns.
      rewrite tset_all_notin; auto. rewrite MF. intros Hk. apply LNS in Hk. lia.
    + unfold wt_d. cbn [wt_size]. fold d. intros i Li. cbn [spec_step]. rewrite spec_batch_tset_all. auto.
Qed.

(* ---- build ---- *)
Lemma splice_length a xs w : a + length xs <= length w -> length (splice a xs w) = length w.
Proof. intros. unfold splice. rewrite !app_length, firstn_length, skipn_length. lia. Qed.
Lemma splice_get a xs w k : a + length xs <= length w ->
  nth_error (splice a xs w) k =
  if (a <=? k) && (k <? a + length xs) then nth_error xs (k - a) else nth_error w k.
Proof.
  intros L. unfold splice.
  destruct (Nat.leb_spec a k); cbn [andb].
  - rewrite nth_error_app2 by (rewrite firstn_length; lia). rewrite firstn_length, Nat.min_l by lia.
    destruct (Nat.ltb_spec k (a + length xs)).
    + rewrite nth_error_app1 by lia. reflexivity.
    + rewrite nth_error_app2 by lia.
      rewrite <- (firstn_skipn (a + length xs) w) at 2.
      rewrite nth_error_app2 by (rewrite firstn_length; lia). rewrite firstn_length, Nat.min_l by lia. f_equal. lia.
  - rewrite nth_error_app1 by (rewrite firstn_length; lia).
    rewrite <- (firstn_skipn a w) at 2. rewrite nth_error_app1; auto. rewrite firstn_length; lia.
Qed.

Lemma pair_sums_spec (g : nat -> Qc) n : forall a, 
  pair_sums (map g (seq a (2 * n))) = map (fun j => g (a + 2 * j)%nat + g (a + 2 * j + 1)%nat)%Qc (seq 0 n).
Proof.
  induction n as [|n IH]; intros a; auto.
  replace (2 * S n) with (S (S (2 * n))) by lia. cbn [seq map pair_sums].
  rewrite IH. f_equal.
  - do 2 f_equal; lia.
  - rewrite <- seq_shift, map_map. apply map_ext. intros j. do 2 f_equal; lia.
Qed.

Lemma list_eq_map_seq (l : list Qc) (g : nat -> Qc) n : length l = n ->
  (forall k, k < n -> nth_error l k = Some (g k)) -> l = map g (seq 0 n).
Proof.
  intros L H. apply nth_error_ext. intros k. destruct (Nat.lt_ge_cases k n).
  - rewrite H by auto. rewrite nth_error_map.
    rewrite (nth_error_nth' _ 0) by (rewrite seq_length; auto). rewrite seq_nth by auto. reflexivity.
  - rewrite (proj2 (nth_error_None _ _)) by lia. symmetry. apply nth_error_None. rewrite map_length, seq_length. auto.
Qed.

Lemma build_loop_inv d f : forall n i w, i + n = d - 1 -> 1 <= d -> length w = wt_off d d ->
  (forall l, l <= i -> LvlOk d w f l) ->
  length (build_loop d n i w) = wt_off d d /\ forall l, l < d -> LvlOk d (build_loop d n i w) f l.
Proof.
  induction n as [|n IH]; intros i w E D1 LW LV.
  - cbn. split; auto. intros l Hl. apply LV. lia.
  - cbn [build_loop]. rewrite (nth_error_nth _ _ _ (wt_sizes_nth d i ltac:(lia))).
    assert (P2 : 2 ^ (d - 1 - i) = 2 * 2 ^ (d - 1 - S i)) by (rewrite <- Nat.pow_succ_r'; f_equal; lia).
    pose proof (off_S d i ltac:(lia)) as OS.
    pose proof (off_S d (S i) ltac:(lia)) as OS2.
    pose proof (off_mono d (S (S i)) d ltac:(lia) (le_n _)) as OM.
    assert (EX : firstn (2 ^ (d - 1 - i)) (skipn (wt_off d i) w) = map (node f i) (seq 0 (2 ^ (d - 1 - i)))).
    { apply list_eq_map_seq.
      - rewrite firstn_length, skipn_length. lia.
      - intros k K.
        transitivity (nth_error w (wt_off d i + k)); [|apply LV; auto].
        rewrite <- (firstn_skipn (wt_off d i) w) at 2.
        rewrite nth_error_app2 by (rewrite firstn_length; lia).
        rewrite firstn_length, Nat.min_l by lia.
        replace (wt_off d i + k - wt_off d i) with k by lia.
        rewrite <- (firstn_skipn (2 ^ (d - 1 - i)) (skipn (wt_off d i) w)) at 2.
        rewrite nth_error_app1; auto. rewrite firstn_length, skipn_length. lia. }
    rewrite EX, P2, pair_sums_spec. cbn [Nat.add].
    set (ws := map _ (seq 0 (2 ^ (d - 1 - S i)))).
    assert (LWS : length ws = 2 ^ (d - 1 - S i)) by (unfold ws; now rewrite map_length, seq_length).
    replace (wt_off d i + 2 * 2 ^ (d - 1 - S i)) with (wt_off d (S i)) by lia.
    apply IH; try lia.
    + rewrite splice_length; lia.
    + intros l Hl j Lj. rewrite splice_get by lia.
      destruct (Nat.eq_dec l (S i)) as [->|NE].
      * destruct (Nat.leb_spec (wt_off d (S i)) (wt_off d (S i) + j)); [|lia].
        destruct (Nat.ltb_spec (wt_off d (S i) + j) (wt_off d (S i) + length ws)); [|lia]. cbn [andb].
        replace (wt_off d (S i) + j - wt_off d (S i)) with j by lia.
        unfold ws. rewrite nth_error_map, (nth_error_nth' _ 0) by (rewrite seq_length; auto).
        rewrite seq_nth by auto. cbn [option_map Nat.add]. f_equal. now rewrite node_S.
      * pose proof (off_mono d (S l) (S i) ltac:(lia) ltac:(lia)). rewrite off_S in H by lia.
        destruct (Nat.leb_spec (wt_off d (S i)) (wt_off d l + j)); [lia|]. cbn [andb]. apply LV; auto. lia.
Qed.

Lemma update_all_inv t f ws : WInv t f -> length ws = wt_size t ->
  exists w', wt_update_all t ws =
      (MkWt (wt_size t) (match ws with [] => wt_max t | x :: r => qmax_list x r end) w', Ok tt) /\
    WInv (MkWt (wt_size t) (match ws with [] => wt_max t | x :: r => qmax_list x r end) w') (spec_step f (WAll ws)).
Proof.
  intros [S1 LW PAD LV] LE. unfold wt_update_all. rewrite LE, Nat.eqb_refl. cbn [negb].
  pose proof (depth_cover _ S1) as DC. pose proof (depth_pos (wt_size t)) as D1.
  unfold wt_d in *. set (d := wt_depth (wt_size t)) in *.
  assert (L0 : 2 ^ (d - 1) <= length (wt_w t)).
  { rewrite LW. pose proof (off_mono d 1 d ltac:(lia) (le_n _)). rewrite off_S, off_0 in H by lia.
    rewrite Nat.sub_0_r in H. cbn in H. lia. }
  assert (FW : firstn (wt_size t) (splice 0 ws (wt_w t)) = ws).
  { unfold splice. cbn [firstn app]. rewrite firstn_app, LE, Nat.sub_diag. cbn. rewrite app_nil_r.
    rewrite <- LE. apply firstn_all. }
  rewrite FW. destruct ws as [|x r]; [cbn in LE; lia|].
  set (ws := x :: r) in *.
  destruct (build_loop_inv d (fun k => nth k ws 0%Qc) (d - 1) 0 (splice 0 ws (wt_w t))) as [A B]; auto; try lia.
  - rewrite splice_length; lia.
  - intros l Hl. replace l with 0 by lia. intros j Lj. rewrite off_0, node_0. cbn [Nat.add].
    rewrite splice_get by lia. cbn [Nat.leb andb Nat.add]. rewrite Nat.sub_0_r in *.
    destruct (Nat.ltb_spec j (length ws)).
    + now apply nth_error_nth'.
    + rewrite (nth_overflow ws) by lia. specialize (LV 0 ltac:(lia) j). rewrite Nat.sub_0_r, off_0, node_0 in LV.
      cbn [Nat.add] in LV. rewrite LV by auto. f_equal. apply PAD. lia.
  - eexists; split; [reflexivity|]. split; cbn [wt_size wt_w]; auto.
    intros k K. cbn [spec_step]. apply nth_overflow. lia.
Qed.

(* ---- runs ---- *)
Lemma wt_step_inv t f o : WInv t f -> 2 <= wt_size t -> valid_op (wt_size t) o ->
  snd (wt_step t o) = Ok tt /\ WInv (fst (wt_step t o)) (spec_step f o) /\
  wt_size (fst (wt_step t o)) = wt_size t.
Proof.
  intros I S2 V. destruct o as [v i|ws is|ws]; cbn [wt_step].
  - destruct (update_leaf_inv _ _ v i I S2 V) as (w' & -> & I'). cbn. auto.
  - destruct (update_batch_inv _ _ ws is I V) as (w' & -> & I'). cbn. auto.
  - destruct (update_all_inv _ _ ws I V) as (w' & -> & I'). cbn. auto.
Qed.

Lemma wt_run_inv_gen os : forall t f, WInv t f -> 2 <= wt_size t ->
  (forall o, In o os -> valid_op (wt_size t) o) ->
  WInv (wt_run t os) (fold_left spec_step os f) /\ wt_size (wt_run t os) = wt_size t.
Proof.
  induction os as [|o r IH]; intros t f I S2 V; cbn; auto.
  destruct (wt_step_inv _ _ o I S2 (V o (or_introl eq_refl))) as (_ & I' & SZ).
  destruct (IH (fst (wt_step t o)) (spec_step f o)) as [A B]; auto; try (rewrite SZ; auto).
  - intros; apply V; now right.
  - split; auto. rewrite SZ in B. exact B.
Qed.

Lemma wt_run_inv s os : 2 <= s -> (forall o, In o os -> valid_op s o) ->
  WInv (wt_run (wt_new s) os) (spec_run os) /\ wt_size (wt_run (wt_new s) os) = s.
Proof. intros S2 V. apply (wt_run_inv_gen os (wt_new s)); auto. apply wt_new_inv. lia. Qed.

Lemma leaves_inv t f : WInv t f -> wt_leaves t = map f (seq 0 (wt_size t)).
Proof.
  intros [S1 LW PAD LV]. pose proof (depth_cover _ S1) as DC. pose proof (depth_pos (wt_size t)) as D1.
  unfold wt_leaves. unfold wt_d in *. set (d := wt_depth (wt_size t)) in *.
  assert (L0 : 2 ^ (d - 1) <= length (wt_w t)).
  { rewrite LW. pose proof (off_mono d 1 d ltac:(lia) (le_n _)). rewrite off_S, off_0 in H by lia.
    rewrite Nat.sub_0_r in H. cbn in H. lia. }
  apply list_eq_map_seq.
  - rewrite firstn_length. lia.
  - intros k K. transitivity (nth_error (wt_w t) k).
    + rewrite <- (firstn_skipn (wt_size t) (wt_w t)) at 2. rewrite nth_error_app1; auto. rewrite firstn_length. lia.
    + specialize (LV 0 ltac:(lia) k). rewrite Nat.sub_0_r, off_0, node_0 in LV. apply LV. lia.
Qed.

(* two trees representing the same table have the same array *)
Lemma WInv_unique t1 t2 f g : WInv t1 f -> WInv t2 g -> wt_size t1 = wt_size t2 ->
  (forall k, f k = g k) -> wt_w t1 = wt_w t2.
Proof.
  intros I1 I2 SE E. destruct I1 as [S1 LW1 PAD1 LV1], I2 as [S2 LW2 PAD2 LV2].
  unfold wt_d in *. rewrite <- SE in *. set (d := wt_depth (wt_size t1)) in *.
  apply nth_error_ext. intros k.
  destruct (Nat.lt_ge_cases k (wt_off d d)) as [L|L].
  - assert (exists i j, i < d /\ j < 2 ^ (d - 1 - i) /\ k = wt_off d i + j) as (i & j & Li & Lj & ->).
    { assert (forall m, m <= d -> k < wt_off d m -> exists i j, i < d /\ j < 2 ^ (d - 1 - i) /\ k = wt_off d i + j) as G.
      { induction m; intros M K; [rewrite off_0 in K; lia|].
        destruct (Nat.lt_ge_cases k (wt_off d m)); [apply IHm; lia|].
        rewrite off_S in K by lia. exists m, (k - wt_off d m). split; [|split]; lia. }
      apply (G d); auto. }
    rewrite (LV1 i Li j Lj), (LV2 i Li j Lj). f_equal. apply node_ext. auto.
  - rewrite !(proj2 (nth_error_None _ _)); auto; lia.
Qed.

(* children relation, stated on the raw array *)
Lemma children_inv t f i j : WInv t f -> S i < wt_d t -> j < 2 ^ (wt_d t - 1 - S i) ->
  exists a b, nth_error (wt_w t) (wt_off (wt_d t) i + 2 * j) = Some a /\
    nth_error (wt_w t) (wt_off (wt_d t) i + (2 * j + 1)) = Some b /\
    nth_error (wt_w t) (wt_off (wt_d t) (S i) + j) = Some (a + b)%Qc.
Proof.
  intros [S1 LW PAD LV] Li Lj.
  assert (P2 : 2 ^ (wt_d t - 1 - i) = 2 * 2 ^ (wt_d t - 1 - S i)) by (rewrite <- Nat.pow_succ_r'; f_equal; lia).
  exists (node f i (2 * j)), (node f i (2 * j + 1)). split; [apply LV; lia|]. split; [apply LV; lia|].
  rewrite LV; auto. now rewrite node_S.
Qed.

(* ---- lookup is unique, monotone ---- *)
Lemma prefix_mono f i j : (forall k, (0 <= f k)%Qc) -> i <= j -> (prefix f i <= prefix f j)%Qc.
Proof. intros H L. unfold prefix. rewrite <- !sumn_total. now apply sumn_le. Qed.
Lemma prefix_unique f x i j : (forall k, (0 <= f k)%Qc) ->
  (prefix f i < x)%Qc -> (x <= prefix f (S i))%Qc -> (prefix f j < x)%Qc -> (x <= prefix f (S j))%Qc -> i = j.
Proof.
  intros NN A1 A2 B1 B2. destruct (Nat.lt_trichotomy i j) as [H|[H|H]]; auto; exfalso.
  - pose proof (prefix_mono f (S i) j NN H). qcl.
  - pose proof (prefix_mono f (S j) i NN H). qcl.
Qed.
Lemma prefix_S f i : prefix f (S i) = (prefix f i + f i)%Qc.
Proof. unfold prefix. rewrite <- !sumn_total. now rewrite sumn_S_r. Qed.
Lemma prefix_monotone_index f x y i j : (forall k, (0 <= f k)%Qc) -> (x <= y)%Qc ->
  (prefix f i < x)%Qc -> (y <= prefix f (S j))%Qc -> i <= j.
Proof.
  intros NN XY A B. destruct (Nat.le_gt_cases i j) as [H|H]; auto. exfalso.
  pose proof (prefix_mono f (S j) i NN H). qcl.
Qed.

(* nonnegative tables *)
Definition nonneg_op (o : wop) : Prop :=
  match o with WLeaf w _ => (0 <= w)%Qc | WBatch ws _ | WAll ws => forall w, In w ws -> (0 <= w)%Qc end.
Lemma tset_nonneg f i v : (forall k, (0 <= f k)%Qc) -> (0 <= v)%Qc -> forall k, (0 <= tset f i v k)%Qc.
Proof. intros H V k. unfold tset. destruct (Nat.eqb k i); auto. Qed.
Lemma spec_step_nonneg f o : (forall k, (0 <= f k)%Qc) -> nonneg_op o -> forall k, (0 <= spec_step f o k)%Qc.
Proof.
  intros H N. destruct o as [v i|ws is|ws]; cbn in *.
  - apply tset_nonneg; auto.
  - assert (N' : forall p, In p (combine is ws) -> (0 <= snd p)%Qc).
    { intros [a b] P. apply in_combine_r in P. cbn. auto. }
    revert N'. generalize (combine is ws) as ps. intros ps. revert f H. induction ps as [|p r IH]; intros f H N'; cbn; auto.
    apply IH; [|intros; apply N'; now right]. apply tset_nonneg; auto. apply N'. now left.
  - intros k. destruct (nth_in_or_default k ws 0%Qc) as [I|E]; auto. rewrite E. apply Qcle_refl.
Qed.
Lemma spec_run_nonneg os : (forall o, In o os -> nonneg_op o) -> forall k, (0 <= spec_run os k)%Qc.
Proof.
  unfold spec_run. assert (forall f, (forall k, (0 <= f k)%Qc) -> (forall o, In o os -> nonneg_op o) ->
     forall k, (0 <= fold_left spec_step os f k)%Qc) as G.
  { induction os as [|o r IH]; intros f H N; cbn; auto. apply IH; [|intros; apply N; now right].
    apply spec_step_nonneg; auto. apply N. now left. }
  intros N. apply G; auto. intros; apply Qcle_refl.
Qed.

(* ---- maximum bookkeeping ---- *)
Lemma Qcmax_cases a b : (Qcmax a b = a /\ (b <= a)%Qc) \/ (Qcmax a b = b /\ (a <= b)%Qc).
Proof. unfold Qcmax. qdec; [right|left]; split; auto; qcl. Qed.
Lemma Qcmax_assoc a b c : Qcmax (Qcmax a b) c = Qcmax a (Qcmax b c).
Proof. unfold Qcmax. qdec; auto; try qcl. Qed.
Lemma fold_qcmax_assoc l : forall m x, fold_left Qcmax l (Qcmax m x) = Qcmax m (fold_left Qcmax l x).
Proof. induction l as [|y r IH]; intros m x; cbn; auto. rewrite Qcmax_assoc. apply IH. Qed.
Lemma batch_max_fold m ws : batch_max m ws = fold_left Qcmax ws m.
Proof. destruct ws as [|x r]; cbn; auto. unfold qmax_list. now rewrite fold_qcmax_assoc. Qed.
Lemma is_max_app m l1 m2 l2 : is_max m l1 -> is_max m2 l2 -> is_max (Qcmax m m2) (l1 ++ l2).
Proof.
  intros [I1 U1] [I2 U2]. split.
  - destruct (Qcmax_cases m m2) as [[-> _]|[-> _]]; apply in_or_app; auto.
  - intros x H. apply in_app_or in H as [H|H].
    + specialize (U1 _ H). pose proof (Qcmax_l m m2). qcl.
    + specialize (U2 _ H). pose proof (Qcmax_r m m2). qcl.
Qed.
Lemma fold_is_max l : forall m acc, is_max m acc -> is_max (fold_left Qcmax l m) (acc ++ l).
Proof.
  induction l as [|x r IH]; intros m acc H; cbn; [now rewrite app_nil_r|].
  replace (acc ++ x :: r) with ((acc ++ [x]) ++ r) by now rewrite <- app_assoc.
  apply IH. apply is_max_app; auto. split; [now left|]. intros y [->|[]]. apply Qcle_refl.
Qed.
Lemma is_max_list x r : is_max (qmax_list x r) (x :: r).
Proof. apply (fold_is_max r x [x]). split; [now left|]. intros y [->|[]]. apply Qcle_refl. Qed.
Lemma is_max_unique m m' l : is_max m l -> is_max m' l -> m = m'.
Proof. intros [A B] [C D]. apply B in C. apply D in A. qcl. Qed.

Lemma wt_max_run os : forall t f acc, WInv t f -> 2 <= wt_size t ->
  (forall o, In o os -> valid_op (wt_size t) o) -> is_max (wt_max t) acc ->
  is_max (wt_max (wt_run t os)) (fold_left written_step os acc).
Proof.
  induction os as [|o r IH]; intros t f acc I S2 V M; cbn; auto.
  pose proof (V o (or_introl eq_refl)) as Vo.
  assert (NX : WInv (fst (wt_step t o)) (spec_step f o) /\ wt_size (fst (wt_step t o)) = wt_size t)
    by (destruct (wt_step_inv _ _ o I S2 Vo) as (_ & ? & ?); auto).
  destruct NX as [I' SZ].
  eapply IH; eauto; try (rewrite SZ; auto).
  - intros; apply V; now right.
  - destruct o as [v i|ws is|ws]; cbn [wt_step written_step].
    + destruct (update_leaf_inv _ _ v i I S2 Vo) as (w' & -> & _). cbn.
      apply is_max_app; auto. split; [now left|]. intros y [->|[]]. apply Qcle_refl.
    + destruct (update_batch_inv _ _ ws is I Vo) as (w' & -> & _). cbn [fst wt_max].
      rewrite batch_max_fold. now apply fold_is_max.
    + destruct (update_all_inv _ _ ws I Vo) as (w' & -> & _). cbn [fst wt_max].
      cbn in Vo. destruct ws as [|x q]; [cbn in Vo; lia|]. apply is_max_list.
Qed.

(* everything in the table was written since the last reset *)
Lemma table_written os : forall f acc s, (forall k, k < s -> In (f k) acc) ->
  (forall o, In o os -> valid_op s o) ->
  forall k, k < s -> In (fold_left spec_step os f k) (fold_left written_step os acc).
Proof.
  induction os as [|o r IH]; intros f acc s H V k K; cbn; auto.
  apply (IH _ _ s); auto; [|intros; apply V; now right].
  intros q Q. pose proof (V o (or_introl eq_refl)) as Vo.
  destruct o as [v i|ws is|ws]; cbn [spec_step written_step].
  - unfold tset. destruct (Nat.eqb q (Z.to_nat i)); apply in_or_app; [right; now left|left; auto].
  - apply in_or_app. rewrite spec_batch_tset_all.
    assert (forall ps, (forall p, In p ps -> In (snd p) ws) -> forall g, (In (g q) acc \/ In (g q) ws) ->
       In (tset_all g ps q) acc \/ In (tset_all g ps q) ws) as G.
    { induction ps as [|p ps IHp]; intros HP g HG; cbn; auto.
      apply IHp; [intros; apply HP; now right|]. unfold tset.
      destruct (Nat.eqb q (fst p)); auto. right. apply HP. now left. }
    apply G; auto. intros [a b] P. apply in_combine_r in P. auto.
  - cbn in Vo. apply nth_In. lia.
Qed.

Lemma leaf_max_upper s os : 2 <= s -> (forall o, In o os -> valid_op s o) ->
  forall w, In w (wt_leaves (wt_run (wt_new s) os)) -> (w <= wt_leaf_max (wt_run (wt_new s) os))%Qc.
Proof.
  intros S2 V w H. destruct (wt_run_inv s os S2 V) as [I SZ].
  rewrite (leaves_inv _ _ I), SZ in H. apply in_map_iff in H as (k & <- & K). apply in_seq in K.
  pose proof (wt_max_run os (wt_new s) _ [0%Qc] (wt_new_inv s ltac:(lia)) S2 V) as M.
  destruct M as [_ M]; [split; [now left|]; intros y [<-|[]]; apply Qcle_refl|].
  apply M. apply (table_written os _ _ s); auto; [intros; now left|lia].
Qed.

(* ---- equivalences of the three update calls ---- *)
Lemma single_eq_batch s os w i :
  2 <= s -> (forall o, In o os -> valid_op s o) -> valid_idx s i ->
  let t := wt_run (wt_new s) os in
  wt_update_leaf t w i = wt_update_batch t [w] [i].
Proof.
  intros S2 V Vi t. destruct (wt_run_inv s os S2 V) as [I SZ]. fold t in I, SZ.
  destruct (update_leaf_inv t _ w i I) as (w1 & -> & I1); try (rewrite SZ; auto).
  destruct (update_batch_inv t _ [w] [i] I) as (w2 & -> & I2).
  { cbn. split; auto. rewrite SZ. now intros ? [<-|[]]. }
  cbn [batch_max qmax_list fold_left] in *.
  assert (w1 = w2) as -> by exact (WInv_unique _ _ _ _ I1 I2 eq_refl (fun k => eq_refl)). now rewrite ?SZ.
Qed.

Lemma batch_eq_seq_gen ws : forall is t f, WInv t f -> 2 <= wt_size t -> valid_op (wt_size t) (WBatch ws is) ->
  exists t', fold_left (fun t p => fst (wt_update_leaf t (snd p) (fst p))) (combine is ws) t = t' /\
    WInv t' (spec_step f (WBatch ws is)) /\ wt_size t' = wt_size t /\ wt_max t' = fold_left Qcmax ws (wt_max t).
Proof.
  induction ws as [|w ws IH]; intros [|i is] t f I S2 [L V]; cbn in L; try discriminate.
  - exists t. cbn. auto.
  - cbn [combine fold_left fst snd].
    destruct (update_leaf_inv t f w i I S2 (V i (or_introl eq_refl))) as (w1 & -> & I1). cbn [fst].
    destruct (IH is (MkWt (wt_size t) (Qcmax (wt_max t) w) w1) _ I1) as (t' & E & I2 & SZ & M); auto.
    { cbn. split; [lia|]. intros; apply V; now right. }
    exists t'. cbn [wt_size wt_max] in *. repeat split; auto; apply I2.
Qed.

Lemma batch_eq_seq s os ws is :
  2 <= s -> (forall o, In o os -> valid_op s o) -> valid_op s (WBatch ws is) ->
  let t := wt_run (wt_new s) os in
  fst (wt_update_batch t ws is) = fold_left (fun t p => fst (wt_update_leaf t (snd p) (fst p))) (combine is ws) t.
Proof.
  intros S2 V Vi t. destruct (wt_run_inv s os S2 V) as [I SZ]. fold t in I, SZ.
  destruct (batch_eq_seq_gen ws is t _ I) as (t' & -> & I1 & SZ1 & M1); try (rewrite SZ; auto).
  destruct (update_batch_inv t _ ws is I) as (w2 & -> & I2); [rewrite SZ; auto|]. cbn [fst].
  destruct t' as [s1 m1 w1]. cbn [wt_size wt_max] in *. rewrite batch_max_fold in *.
  assert (w2 = w1) as -> by exact (WInv_unique _ _ _ _ I2 I1 ltac:(cbn; congruence) (fun k => eq_refl)).
  f_equal; congruence.
Qed.

Lemma tset_all_seq ws : forall f a k, 
  tset_all f (combine (seq a (length ws)) ws) k =
  if (a <=? k) && (k <? a + length ws) then nth (k - a) ws 0%Qc else f k.
Proof.
  induction ws as [|w ws IH]; intros f a k; cbn [length seq combine].
  - unfold tset_all. cbn [fold_left]. destruct (Nat.leb_spec a k), (Nat.ltb_spec k (a + 0)); cbn [andb]; auto; lia.
  - unfold tset_all. cbn [fold_left fst snd]. fold (tset_all (tset f a w) (combine (seq (S a) (length ws)) ws)).
    rewrite IH. unfold tset.
    destruct (Nat.leb_spec (S a) k), (Nat.ltb_spec k (S a + length ws)), (Nat.leb_spec a k),
      (Nat.ltb_spec k (a + S (length ws))), (Nat.eqb_spec k a); cbn [andb]; try lia; auto.
    + replace (k - a) with (S (k - S a)) by lia. reflexivity.
    + subst. rewrite Nat.sub_diag. reflexivity.
Qed.

Lemma all_eq_batch s os ws :
  2 <= s -> (forall o, In o os -> valid_op s o) -> length ws = s ->
  let t := wt_run (wt_new s) os in
  wt_w (fst (wt_update_all t ws)) = wt_w (fst (wt_update_batch t ws (map Z.of_nat (seq 0 s)))).
Proof.
  intros S2 V L t. destruct (wt_run_inv s os S2 V) as [I SZ]. fold t in I, SZ.
  destruct (update_all_inv t _ ws I) as (w1 & -> & I1); [congruence|].
  destruct (update_batch_inv t _ ws (map Z.of_nat (seq 0 s)) I) as (w2 & -> & I2).
  { cbn. rewrite map_length, seq_length. split; auto. rewrite SZ. intros i H.
    apply in_map_iff in H as (k & <- & K). apply in_seq in K. unfold valid_idx. lia. }
  cbn [fst wt_w].
  refine (WInv_unique _ _ _ _ I1 I2 eq_refl _).
  intros k. cbn [spec_step]. rewrite spec_batch_tset_all, map_map.
  rewrite (map_ext _ (fun x => x)) by (intros; apply Nat2Z.id). rewrite map_id, <- L, tset_all_seq.
  cbn [Nat.leb andb Nat.add]. rewrite Nat.sub_0_r. destruct (Nat.ltb_spec k (length ws)); auto.
  rewrite (nth_overflow ws) by lia. symmetry. apply (wi_pad _ _ I). lia.
Qed.

(* ---- rejections ---- *)
Lemma reject_batch t ws is i :
  In i is -> ~ valid_idx (wt_size t) i ->
  wt_leaf_weight t is = Err EValue /\
  (length ws = length is -> wt_update_batch t ws is = (t, Err EValue)).
Proof.
  intros H N. assert (F : forallb (in_range (wt_size t)) is = false).
  { destruct (forallb (in_range (wt_size t)) is) eqn:E; auto. exfalso. apply N.
    apply in_range_spec. rewrite forallb_forall in E. auto. }
  split.
  - unfold wt_leaf_weight. now rewrite F.
  - intros L. unfold wt_update_batch. rewrite L, Nat.eqb_refl, F. cbn. destruct ws; auto.
    destruct is; [destruct H|discriminate].
Qed.
Lemma reject_len t ws is : length ws <> length is -> wt_update_batch t ws is = (t, Err EValue).
Proof. intros L. unfold wt_update_batch. destruct (Nat.eqb_spec (length ws) (length is)); [lia|reflexivity]. Qed.
Lemma reject_all t ws : length ws <> wt_size t -> wt_update_all t ws = (t, Err EValue).
Proof. intros L. unfold wt_update_all. destruct (Nat.eqb_spec (length ws) (wt_size t)); [lia|reflexivity]. Qed.
Lemma reject_single t w i : ~ valid_idx (wt_size t) i -> i <> Z.of_nat (wt_size t) ->
  wt_update_leaf t w i = (t, Err EValue).
Proof.
  unfold valid_idx. intros N NE. unfold wt_update_leaf.
  destruct (Z.leb_spec 0 i), (Z.leb_spec i (Z.of_nat (wt_size t))); cbn; auto; lia.
Qed.
