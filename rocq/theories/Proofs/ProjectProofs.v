From Coq Require Import QArith Qround Lqa.
From Verif Require Import Lib.Rat Model.Losses Spec.LossesSpec Proofs.ReturnsProofs.
Close Scope Q_scope.
Open Scope nat_scope.
Set Implicit Arguments.

(* ---------------- lists ---------------- *)
Lemma map2_length {A B C} (f : A -> B -> C) l m : length l = length m -> length (map2 f l m) = length l.
Proof. revert m; induction l; intros [|b m] H; cbn in *; auto; discriminate. Qed.
Lemma map2_nth {A B C} (f : A -> B -> C) l m da db dc k : length l = length m -> k < length l ->
  nth k (map2 f l m) dc = f (nth k l da) (nth k m db).
Proof. revert m k; induction l; intros [|b m] [|k] H L; cbn in *; try lia; auto. apply IHl; lia. Qed.
Lemma nth_map_len {A B} (f : A -> B) l d d' k : k < length l -> nth k (map f l) d' = f (nth k l d).
Proof. intros H. rewrite (@nth_indep _ _ k d' (f d)) by (now rewrite map_length). apply map_nth. Qed.
Lemma nth_seq0 n k d : k < n -> nth k (seq 0 n) d = k.
Proof. intros. now rewrite seq_nth. Qed.
Section Flat.
  Context {X Y : Type}.
  Variables (f : X -> list Y) (A : nat).
  Lemma flat_length rows : (forall r, In r rows -> length (f r) = A) -> length (concat (map f rows)) = length rows * A.
  Proof.
    induction rows; intros H; cbn; auto. rewrite app_length, IHrows by (intros; apply H; right; auto).
    rewrite H by (left; auto). reflexivity.
  Qed.
  Lemma flat_nth rows dx dy i j : (forall r, In r rows -> length (f r) = A) -> i < length rows -> j < A ->
    nth (i * A + j) (concat (map f rows)) dy = nth j (f (nth i rows dx)) dy.
  Proof.
    revert i; induction rows; intros [|i] H Hi Hj; cbn [length] in Hi; try lia.
    - cbn. rewrite app_nth1; auto. rewrite H by (left; auto). auto.
    - cbn [map concat nth]. rewrite app_nth2; rewrite H by (left; auto); [|cbn; lia].
      replace (S i * A + j - A) with (i * A + j) by (cbn; lia). apply IHrows; auto; [|lia].
      intros; apply H; right; auto.
  Qed.
End Flat.
Lemma sumn_mul f A B : sumn f 0 (B * A) = sumn (fun i => sumn (fun j => f (i * A + j)) 0 A) 0 B.
Proof.
  induction B; auto. rewrite sumn_S_r, <- IHB. cbn [Nat.mul Nat.add]. rewrite Nat.add_comm, sumn_add. f_equal.
  cbn [Nat.add]. clear. rewrite <- (Nat.add_0_r (B * A)) at 1. generalize 0. induction A at 2 4; intros a; cbn; auto.
  f_equal. rewrite <- IHn. f_equal. lia.
Qed.
Lemma sumn_single f n i : i < n -> (forall k, k < n -> k <> i -> f k = 0%Qc) -> sumn f 0 n = f i.
Proof.
  intros H Z. replace n with (i + S (n - S i)) by lia. rewrite sumn_add, sumn_zero by (intros; apply Z; lia).
  cbn [sumn Nat.add]. rewrite sumn_zero by (intros; apply Z; lia). ring.
Qed.

(* ---------------- index_add ---------------- *)
Lemma index_add_spec t idx src :
  length idx = length src -> (forall i, In i idx -> (0 <= i < Z.of_nat (length t))%Z) ->
  exists t', index_add t idx src = Ok t' /\ length t' = length t /\
    forall k, k < length t -> nth k t' 0%Qc =
      (nth k t 0 + sumn (fun m => if (nth m idx 0 =? Z.of_nat k)%Z then nth m src 0%Qc else 0%Qc) 0 (length idx))%Qc.
Proof.
  revert t src. induction idx as [|i r IH]; intros t [|s src] L H; cbn in L; try discriminate.
  - exists t. cbn. repeat split; auto. intros. ring.
  - cbn [index_add]. pose proof (H i (or_introl eq_refl)) as Hi.
    destruct (Z.ltb_spec i 0); [lia|]. destruct (Z.leb_spec (Z.of_nat (length t)) i); [lia|]. cbn [orb].
    destruct (IH (upd (Z.to_nat i) (nth (Z.to_nat i) t 0 + s)%Qc t) src) as (t' & E & L' & N); [lia| |].
    + intros j Hj. rewrite upd_length. apply H. right; auto.
    + exists t'. rewrite upd_length in *. repeat split; auto. intros k Hk. rewrite N by auto. rewrite upd_nth.
      cbn [length sumn nth]. rewrite sumn_shift.
      destruct (Z.eqb_spec i (Z.of_nat k)) as [Q|Q].
      * subst i. rewrite Nat2Z.id, Nat.eqb_refl. apply Nat.ltb_lt in Hk. rewrite Hk. cbn [andb]. cbn [nth]. ring.
      * destruct (Nat.eqb_spec (Z.to_nat i) k); [lia|]. cbn [andb nth]. ring.
Qed.

(* ---------------- floor and ceiling ---------------- *)
Lemma zq_plus a b : zq (a + b) = (zq a + zq b)%Qc.
Proof. apply Qc_is_canon. unfold zq. qc_push1. now rewrite inject_Z_plus. Qed.
Lemma zq_nat n : zq (Z.of_nat n) = nq n. Proof. reflexivity. Qed.
Lemma zq_lt a b : (zq a < zq b)%Qc -> (a < b)%Z.
Proof. unfold Qclt, zq. rewrite !this_Q2Qc, <- Zlt_Qlt. auto. Qed.
Lemma zq_le a b : (zq a <= zq b)%Qc -> (a <= b)%Z.
Proof. unfold Qcle, zq. rewrite !this_Q2Qc, <- Zle_Qle. auto. Qed.
Lemma zq_le' a b : (a <= b)%Z -> (zq a <= zq b)%Qc.
Proof. unfold Qcle, zq. rewrite !this_Q2Qc, <- Zle_Qle. auto. Qed.
Lemma zq_1 : zq 1 = 1%Qc. Proof. reflexivity. Qed.
Lemma zq_inj a b : zq a = zq b -> a = b.
Proof. intros E. apply Z.le_antisymm; apply zq_le; rewrite E; apply Qcle_refl. Qed.
Lemma floor_le b : (zq (qfloor b) <= b)%Qc.
Proof. unfold Qcle, zq, qfloor. rewrite this_Q2Qc. apply Qfloor_le. Qed.
Lemma floor_gt b : (b < zq (qfloor b) + 1)%Qc.
Proof. rewrite <- zq_1, <- zq_plus. unfold Qclt, zq, qfloor. rewrite this_Q2Qc. apply Qlt_floor. Qed.
Lemma ceil_ge b : (b <= zq (qceil b))%Qc.
Proof. unfold Qcle, zq, qceil. rewrite this_Q2Qc. apply Qle_ceiling. Qed.
Lemma ceil_lt b : (zq (qceil b) < b + 1)%Qc.
Proof.
  assert (H : (zq (qceil b - 1) < b)%Qc) by (unfold Qclt, zq, qceil; rewrite this_Q2Qc; apply Qceiling_lt).
  replace (qceil b) with ((qceil b - 1) + 1)%Z by lia. rewrite zq_plus, zq_1. qcl.
Qed.
Lemma floor_ceil b : (b = zq (qfloor b) /\ qceil b = qfloor b) \/ ((zq (qfloor b) < b)%Qc /\ qceil b = (qfloor b + 1)%Z).
Proof.
  pose proof (floor_le b). pose proof (floor_gt b). pose proof (ceil_ge b). pose proof (ceil_lt b).
  destruct (Qclt_le_dec (zq (qfloor b)) b) as [Q|Q].
  - right. split; auto. apply Z.le_antisymm.
    + assert (qceil b < qfloor b + 2)%Z; [|lia]. apply zq_lt. replace (qfloor b + 2)%Z with (qfloor b + 1 + 1)%Z by lia.
      rewrite !zq_plus, zq_1. qcl.
    + assert (qfloor b < qceil b)%Z; [|lia]. apply zq_lt. qcl.
  - left. split; [qcl|]. apply Z.le_antisymm.
    + assert (qceil b < qfloor b + 1)%Z; [|lia]. apply zq_lt. rewrite zq_plus, zq_1. qcl.
    + assert (qfloor b - 1 < qceil b)%Z; [|lia]. apply zq_lt. replace (zq (qfloor b - 1)) with (zq (qfloor b) - 1)%Qc; [qcl|].
      replace (qfloor b) with (qfloor b - 1 + 1)%Z at 1 by lia. rewrite zq_plus, zq_1. ring.
Qed.
Lemma integral_floor b : integral b -> b = zq (qfloor b).
Proof.
  intros (z & E). fold (zq z) in E. destruct (floor_ceil b) as [[Q _]|[Q _]]; auto.
  pose proof (floor_gt b) as G. rewrite E in Q at 2. rewrite E in G at 1.
  rewrite <- zq_1, <- zq_plus in G. apply zq_lt in Q, G. lia.
Qed.
Lemma not_integral_floor b : ~ integral b -> (zq (qfloor b) < b)%Qc /\ qceil b = (qfloor b + 1)%Z.
Proof. intros N. destruct (floor_ceil b) as [[Q _]|Q]; auto. destruct N. eexists; exact Q. Qed.

(* what index_add gives to atom k from an image at b *)
Definition given (b : Qc) (k : Z) : Qc :=
  ((if (qfloor b =? k)%Z then zq (qceil b) - b else 0) + (if (qceil b =? k)%Z then b - zq (qfloor b) else 0))%Qc.
Lemma qc_abs_zero : Qcabs 0 = 0%Qc. Proof. unfold Qcabs. qdec; qcl. Qed.
Lemma given_integral b k : integral b -> given b k = 0%Qc.
Proof.
  intros I. apply integral_floor in I. unfold given.
  destruct (floor_ceil b) as [[Q C]|[Q C]]; [|exfalso; qcl].
  rewrite C. destruct (qfloor b =? k)%Z; [|ring]. rewrite <- Q. ring.
Qed.
Lemma given_tent b k : ~ integral b -> given b k = tent (b - zq k).
Proof.
  intros I. apply not_integral_floor in I as [Q C]. unfold given. rewrite C.
  pose proof (floor_gt b) as G. unfold tent.
  destruct (Z.eqb_spec (qfloor b) k) as [E|E].
  - subst k. destruct (Z.eqb_spec (qfloor b + 1) (qfloor b)); [lia|]. rewrite zq_plus, zq_1.
    unfold Qcmax, Qcabs. qdec; qcl.
  - destruct (Z.eqb_spec (qfloor b + 1) k) as [E2|E2].
    + subst k. rewrite zq_plus, zq_1 in *. unfold Qcmax, Qcabs. qdec; qcl.
    + assert (D : (k < qfloor b)%Z \/ (qfloor b + 1 < k)%Z) by lia.
      assert (D' : (zq k + 1 <= zq (qfloor b))%Qc \/ (zq (qfloor b) + 1 + 1 <= zq k)%Qc).
      { destruct D; [left|right]; rewrite <- zq_1, <- !zq_plus; apply zq_le'; lia. }
      unfold Qcmax, Qcabs. destruct D'; qdec; qcl.
Qed.
Lemma given_nonneg b k : (0 <= given b k)%Qc.
Proof.
  unfold given. pose proof (floor_le b). pose proof (ceil_ge b).
  destruct (qfloor b =? k)%Z, (qceil b =? k)%Z; qcl.
Qed.
Lemma given_mass b n : (0 <= qfloor b)%Z -> (qceil b < Z.of_nat n)%Z ->
  sumn (fun k => given b (Z.of_nat k)) 0 n = (zq (qceil b) - zq (qfloor b))%Qc.
Proof.
  intros L U. unfold given. rewrite sumn_plus.
  assert (F : (qfloor b <= qceil b)%Z) by (destruct (floor_ceil b) as [[_ ->]|[_ ->]]; lia).
  rewrite (@sumn_single _ n (Z.to_nat (qfloor b))); [|lia|].
  - rewrite (@sumn_single _ n (Z.to_nat (qceil b))); [|lia|].
    + rewrite !Z2Nat.id, !Z.eqb_refl by lia. ring.
    + intros k Hk N. destruct (Z.eqb_spec (qceil b) (Z.of_nat k)); auto. lia.
  - intros k Hk N. destruct (Z.eqb_spec (qfloor b) (Z.of_nat k)); auto. lia.
Qed.
Lemma given_mean b n : (0 <= qfloor b)%Z -> (qceil b < Z.of_nat n)%Z -> ~ integral b ->
  sumn (fun k => given b (Z.of_nat k) * nq k)%Qc 0 n = b.
Proof.
  intros L U I. apply not_integral_floor in I as [Q C]. unfold given.
  rewrite (@sumn_ext _ (fun k => (if (qfloor b =? Z.of_nat k)%Z then (zq (qceil b) - b) * nq k else 0) +
                             (if (qceil b =? Z.of_nat k)%Z then (b - zq (qfloor b)) * nq k else 0))%Qc)
    by (intros k _; destruct (qfloor b =? Z.of_nat k)%Z, (qceil b =? Z.of_nat k)%Z; ring).
  rewrite sumn_plus.
  rewrite (@sumn_single _ n (Z.to_nat (qfloor b))); [|lia|].
  - rewrite (@sumn_single _ n (Z.to_nat (qceil b))); [|lia|].
    + rewrite <- !zq_nat, !Z2Nat.id, !Z.eqb_refl by lia. rewrite C, zq_plus, zq_1. ring.
    + intros k Hk N. destruct (Z.eqb_spec (qceil b) (Z.of_nat k)); auto. lia.
  - intros k Hk N. destruct (Z.eqb_spec (qfloor b) (Z.of_nat k)); auto. lia.
Qed.

(* ---------------- the projection ---------------- *)
Section Proj.
  Variables (lo hi eps g : Qc) (A : nat).
  Hypothesis HA : 2 <= A.
  Hypothesis He : (0 < eps)%Qc.
  Hypothesis Hw : (lo + eps + eps <= hi)%Qc.
  Notation ps := (pos lo hi eps g A).

  Lemma step_pos : (0 < delta_z lo hi A)%Qc.
  Proof.
    unfold delta_z, Qcdiv. apply Qcmul_pos; [qcl|]. apply Qcinv_pos.
    assert (nq 2 <= nq A)%Qc by (apply nq_le; auto). change (nq 2) with (1 + 1)%Qc in H. qcl.
  Qed.
  Lemma div_step x : (x / delta_z lo hi A * delta_z lo hi A)%Qc = x.
  Proof. pose proof step_pos as P. apply Qcpos_neq in P. field. exact P. Qed.
  Lemma atoms_step : ((nq A - 1) * delta_z lo hi A)%Qc = (hi - lo)%Qc.
  Proof.
    unfold delta_z. assert (nq A - 1 <> 0)%Qc; [|field; auto].
    apply Qcpos_neq. assert (nq 2 <= nq A)%Qc by (apply nq_le; auto). change (nq 2) with (1 + 1)%Qc in H. qcl.
  Qed.
  Lemma clamp_in x : (lo + eps <= clamp (lo + eps) (hi - eps) x <= hi - eps)%Qc.
  Proof. unfold clamp, Qcmin, Qcmax. qdec; split; qcl. Qed.
  Lemma lt_div x y : (x * delta_z lo hi A < y)%Qc -> (x < y / delta_z lo hi A)%Qc.
  Proof.
    intros H. pose proof step_pos as P. apply Qcnot_le_lt. intros N.
    apply (Qcmult_le_compat_r _ _ (delta_z lo hi A)) in N; [|qcl]. rewrite div_step in N. qcl.
  Qed.
  Lemma div_lt x y : (y < x * delta_z lo hi A)%Qc -> (y / delta_z lo hi A < x)%Qc.
  Proof.
    intros H. pose proof step_pos as P. apply Qcnot_le_lt. intros N.
    apply (Qcmult_le_compat_r _ _ (delta_z lo hi A)) in N; [|qcl]. rewrite div_step in N. qcl.
  Qed.
  Lemma pos_bounds v t j : (0 < ps v t j)%Qc /\ (ps v t j < nq A - 1)%Qc.
  Proof.
    unfold pos. pose proof (clamp_in (bellman lo hi g A v t j)) as [L U]. split.
    - apply lt_div. rewrite Qcmult_0_l. qcl.
    - apply div_lt. rewrite atoms_step. qcl.
  Qed.
  Lemma floor_bound v t j : (0 <= qfloor (ps v t j))%Z.
  Proof.
    destruct (pos_bounds v t j) as [P _]. pose proof (floor_gt (ps v t j)) as G.
    assert (-1 < qfloor (ps v t j))%Z; [|lia]. apply zq_lt. change (zq (-1)) with (- (1))%Qc. qcl.
  Qed.
  Lemma ceil_bound v t j : (qceil (ps v t j) < Z.of_nat A)%Z.
  Proof.
    destruct (pos_bounds v t j) as [_ P]. pose proof (ceil_lt (ps v t j)) as G.
    apply zq_lt. rewrite zq_nat. qcl.
  Qed.
  Lemma floor_bound2 v t j : (qfloor (ps v t j) < Z.of_nat A)%Z.
  Proof. pose proof (ceil_bound v t j). destruct (floor_ceil (ps v t j)) as [[_ C]|[_ C]]; rewrite C in *; lia. Qed.
  Lemma ceil_bound2 v t j : (0 <= qceil (ps v t j))%Z.
  Proof. pose proof (floor_bound v t j). destruct (floor_ceil (ps v t j)) as [[_ C]|[_ C]]; rewrite C in *; lia. Qed.

  Lemma pos_image v t j : ps v t j = image lo hi eps g A v t j.
  Proof.
    unfold pos, image, delta_z, bellman, support, clamp. cbv zeta.
    set (x1 := (v + _)%Qc). set (x2 := if t then _ else _).
    assert (E : x1 = x2) by (unfold x1, x2; destruct t; ring). rewrite E. clear E.
    f_equal. f_equal. unfold Qcmin, Qcmax.
    destruct (Qclt_le_dec x2 (lo + eps)), (Qclt_le_dec (hi - eps) x2); qdec; try reflexivity; qcl.
  Qed.

  Definition rv (r : row) : Qc := fst (fst r).
  Definition rt (r : row) : bool := snd (fst r).
  Definition rp (r : row) : list Qc := snd r.
  Variable r0 : row.

  Lemma project_spec rows : (forall r, In r rows -> length (rp r) = A) ->
    exists t, project lo hi eps g A rows = Ok t /\ length t = length rows * A /\
      forall i k, i < length rows -> k < A ->
        nth (i * A + k) t 0%Qc =
        sumn (fun j => nth j (rp (nth i rows r0)) 0 * given (ps (rv (nth i rows r0)) (rt (nth i rows r0)) j) (Z.of_nat k))%Qc 0 A.
  Proof.
    intros Hr. unfold project. destruct (Nat.eqb_spec A 1); [lia|]. cbv zeta.
    set (B := length rows).
    set (b := concat (map (fun '(v, t, _) => map (ps v t) (seq 0 A)) rows)).
    set (dist := concat (map (fun '(_, _, p) => p) rows)).
    set (off := concat (map (fun i => repeat (Z.of_nat (i * A)) A) (seq 0 B))).
    assert (Lb : length b = B * A).
    { unfold b. apply flat_length. intros [[v t] p] _. now rewrite map_length, seq_length. }
    assert (Ld : length dist = B * A).
    { unfold dist. apply flat_length. intros [[v t] p] I. apply (Hr _ I). }
    assert (Lo : length off = B * A).
    { unfold off. rewrite (@flat_length _ _ _ A), seq_length; auto. intros r _. apply repeat_length. }
    assert (Nb : forall i j, i < B -> j < A -> nth (i * A + j) b 0%Qc = ps (rv (nth i rows r0)) (rt (nth i rows r0)) j).
    { intros i j Hi Hj. unfold b. rewrite (@flat_nth _ _ _ A) with (dx := r0); auto.
      - destruct (nth i rows r0) as [[v t] p]. rewrite (@nth_map_len _ _ _ _ 0) by (now rewrite seq_length).
        now rewrite nth_seq0.
      - intros [[v t] p] _. now rewrite map_length, seq_length. }
    assert (Nd : forall i j, i < B -> j < A -> nth (i * A + j) dist 0%Qc = nth j (rp (nth i rows r0)) 0%Qc).
    { intros i j Hi Hj. unfold dist. rewrite (@flat_nth _ _ _ A) with (dx := r0); auto.
      - destruct (nth i rows r0) as [[v t] p]. reflexivity.
      - intros [[v t] p] I. apply (Hr _ I). }
    assert (No : forall i j, i < B -> j < A -> nth (i * A + j) off 0%Z = Z.of_nat (i * A)).
    { intros i j Hi Hj. unfold off. rewrite (@flat_nth _ _ _ A) with (dx := 0); auto.
      - rewrite nth_seq0 by auto. rewrite (nth_indep _ 0%Z (Z.of_nat (i * A))) by (now rewrite repeat_length). apply nth_repeat.
      - intros r _. apply repeat_length.
      - now rewrite seq_length. }
    assert (IN : forall (h : Qc -> Z), (forall i j, i < B -> j < A -> (0 <= h (nth (i * A + j) b 0%Qc) < Z.of_nat A)%Z) ->
                 forall x, In x (map2 Z.add (map h b) off) -> (0 <= x < Z.of_nat (B * A))%Z).
    { intros h Hh x Hx. apply (In_nth _ _ 0%Z) in Hx as (m & Lm & <-).
      rewrite map2_length in Lm by (rewrite map_length; lia). rewrite map_length in Lm.
      rewrite (@map2_nth _ _ _ _ _ _ 0%Z 0%Z) by (rewrite map_length; lia).
      assert (Am : A <> 0) by lia.
      pose proof (Nat.div_mod m A Am) as DM. pose proof (Nat.mod_upper_bound m A Am) as MU.
      assert (DB : m / A < B) by (apply Nat.div_lt_upper_bound; auto; lia).
      rewrite (Nat.mul_comm A) in DM. rewrite DM. rewrite No by auto.
      rewrite (@nth_map_len _ _ _ _ 0%Qc) by lia. specialize (Hh _ _ DB MU).
      assert (m / A * A + A <= B * A) by nia. lia. }
    assert (W : forall (h : Qc -> Z) (w : list Qc) i k, length w = B * A -> i < B -> k < A ->
       (forall i j, i < B -> j < A -> (0 <= h (nth (i * A + j) b 0%Qc) < Z.of_nat A)%Z) ->
       sumn (fun m => if (nth m (map2 Z.add (map h b) off) 0 =? Z.of_nat (i * A + k))%Z then nth m w 0%Qc else 0%Qc) 0
            (length (map2 Z.add (map h b) off)) =
       sumn (fun j => if (h (nth (i * A + j) b 0%Qc) =? Z.of_nat k)%Z then nth (i * A + j) w 0%Qc else 0%Qc) 0 A).
    { intros h w i k Lw Hi Hk Hh. rewrite map2_length by (rewrite map_length; lia). rewrite map_length, Lb, sumn_mul.
      assert (X : forall i' j, i' < B -> j < A -> nth (i' * A + j) (map2 Z.add (map h b) off) 0%Z =
                    (h (nth (i' * A + j) b 0%Qc) + Z.of_nat (i' * A))%Z).
      { intros i' j Hi' Hj. assert (i' * A + j < B * A) by nia.
        rewrite (@map2_nth _ _ _ _ _ _ 0%Z 0%Z) by (rewrite map_length; lia). rewrite No by auto.
        now rewrite (@nth_map_len _ _ _ _ 0%Qc) by lia. }
      rewrite (@sumn_single _ B i); auto.
      - apply sumn_ext. intros j Hj. rewrite X by lia. 
        destruct (Z.eqb_spec (h (nth (i * A + j) b 0%Qc) + Z.of_nat (i * A)) (Z.of_nat (i * A + k)));
        destruct (Z.eqb_spec (h (nth (i * A + j) b 0%Qc)) (Z.of_nat k)); auto; lia.
      - intros i' Hi' N. apply sumn_zero. intros j Hj. rewrite X by lia.
        destruct (Z.eqb_spec (h (nth (i' * A + j) b 0%Qc) + Z.of_nat (i' * A)) (Z.of_nat (i * A + k))); auto.
        specialize (Hh i' j Hi' ltac:(lia)). nia. }
    assert (HF : forall i j, i < B -> j < A -> (0 <= qfloor (nth (i * A + j) b 0%Qc) < Z.of_nat A)%Z).
    { intros i j Hi Hj. rewrite Nb by auto. split; [apply floor_bound|apply floor_bound2]. }
    assert (HC : forall i j, i < B -> j < A -> (0 <= qceil (nth (i * A + j) b 0%Qc) < Z.of_nat A)%Z).
    { intros i j Hi Hj. rewrite Nb by auto. split; [apply ceil_bound2|apply ceil_bound]. }
    set (lw := map2 Qcmult (map2 (fun b u => zq u - b)%Qc b (map qceil b)) dist).
    set (uw := map2 Qcmult (map2 (fun b l => b - zq l)%Qc b (map qfloor b)) dist).
    assert (Llw : length lw = B * A) by (unfold lw; rewrite !map2_length; rewrite ?map2_length; rewrite ?map_length; lia).
    assert (Luw : length uw = B * A) by (unfold uw; rewrite !map2_length; rewrite ?map2_length; rewrite ?map_length; lia).
    destruct (@index_add_spec (repeat 0%Qc (B * A)) (map2 Z.add (map qfloor b) off) lw) as (t1 & E1 & L1 & N1).
    { rewrite map2_length; rewrite map_length; lia. }
    { intros x Hx. rewrite repeat_length. exact (IN qfloor HF x Hx). }
    rewrite E1. cbn [bind].
    destruct (@index_add_spec t1 (map2 Z.add (map qceil b) off) uw) as (t2 & E2 & L2 & N2).
    { rewrite map2_length; rewrite map_length; lia. }
    { intros x Hx. rewrite L1, repeat_length. exact (IN qceil HC x Hx). }
    exists t2. split; [exact E2|]. rewrite repeat_length in L1. split; [lia|].
    intros i k Hi Hk. assert (i * A + k < B * A) by (fold B in Hi; nia).
    rewrite N2 by lia. rewrite N1 by (rewrite repeat_length; lia). rewrite nth_repeat.
    rewrite !W by auto. rewrite Qcplus_0_l, <- sumn_plus. apply sumn_ext. intros j Hj.
    assert (i * A + j < B * A) by (fold B in Hi; nia).
    assert (Q1 : nth (i * A + j) lw 0%Qc = ((zq (qceil (nth (i * A + j) b 0%Qc)) - nth (i * A + j) b 0) * nth (i * A + j) dist 0)%Qc).
    { unfold lw. rewrite (@map2_nth _ _ _ _ _ _ 0%Qc 0%Qc) by (rewrite !map2_length; rewrite ?map_length; lia).
      rewrite (@map2_nth _ _ _ _ _ _ 0%Qc 0%Z) by (rewrite ?map_length; lia).
      now rewrite (@nth_map_len _ _ _ _ 0%Qc) by lia. }
    assert (Q2 : nth (i * A + j) uw 0%Qc = ((nth (i * A + j) b 0 - zq (qfloor (nth (i * A + j) b 0%Qc))) * nth (i * A + j) dist 0)%Qc).
    { unfold uw. rewrite (@map2_nth _ _ _ _ _ _ 0%Qc 0%Qc) by (rewrite !map2_length; rewrite ?map_length; lia).
      rewrite (@map2_nth _ _ _ _ _ _ 0%Qc 0%Z) by (rewrite ?map_length; lia).
      now rewrite (@nth_map_len _ _ _ _ 0%Qc) by lia. }
    rewrite Q1, Q2, Nb, Nd by (auto; lia). unfold given.
    destruct (_ =? _)%Z, (_ =? _)%Z; ring.
  Qed.
End Proj.
