(* C175, C176: TRPO's Fisher-vector product and step size. *)
From Coq Require Import QArith Field.
Close Scope Q_scope.
From Verif Require Import Lib.Rat Model.Trpo Model.TrpoFvp.
Set Implicit Arguments.
Local Open Scope Qc_scope.

(* ---- the specification: entries of the Jacobian, the matrix J^T diag(M) J / N + damping I entry by entry ---- *)
Definition ent (J : list vec) (i k : nat) : Qc := nth k (nth i J []) 0.
Definition fisher (n : nat) (J : list vec) (M : vec) (batch : nat) (damping : Qc) (k j : nat) : Qc :=
  sumn (fun i => nth i M 0 * ent J i k * ent J i j) 0 (length J) / nq batch + (if Nat.eqb k j then damping else 0).
Definition shaped (n : nat) (J : list vec) := Forall (fun row => length row = n) J.

(* ---- lemmas ---- *)
Lemma scale_len k a : length (scale k a) = length a. Proof. apply map_length. Qed.
Lemma zip_len f a b : length a = length b -> length (zipw f a b) = length a.
Proof. revert b; induction a as [|x a IH]; intros [|y b]; cbn; intros H; try discriminate; auto. Qed.
Lemma vadd_len a b : length a = length b -> length (vadd a b) = length a. Proof. apply zip_len. Qed.
Lemma vadd_nth a b k : length a = length b -> nth k (vadd a b) 0 = nth k a 0 + nth k b 0.
Proof.
  revert b k; induction a as [|x a IH]; intros [|y b] [|k] H; try discriminate; cbn; try ring.
  apply IH. now injection H.
Qed.
Lemma scale_nth c a k : nth k (scale c a) 0 = c * nth k a 0.
Proof. revert k; induction a as [|x a IH]; intros [|k]; cbn; try ring. apply IH. Qed.
Lemma map_div_nth c a k : nth k (map (fun x => x / c) a) 0 = nth k a 0 / c.
Proof. revert k; induction a as [|x a IH]; intros [|k]; cbn; try (unfold Qcdiv; ring). apply IH. Qed.
Lemma zip_nth a b k : length a = length b -> nth k (zipw Qcmult a b) 0 = nth k a 0 * nth k b 0.
Proof.
  revert b k; induction a as [|x a IH]; intros [|y b] [|k] H; try discriminate; cbn; try ring.
  apply IH. now injection H.
Qed.
Lemma nth_repeat0 k n : nth k (repeat 0 n) 0 = 0.
Proof. revert k; induction n as [|n IH]; intros [|k]; cbn; auto. Qed.
Lemma jt_len n J u : shaped n J -> length (jt_rows n J u) = n.
Proof.
  intros H. revert u. induction H as [|row J E H IH]; intros [|x u]; cbn; try apply repeat_length.
  rewrite vadd_len; rewrite scale_len; congruence.
Qed.
Lemma jt_nth n J u k : shaped n J -> length u = length J ->
  nth k (jt_rows n J u) 0 = sumn (fun i => nth i u 0 * ent J i k) 0 (length J).
Proof.
  intros H. revert u. induction H as [|row J E H IH]; intros [|x u] L; try discriminate; cbn [jt_rows length].
  - apply nth_repeat0.
  - rewrite vadd_nth by (rewrite scale_len, jt_len by exact H; exact E). rewrite scale_nth, IH by now injection L.
    change (S (length J)) with (1 + length J)%nat. rewrite sumn_add. cbn [sumn].
    rewrite Qcplus_0_r. f_equal.
    assert (K : forall a m, sumn (fun i => nth i u 0 * ent J i k) a m = sumn (fun i => nth i (x :: u) 0 * ent (row :: J) i k) (S a) m).
    { intros a m. revert a. induction m as [|m IHm]; intros a; cbn [sumn]; [reflexivity|]. now rewrite IHm. }
    apply K.
Qed.
Lemma dot_sum a b : length a = length b -> dot a b = sumn (fun k => nth k a 0 * nth k b 0) 0 (length a).
Proof.
  revert b; induction a as [|x a IH]; intros [|y b] H; try discriminate; [reflexivity|]. cbn [dot length].
  change (S (length a)) with (1 + length a)%nat. rewrite sumn_add. cbn [sumn]. rewrite Qcplus_0_r. f_equal.
  rewrite IH by now injection H.
  assert (K : forall s m, sumn (fun k => nth k a 0 * nth k b 0) s m = sumn (fun k => nth k (x :: a) 0 * nth k (y :: b) 0) (S s) m).
  { intros s m. revert s. induction m as [|m IHm]; intros s; cbn [sumn]; [reflexivity|]. now rewrite IHm. }
  apply K.
Qed.
Lemma unit_len m i : length (unit_vec m i) = m. Proof. unfold unit_vec. now rewrite map_length, seq_length. Qed.
Lemma unit_nth m i k : (k < m)%nat -> nth k (unit_vec m i) 0 = if Nat.eqb k i then 1 else 0.
Proof.
  intros H. unfold unit_vec. rewrite nth_indep with (d' := (fun k => if Nat.eqb k i then 1 else 0) 0%nat) by (rewrite map_length, seq_length; exact H).
  rewrite (map_nth (fun k => if Nat.eqb k i then 1 else 0)), seq_nth by exact H. reflexivity.
Qed.
Lemma sumn_pick f i a m : (a <= i < a + m)%nat -> (forall k, (a <= k < a + m)%nat -> k <> i -> f k = 0) -> sumn f a m = f i.
Proof.
  intros B Z. replace m with ((i - a) + S (m - (i - a) - 1))%nat by lia. rewrite sumn_add.
  rewrite (@sumn_zero f a (i - a)%nat) by (intros k Hk; apply Z; lia). cbn [sumn].
  rewrite (@sumn_zero f (S (a + (i - a)))) by (intros k Hk; apply Z; lia).
  replace (a + (i - a))%nat with i by lia. ring.
Qed.
Lemma jt_unit n J i : shaped n J -> (i < length J)%nat -> jt n J (unit_vec (length J) i) = nth i J [].
Proof.
  intros H Hi. assert (Li : length (nth i J []) = n).
  { unfold shaped in H. rewrite Forall_forall in H. apply H, nth_In, Hi. }
  apply nth_ext with (d := 0) (d' := 0); [unfold jt; rewrite jt_len by exact H; now rewrite Li|].
  intros k _. unfold jt. rewrite jt_nth by (auto using unit_len).
  rewrite (@sumn_pick _ i) by (try lia; intros j Hj N; rewrite unit_nth by lia; replace (Nat.eqb j i) with false by (symmetry; now apply Nat.eqb_neq); ring).
  rewrite unit_nth, Nat.eqb_refl by exact Hi. unfold ent. ring.
Qed.
Lemma jv_len n J v : length (jv n J v) = length J. Proof. unfold jv. now rewrite map_length, seq_length. Qed.
Lemma jv_nth n J v i : shaped n J -> length v = n -> (i < length J)%nat ->
  nth i (jv n J v) 0 = sumn (fun j => ent J i j * nth j v 0) 0 n.
Proof.
  intros H Lv Hi. unfold jv.
  rewrite nth_indep with (d' := (fun i => dot (jt n J (unit_vec (length J) i)) v) 0%nat) by (rewrite map_length, seq_length; exact Hi).
  rewrite (map_nth (fun i => dot (jt n J (unit_vec (length J) i)) v)), seq_nth by exact Hi.
  rewrite Nat.add_0_l, jt_unit by auto. assert (Li : length (nth i J []) = n).
  { unfold shaped in H. rewrite Forall_forall in H. apply H, nth_In, Hi. }
  rewrite dot_sum by congruence. now rewrite Li.
Qed.
Lemma fvp_len n J M b d v : shaped n J -> length v = n -> length (fvp_fim n J M b d v) = n.
Proof.
  intros H L. unfold fvp_fim, jt. rewrite vadd_len; rewrite map_length, ?scale_len, jt_len by exact H; auto.
Qed.
Lemma sumn_mult c f a m : sumn (fun k => c * f k) a m = c * sumn f a m.
Proof. revert a; induction m as [|m IH]; intros a; cbn [sumn]; [ring|]. rewrite IH. ring. Qed.
Lemma sumn_plus f g a m : sumn (fun k => f k + g k) a m = sumn f a m + sumn g a m.
Proof. revert a; induction m as [|m IH]; intros a; cbn [sumn]; [ring|]. rewrite IH. ring. Qed.
Lemma sumn_swap f a m b k : sumn (fun i => sumn (f i) b k) a m = sumn (fun j => sumn (fun i => f i j) a m) b k.
Proof.
  revert a; induction m as [|m IH]; intros a; cbn [sumn]; [symmetry; now apply sumn_zero|]. rewrite IH, <- sumn_plus. reflexivity.
Qed.

Lemma fvp_nth n J M b d v k : shaped n J -> length M = length J -> length v = n ->
  nth k (fvp_fim n J M b d v) 0 =
  sumn (fun i => nth i M 0 * ent J i k * nth i (jv n J v) 0) 0 (length J) / nq b + d * nth k v 0.
Proof.
  intros H LM Lv. unfold fvp_fim, jt.
  rewrite vadd_nth by (rewrite map_length, scale_len, jt_len by exact H; auto).
  rewrite map_div_nth, scale_nth, jt_nth by (auto; rewrite zip_len; rewrite ?jv_len; auto).
  f_equal. f_equal. apply sumn_ext. intros i Hi. rewrite zip_nth by (rewrite jv_len; auto). ring.
Qed.

(* ---------------- C175 ---------------- *)
(* The product is the matrix J^T diag(M) J / N + damping I applied to the vector, entry by entry. *)
Theorem C175_product : forall n J M batch damping v k, shaped n J -> length M = length J -> length v = n -> (k < n)%nat ->
  nth k (fvp_fim n J M batch damping v) 0 = sumn (fun j => fisher n J M batch damping k j * nth j v 0) 0 n.
Proof.
  intros n J M b d v k H LM Lv Hk. rewrite fvp_nth by auto. unfold fisher.
  transitivity (sumn (fun j => (/ nq b) * (sumn (fun i => nth i M 0 * ent J i k * ent J i j) 0 (length J) * nth j v 0)
                               + (if Nat.eqb k j then d else 0) * nth j v 0) 0 n).
  2:{ apply sumn_ext. intros j _. unfold Qcdiv. ring. }
  rewrite sumn_plus, sumn_mult. f_equal.
  - unfold Qcdiv. rewrite Qcmult_comm. f_equal.
    transitivity (sumn (fun i => sumn (fun j => nth i M 0 * ent J i k * ent J i j * nth j v 0) 0 n) 0 (length J)).
    + apply sumn_ext. intros i Hi. rewrite jv_nth by (auto; lia). rewrite <- sumn_mult. apply sumn_ext. intros; ring.
    + rewrite sumn_swap. apply sumn_ext. intros j _. rewrite Qcmult_comm, <- sumn_mult. apply sumn_ext. intros; ring.
  - rewrite (@sumn_pick _ k) by (try lia; intros j Hj N; replace (Nat.eqb k j) with false by (symmetry; apply Nat.eqb_neq; auto); ring).
    now rewrite Nat.eqb_refl.
Qed.
Print Assumptions C175_product.

(* the bilinear form of the product *)
Lemma fvp_form n J M b d w v : shaped n J -> length M = length J -> length v = n -> length w = n ->
  dot w (fvp_fim n J M b d v) =
  sumn (fun i => nth i M 0 * nth i (jv n J w) 0 * nth i (jv n J v) 0) 0 (length J) / nq b + d * dot w v.
Proof.
  intros H LM Lv Lw. rewrite dot_sum by (rewrite fvp_len; auto). rewrite (dot_sum w v) by congruence. rewrite Lw.
  transitivity (sumn (fun k => (/ nq b) * (nth k w 0 * sumn (fun i => nth i M 0 * ent J i k * nth i (jv n J v) 0) 0 (length J))
                               + d * (nth k w 0 * nth k v 0)) 0 n).
  { apply sumn_ext. intros k _. rewrite fvp_nth by auto. unfold Qcdiv. ring. }
  rewrite sumn_plus, !sumn_mult. f_equal. unfold Qcdiv. rewrite Qcmult_comm. f_equal.
  transitivity (sumn (fun k => sumn (fun i => nth k w 0 * (nth i M 0 * ent J i k * nth i (jv n J v) 0)) 0 (length J)) 0 n).
  { apply sumn_ext. intros k _. now rewrite sumn_mult. }
  rewrite sumn_swap. apply sumn_ext. intros i Hi. rewrite (@jv_nth n J w i) by (auto; lia).
  transitivity (nth i M 0 * nth i (jv n J v) 0 * sumn (fun k => ent J i k * nth k w 0) 0 n); [|ring].
  rewrite <- sumn_mult. apply sumn_ext. intros; ring.
Qed.

(* It is symmetric and, the entries of M not being negative, at least damping times the identity: the conjugate
   gradient method is applicable and the argument of the square root of the step size is positive. *)
Theorem C175_symmetric : forall n J M batch damping v w, shaped n J -> length M = length J -> length v = n -> length w = n ->
  dot w (fvp_fim n J M batch damping v) = dot v (fvp_fim n J M batch damping w).
Proof.
  intros n J M b d v w H LM Lv Lw. rewrite !fvp_form by auto.
  rewrite (dot_sum w v), (dot_sum v w) by congruence. rewrite Lv, Lw. f_equal; [f_equal|f_equal]; apply sumn_ext; intros; ring.
Qed.
Print Assumptions C175_symmetric.
Lemma sq_nonneg (x : Qc) : 0 <= x * x.
Proof. destruct (Qclt_le_dec x 0) as [N|P]; [|now apply Qcmul_nonneg]. replace (x * x) with ((- x) * (- x)) by ring.
  apply Qcmul_nonneg; apply Qclt_le_weak; qcl. Qed.
Theorem C175_definite : forall n J M batch damping v, shaped n J -> length M = length J -> length v = n ->
  Forall (fun x => 0 <= x) M -> (0 < batch)%nat ->
  damping * dot v v <= dot v (fvp_fim n J M batch damping v).
Proof.
  intros n J M b d v H LM Lv P B. rewrite fvp_form by auto.
  assert (0 <= sumn (fun i => nth i M 0 * nth i (jv n J v) 0 * nth i (jv n J v) 0) 0 (length J) / nq b); [|qcl].
  unfold Qcdiv. apply Qcmul_nonneg; [|now apply Qclt_le_weak, Qcinv_pos, nq_pos].
  apply sumn_nonneg. intros i Hi. rewrite <- Qcmult_assoc. apply Qcmul_nonneg; [|apply sq_nonneg].
  rewrite Forall_forall in P. apply P, nth_In. lia.
Qed.
Print Assumptions C175_definite.

(* ---- what it should be: the curvature of the mean KL divergence of the policy ---- *)
(* a Gaussian policy: samples (one list of means per sample), each of them moved by the entries of [dm] *)
Fixpoint mean_kl (exp : Qc -> Qc) (ls ls' : vec) (batch : list vec) (moved : list vec) : Qc :=
  match batch, moved with
  | m :: b, m' :: b' =>
      sumn (fun k => get_kl exp (nth k m 0) (nth k m' 0) (nth k ls 0) (nth k ls' 0)) 0 (length ls) + mean_kl exp ls ls' b b'
  | _, _ => 0
  end.

Lemma two_neq : 1 + 1 <> 0. Proof. apply Qcpos_neq. qcl. Qed.
Lemma kl_moved exp m m' l : 0 < exp l -> exp (- (1 + 1) * l) * (exp l * exp l) = 1 ->
  get_kl exp m m' l l = / (1 + 1) * (exp (- (1 + 1) * l) * ((m' - m) * (m' - m))).
Proof.
  intros P E. unfold get_kl. assert (N : exp l <> 0) by now apply Qcpos_neq.
  assert (Q : exp (- (1 + 1) * l) = / (exp l * exp l)).
  { transitivity (exp (- (1 + 1) * l) * (exp l * exp l) / (exp l * exp l)); [field; exact N|rewrite E; field; exact N]. }
  rewrite Q. field. split; [exact N|exact two_neq].
Qed.
Lemma nth_app_l {A} (d : A) a b k : (k < length a)%nat -> nth k (a ++ b) d = nth k a d. Proof. apply app_nth1. Qed.
Lemma nth_app_r {A} (d : A) a b k : nth (length a + k) (a ++ b) d = nth k b d.
Proof. rewrite app_nth2 by lia. f_equal. lia. Qed.
Lemma sumn_shift f a m : sumn f a m = sumn (fun k => f (a + k)%nat) 0 m.
Proof.
  assert (K : forall m b, sumn f (a + b) m = sumn (fun k => f (a + k)%nat) b m).
  { clear. intros m. induction m as [|m IH]; intros b; cbn [sumn]; [reflexivity|]. rewrite <- IH. f_equal. f_equal. lia. }
  rewrite <- K. f_equal. lia.
Qed.
Lemma mean_kl_moved exp ls batch : Forall (fun l => 0 < exp l /\ exp (- (1 + 1) * l) * (exp l * exp l) = 1) ls -> forall moved,
  length moved = length batch -> Forall (fun m => length m = length ls) batch -> Forall (fun m => length m = length ls) moved ->
  let D i := nth i (List.concat moved) 0 - nth i (List.concat batch) 0 in
  mean_kl exp ls ls batch moved =
  / (1 + 1) * sumn (fun i => nth i (gauss_fim exp ls (length batch)) 0 * D i * D i) 0 (length (List.concat batch)).
Proof.
  intros E. induction batch as [|m b IH]; intros [|m' b'] L Fb Fm D; try discriminate; [cbn; ring|].
  inversion Fb as [|? ? Lm Fb']; subst. inversion Fm as [|? ? Lm' Fm']; subst. injection L as L.
  cbn [mean_kl]. rewrite (IH b' L Fb' Fm').
  unfold gauss_fim in *. set (iv := map _ ls) in *. assert (Li : length iv = length ls) by apply map_length.
  cbn [List.concat length repeat] in *. rewrite app_length, sumn_add, (@sumn_shift _ (0 + length m)), Lm.
  rewrite Qcmult_plus_distr_r. f_equal.
  - rewrite <- sumn_mult. apply sumn_ext. intros k Hk. rewrite nth_app_l by lia. unfold D.
    rewrite !nth_app_l by lia. set (l := nth k ls 0).
    assert (In l ls) as I by (apply nth_In; lia). rewrite Forall_forall in E. destruct (E l I) as [P Q].
    rewrite kl_moved by assumption. replace (nth k iv 0) with (exp (- (1 + 1) * l)).
    2:{ unfold iv. rewrite nth_indep with (d' := (fun l => exp (- (1 + 1) * l)) 0) by (rewrite map_length; lia).
        now rewrite (map_nth (fun l => exp (- (1 + 1) * l))). }
    ring.
  - f_equal. apply sumn_ext. intros k Hk. rewrite Nat.add_0_l. unfold D.
    assert (R : forall a b : vec, length a = length ls -> nth (length ls + k) (a ++ b) 0 = nth k b 0)
      by (intros x y <-; apply nth_app_r).
    rewrite !R by auto. reflexivity.
Qed.
(* As long as only the means move, linearly in the parameters, half the quadratic form of the product is exactly the mean
   KL divergence between the old and the new policy. *)
Theorem C175_curvature_partial : forall exp ls n J v batch moved,
  Forall (fun l => 0 < exp l /\ exp (- (1 + 1) * l) * (exp l * exp l) = 1) ls ->
  shaped n J -> length v = n -> length J = length (List.concat batch) ->
  length moved = length batch -> Forall (fun m => length m = length ls) batch -> Forall (fun m => length m = length ls) moved ->
  (forall i, (i < length J)%nat ->
     nth i (List.concat moved) 0 = nth i (List.concat batch) 0 + sumn (fun j => ent J i j * nth j v 0) 0 n) ->
  mean_kl exp ls ls batch moved / nq (length batch) =
  dot v (fvp_fim n J (gauss_fim exp ls (length batch)) (length batch) 0 v) / (1 + 1).
Proof.
  intros exp ls n J v batch moved E H Lv LJ L Fb Fm Mv. rewrite (@mean_kl_moved exp ls batch E moved) by assumption. cbv zeta.
  assert (LG : length (gauss_fim exp ls (length batch)) = length J).
  { rewrite LJ. unfold gauss_fim. clear - Fb. induction Fb as [|m b E F IH]; cbn [length repeat List.concat]; [reflexivity|].
    rewrite !app_length, map_length, IH. congruence. }
  rewrite fvp_form by auto.
  rewrite <- LJ. rewrite (@sumn_ext _ (fun i => nth i (gauss_fim exp ls (length batch)) 0 * nth i (jv n J v) 0 * nth i (jv n J v) 0)).
  2:{ intros i Hi. rewrite Mv, jv_nth by (auto; lia). ring. }
  unfold Qcdiv. ring.
Qed.
Print Assumptions C175_curvature_partial.

(* The logarithms of the standard deviations are parameters of the actor, too, but the means do not depend on them. In
   these directions the product is damping times the vector only, although the KL divergence is positive. *)
Lemma sumn_pos f a m i : (forall k, (a <= k < a + m)%nat -> 0 <= f k) -> (a <= i < a + m)%nat -> 0 < f i -> 0 < sumn f a m.
Proof.
  revert a. induction m as [|m IH]; intros a N B P; [lia|]. cbn [sumn].
  destruct (Nat.eq_dec a i) as [->|Ne].
  - assert (0 <= sumn f (S i) m) by (apply sumn_nonneg; intros; apply N; lia). qcl.
  - assert (0 < sumn f (S a) m) by (apply IH; [intros; apply N; lia|lia|exact P]). assert (0 <= f a) by (apply N; lia). qcl.
Qed.
Theorem C175_log_std_refuted : forall n J M N damping v, shaped n J -> length M = length J -> length v = n ->
  (forall i j, nth j v 0 <> 0 -> ent J i j = 0) ->
  fvp_fim n J M N damping v = scale damping v /\
  forall exp ls ls' batch k, batch <> [] -> (k < length ls)%nat -> nth k ls' 0 <> nth k ls 0 ->
    (forall j, (j < length ls)%nat -> let l := nth j ls 0 in let l' := nth j ls' 0 in
       0 < exp l' /\ (l' = l \/ (1 - (1 + 1) * (l' - l)) * (exp l' * exp l') < exp l * exp l)) ->
    0 < mean_kl exp ls ls' batch batch.
Proof.
  intros n J M N d v H LM Lv Z. split.
  - apply nth_ext with (d := 0) (d' := 0); [now rewrite fvp_len, scale_len by auto|].
    intros k _. rewrite fvp_nth, scale_nth by auto. rewrite sumn_zero; [unfold Qcdiv; ring|].
    intros i Hi. rewrite jv_nth by (auto; lia). rewrite sumn_zero; [ring|]. intros j _.
    destruct (Qc_eq_dec (nth j v 0) 0) as [E|E]; [rewrite E; ring|rewrite Z by exact E; ring].
  - intros exp ls ls' batch k Bn Hk Nk Ex.
    assert (T : forall m j, (j < length ls)%nat ->
       0 <= get_kl exp m m (nth j ls 0) (nth j ls' 0) /\ (nth j ls' 0 <> nth j ls 0 -> 0 < get_kl exp m m (nth j ls 0) (nth j ls' 0))).
    { intros m j Hj. destruct (Ex j Hj) as [P C]. set (l := nth j ls 0) in *. set (l' := nth j ls' 0) in *.
      assert (Nz : exp l' <> 0) by now apply Qcpos_neq.
      assert (S0 : l' <> l -> 0 < get_kl exp m m l l').
      { intros Ne. destruct C as [C|C]; [contradiction|].
        assert (G : get_kl exp m m l l' * ((1 + 1) * (exp l' * exp l')) =
                    exp l * exp l - (1 - (1 + 1) * (l' - l)) * (exp l' * exp l')).
        { unfold get_kl. field. (repeat split; first [exact Nz|exact two_neq]). }
        set (z := (1 - (1 + 1) * (l' - l)) * (exp l' * exp l')) in *.
        assert (Pd : 0 < (1 + 1) * (exp l' * exp l')) by (apply Qcmul_pos; [qcl|now apply Qcmul_pos]).
        replace (get_kl exp m m l l') with ((exp l * exp l - z) * / ((1 + 1) * (exp l' * exp l'))).
        - apply Qcmul_pos; [qcl|now apply Qcinv_pos].
        - rewrite <- G. field. (repeat split; first [exact Nz|exact two_neq]). }
      split; [|exact S0]. destruct (Qc_eq_dec l' l) as [E|E]; [|now apply Qclt_le_weak, S0].
      replace (get_kl exp m m l l') with 0; [apply Qcle_refl|]. rewrite <- E. unfold get_kl. field. (repeat split; first [exact Nz|exact two_neq]). }
    assert (P : forall m, 0 < sumn (fun j => get_kl exp (nth j m 0) (nth j m 0) (nth j ls 0) (nth j ls' 0)) 0 (length ls)).
    { intros m. apply sumn_pos with (i := k); [intros j Hj; apply T; lia|lia|]. now apply T. }
    assert (G : forall b, 0 <= mean_kl exp ls ls' b b).
    { induction b as [|m b IH]; cbn [mean_kl]; [apply Qcle_refl|]. specialize (P m). qcl. }
    destruct batch as [|m b]; [contradiction|]. cbn [mean_kl]. specialize (P m). specialize (G b). qcl.
Qed.
Print Assumptions C175_log_std_refuted.

(* ---------------- C176 ---------------- *)
Lemma jv_scale n J c v : shaped n J -> length v = n -> jv n J (scale c v) = scale c (jv n J v).
Proof.
  intros H L. apply nth_ext with (d := 0) (d' := 0); [now rewrite scale_len, !jv_len|]. intros i Hi. rewrite jv_len in Hi.
  rewrite scale_nth, !jv_nth by (rewrite ?scale_len; auto). rewrite <- sumn_mult. apply sumn_ext. intros j _. rewrite scale_nth. ring.
Qed.
Lemma dot_scale2 c a b : length a = length b -> dot (scale c a) (scale c b) = c * c * dot a b.
Proof.
  intros L. rewrite !dot_sum by (rewrite ?scale_len; auto). rewrite scale_len, <- sumn_mult. apply sumn_ext. intros. rewrite !scale_nth. ring.
Qed.
Lemma form_scale n J M b d c v : shaped n J -> length M = length J -> length v = n ->
  dot (scale c v) (fvp_fim n J M b d (scale c v)) = c * c * dot v (fvp_fim n J M b d v).
Proof.
  intros H LM L. rewrite !fvp_form by (rewrite ?scale_len; auto). rewrite dot_scale2 by auto. rewrite jv_scale by auto.
  rewrite (@sumn_ext _ (fun i => (c * c) * (nth i M 0 * nth i (jv n J v) 0 * nth i (jv n J v) 0))) by (intros; rewrite !scale_nth; ring).
  rewrite sumn_mult. unfold Qcdiv. ring.
Qed.
Lemma dot_self_nonneg v : 0 <= dot v v.
Proof. induction v as [|x v IH]; cbn [dot]; [apply Qcle_refl|]. pose proof (sq_nonneg x). qcl. Qed.
Lemma dot_self_pos v : (exists x, In x v /\ x <> 0) -> 0 < dot v v.
Proof.
  intros (x & I & N). induction v as [|y v IH]; [destruct I|]. cbn [dot]. destruct I as [->|I].
  - pose proof (dot_self_nonneg v). assert (0 < x * x); [|qcl]. pose proof (sq_nonneg x) as P.
    destruct (Qcle_lt_or_eq _ _ P) as [|E]; [auto|]. exfalso. symmetry in E. destruct (Qcmult_integral _ _ E); contradiction.
  - specialize (IH I). pose proof (sq_nonneg y). qcl.
Qed.
(* The full step uses the whole trust region: its quadratic form is 2 kl_max_delta (up to the relative error e of the
   square root), so that the quadratic model of the KL divergence is at most kl_max_delta. *)
Theorem C176_step : forall n J M batch damping sqrt delta x e,
  shaped n J -> length M = length J -> length x = n -> Forall (fun y => 0 <= y) M -> (0 < batch)%nat ->
  0 < damping -> 0 < delta -> (exists y, In y x /\ y <> 0) ->
  let F := fvp_fim n J M batch damping in
  let q := beta_arg delta F x in
  let s := full_step sqrt delta F x in
  0 < q /\
  ((1 - e) * q <= sqrt q * sqrt q -> (1 - e) * ((1 + 1) * delta) <= dot s (F s)) /\
  (sqrt q * sqrt q <= (1 + e) * q -> dot s (F s) <= (1 + e) * ((1 + 1) * delta) /\
     dot s (fvp_fim n J M batch 0 s) / (1 + 1) <= (1 + e) * delta).
Proof.
  intros n J M b d sqrt delta x e H LM Lx PM B Pd Pdel Ne F q s.
  assert (Px : 0 < dot x (F x)).
  { pose proof (@C175_definite n J M b d x H LM Lx PM B) as D. pose proof (@dot_self_pos x Ne) as Q. unfold F.
    assert (0 < d * dot x x) by now apply Qcmul_pos. qcl. }
  assert (Nx : dot x (F x) <> 0) by now apply Qcpos_neq.
  assert (Eq : q * dot x (F x) = (1 + 1) * delta) by (unfold q, beta_arg; field; exact Nx).
  assert (Pq : 0 < q) by (unfold q, beta_arg, Qcdiv; apply Qcmul_pos; [apply Qcmul_pos; [qcl|exact Pdel]|now apply Qcinv_pos]).
  assert (Es : dot s (F s) = sqrt q * sqrt q * dot x (F x)) by (unfold s, full_step; fold q; apply form_scale; auto).
  split; [exact Pq|]. split.
  - intros Hs. rewrite Es, <- Eq. apply Qcmult_le_compat_r with (z := dot x (F x)) in Hs; [|now apply Qclt_le_weak].
    eapply Qcle_trans; [|exact Hs]. rewrite <- Qcmult_assoc. apply Qcle_refl.
  - intros Hs. assert (U : dot s (F s) <= (1 + e) * ((1 + 1) * delta)).
    { rewrite Es, <- Eq. apply Qcmult_le_compat_r with (z := dot x (F x)) in Hs; [|now apply Qclt_le_weak].
      eapply Qcle_trans; [exact Hs|]. rewrite <- Qcmult_assoc. apply Qcle_refl. }
    split; [exact U|].
    assert (Ls : length s = n) by (unfold s, full_step; now rewrite scale_len).
    assert (D : dot s (F s) = dot s (fvp_fim n J M b 0 s) + d * dot s s).
    { unfold F. rewrite !fvp_form by auto. ring. }
    assert (N2 : 0 <= d * dot s s) by (apply Qcmul_nonneg; [now apply Qclt_le_weak|apply dot_self_nonneg]).
    set (a := dot s (fvp_fim n J M b 0 s)) in *. set (c := d * dot s s) in *. rewrite D in U.
    apply Qcmult_lt_0_le_reg_r with (z := 1 + 1); [qcl|]. unfold Qcdiv. rewrite <- Qcmult_assoc, Qcmult_inv_l by exact two_neq.
    replace ((1 + e) * delta * (1 + 1)) with ((1 + e) * ((1 + 1) * delta)) by ring. set (z := (1 + e) * ((1 + 1) * delta)) in *. qcl.
Qed.
Print Assumptions C176_step.

(* two samples with one action component; parameters: the logarithm of the standard deviation and one weight *)
Definition ex_exp (l : Qc) : Qc := if Qc_eq_dec l 0 then 1 else nq 3.
Definition ex_J : list vec := [[0; 1]; [0; nq 3]].
Example C175_nonvacuous :
  map this (fvp_fim 2 ex_J (gauss_fim ex_exp [0] 2) 2 (Q2Qc (1 # 10)) [nq 5; nq 2]) = [(1 # 2)%Q; (51 # 5)%Q] /\
  this (mean_kl ex_exp [0] [0] [[1]; [1]] [[nq 3]; [nq 7]] / nq 2) = 10%Q /\
  this (dot [nq 5; nq 2] (fvp_fim 2 ex_J (gauss_fim ex_exp [0] 2) 2 0 [nq 5; nq 2]) / (1 + 1)) = 10%Q /\
  this (mean_kl ex_exp [0] [1] [[1]; [1]] [[1]; [1]]) = (10 # 9)%Q.
Proof. vm_compute. auto. Qed.
Example C176_nonvacuous :
  let F := fvp_fim 2 ex_J (gauss_fim ex_exp [0] 2) 2 1 in
  this (beta_arg (1 + 1 + 1) F [0; 1]) = 1%Q /\
  map this (full_step (fun q => q) (1 + 1 + 1) F [0; 1]) = [0%Q; 1%Q] /\ this (dot [0; 1] (F [0; 1])) = 6%Q.
Proof. vm_compute. auto. Qed.
