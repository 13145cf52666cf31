(* C192: the two Fisher-vector products of TRPO. *)
From Coq Require Import QArith Field.
Close Scope Q_scope.
From Verif Require Import Lib.Rat Model.Trpo Model.TrpoFvp Model.TrpoDirect Props.PropsTrpoFvp.
Set Implicit Arguments.
Local Open Scope Qc_scope.

Lemma bsum_d12 l : d12 (bsum l) = sumn (fun i => d12 (nth i l (bconst 0))) 0 (length l).
Proof.
  assert (G : forall l a f, (forall i, (i < length l)%nat -> f (a + i)%nat = d12 (nth i l (bconst 0))) -> d12 (bsum l) = sumn f a (length l)).
  { induction l0 as [|x l0 IH]; intros a f E; cbn; [reflexivity|].
    change (fold_right badd (bconst 0) l0) with (bsum l0). rewrite (IH (S a) f).
    - specialize (E 0%nat ltac:(cbn; lia)). rewrite Nat.add_0_r in E. cbn in E. rewrite E. reflexivity.
    - intros i I. specialize (E (S i) ltac:(cbn; lia)). rewrite Nat.add_succ_r in E. exact E. }
  apply G. reflexivity.
Qed.
(* second derivatives of the divergences at equal policies; the second derivative of the output does not matter for the
   Gaussian, its first-order factor is zero *)
Lemma kl_gauss_d12 exp m l : exp (re l) <> 0 -> d12 l = 0 ->
  d12 (kl_gauss exp m l) = d1 m * d2 m / (exp (re l) * exp (re l)) + (1 + 1) * (d1 l * d2 l).
Proof.
  intros E Z. unfold kl_gauss, bdiv, binv, bexp, bfun, bmul, bsub, badd, detach, bconst. cbn [re d1 d2 d12]. rewrite Z.
  set (s := exp (re l)) in *. assert (E2 : s * s <> 0) by (intros Q; apply Qcmult_integral in Q; tauto).
  field. split; [exact E|exact two_neq].
Qed.
Lemma kl_cat_d12 log p : re p <> 0 -> d12 (kl_cat log p) = d1 p * d2 p / re p - d12 p.
Proof.
  intros E. unfold kl_cat, bdiv, binv, blog, bfun, bmul, detach, bconst. cbn [re d1 d2 d12]. field.
  repeat split; auto; discriminate.
Qed.
Lemma dot_unit n r k : length r = n -> (k < n)%nat -> dot r (unit_vec n k) = nth k r 0.
Proof.
  intros L K. rewrite dot_sum by now rewrite unit_len. rewrite L.
  rewrite (@sumn_pick _ k) by (try lia; intros j Hj N; rewrite unit_nth by lia; replace (Nat.eqb j k) with false by (symmetry; apply Nat.eqb_neq; auto); ring).
  rewrite unit_nth, Nat.eqb_refl by exact K. ring.
Qed.
Lemma nth_map_seq {A} (d : A) f m i : (i < m)%nat -> nth i (map f (seq 0 m)) d = f i.
Proof.
  intros I. rewrite nth_indep with (d' := f 0%nat) by (now rewrite map_length, seq_length).
  rewrite map_nth, seq_nth by exact I. reflexivity.
Qed.
Lemma out_nth mu J S2 x v i : (i < length J)%nat ->
  nth i (out mu J S2 x v) (bconst 0) = Bd (nth i mu 0) (dot (nth i J []) x) (dot (nth i J []) v) (S2 i x v).
Proof. intros I. unfold out. rewrite nth_map_seq by exact I. reflexivity. Qed.
Lemma jv_dot n J v i : shaped n J -> length v = n -> (i < length J)%nat -> nth i (jv n J v) 0 = dot (nth i J []) v.
Proof. intros H L I. unfold jv. rewrite nth_map_seq by exact I. rewrite jt_unit; auto. Qed.
Lemma sumn_mod f A b : (0 < A)%nat -> sumn (fun i => f (Nat.modulo i A)) 0 (A * b) = nq b * sumn f 0 A.
Proof.
  intros A0. assert (Sp : forall g a m k, sumn g a (m + k) = sumn g a m + sumn g (a + m) k).
  { intros g a m. revert a. induction m as [|m IH]; intros a k; cbn [Nat.add sumn]; [rewrite Nat.add_0_r; ring|].
    rewrite IH. replace (S a + m)%nat with (a + S m)%nat by lia. ring. }
  induction b as [|b IH]; [rewrite Nat.mul_0_r; cbn; change (nq 0) with 0; ring|].
  replace (A * S b)%nat with (A * b + A)%nat by lia. rewrite Sp, IH, nq_S, (sumn_shift _ (0 + A * b) A).
  rewrite (@sumn_ext (fun k => f (Nat.modulo (0 + A * b + k) A)) f).
  - ring.
  - intros i I. f_equal. replace (0 + A * b + i)%nat with (i + b * A)%nat by lia. rewrite Nat.mod_add by lia. apply Nat.mod_small. lia.
Qed.
Lemma concat_repeat_nth (l : vec) b i : l <> [] -> (i < length l * b)%nat -> nth i (List.concat (repeat l b)) 0 = nth (Nat.modulo i (length l)) l 0.
Proof.
  intros NE. assert (L0 : (0 < length l)%nat) by (destruct l; [congruence|cbn; lia]).
  revert i. induction b as [|b IH]; intros i I; [lia|]. cbn [repeat List.concat].
  destruct (Nat.lt_ge_cases i (length l)) as [J|J].
  - rewrite app_nth1 by exact J. rewrite Nat.mod_small by exact J. reflexivity.
  - rewrite app_nth2 by exact J. rewrite IH by lia. f_equal.
    replace i with (i - length l + 1 * length l)%nat at 2 by lia. rewrite Nat.mod_add by lia. reflexivity.
Qed.

(* the metric get_fim of a continuous actor returns, and its logarithms of standard deviations *)
Definition exp_ok (exp : Qc -> Qc) (ls : vec) := Forall (fun l => 0 < exp l /\ exp (- (1 + 1) * l) * (exp l * exp l) = 1) ls.

(* Full claim: both products are equal for all actors and vectors.  Continuous actors: they differ by 2 v on the parameter
   action_log_std (the first ones) and by nothing else, whatever the second derivatives of the network. *)
Theorem C192_partial : forall exp n mu J S2 ls batch used damping v k,
  exp_ok exp ls -> ls <> [] -> (0 < batch)%nat -> length J = (length ls * batch)%nat -> (length ls <= n)%nat ->
  shaped n J -> length v = n -> Forall (fun b => b = true) used -> (k < n)%nat ->
  exists r, fvp_direct n used (mean_kl_gauss exp mu J S2 ls batch) damping v = Ok r /\ length r = n /\
    nth k r 0 = nth k (fvp_fim n J (gauss_fim exp ls batch) batch damping v) 0
                + (if Nat.ltb k (length ls) then (1 + 1) * nth k v 0 else 0).
Proof.
  intros exp n mu J S2 ls b used damping v k EO NE B0 LJ Ln H Lv Us K. unfold fvp_direct.
  replace (forallb (fun b => b) used) with true by (symmetry; apply forallb_forall; intros x I; rewrite Forall_forall in Us; auto).
  eexists. split; [reflexivity|].
  assert (L1 : length (map (fun k => d12 (mean_kl_gauss exp mu J S2 ls b (unit_vec n k) v)) (seq 0 n)) = n) by now rewrite map_length, seq_length.
  split; [rewrite vadd_len; [exact L1|now rewrite L1, scale_len]|].
  rewrite vadd_nth by now rewrite L1, scale_len. rewrite scale_nth, nth_map_seq by exact K.
  assert (A0 : (0 < length ls)%nat) by (destruct ls; [congruence|cbn; lia]).
  assert (LM : length (gauss_fim exp ls b) = length J).
  { rewrite LJ. unfold gauss_fim. clear. induction b as [|b IH]; cbn [repeat List.concat]; [now rewrite Nat.mul_0_r|].
    rewrite app_length, map_length, IH. lia. }
  rewrite fvp_nth by auto.
  assert (Bq : nq b <> 0) by (apply Qcpos_neq, nq_pos; lia).
  assert (Q : d12 (mean_kl_gauss exp mu J S2 ls b (unit_vec n k) v) =
     (sumn (fun i => nth i (gauss_fim exp ls b) 0 * ent J i k * nth i (jv n J v) 0) 0 (length J)
      + nq b * sumn (fun a => (1 + 1) * (nth a (unit_vec n k) 0 * nth a v 0)) 0 (length ls)) / nq b).
  { unfold mean_kl_gauss. set (l := map _ (combine _ _)).
    assert (Ll : length l = length J).
    { unfold l, out. rewrite map_length, combine_length, map_length, !seq_length. lia. }
    assert (D : forall x, d12 (bdiv x (bconst (nq b))) = d12 x / nq b).
    { intros x. unfold bdiv, binv, bfun, bmul, bconst, Qcdiv. cbn [re d1 d2 d12]. ring. }
    rewrite D, bsum_d12, Ll. f_equal. rewrite <- sumn_mod by exact A0. rewrite <- LJ, <- sumn_plus.
    apply sumn_ext. intros i I.
    assert (I' : (i < length J)%nat) by lia. assert (Im : (Nat.modulo i (length ls) < length ls)%nat) by (apply Nat.mod_upper_bound; lia).
    set (f := fun q : nat * bd => kl_gauss exp (snd q) (nth (Nat.modulo (fst q) (length ls)) (log_stds ls (unit_vec n k) v) (bconst 0))).
    assert (Nl : nth i l (bconst 0) = f (i, nth i (out mu J S2 (unit_vec n k) v) (bconst 0))).
    { rewrite (@nth_indep _ l i (bconst 0) (f (0%nat, bconst 0))) by (rewrite Ll; exact I'). unfold l. fold f.
      rewrite map_nth. f_equal. rewrite combine_nth by (unfold out; rewrite map_length, !seq_length; reflexivity).
      rewrite seq_nth by exact I'. reflexivity. }
    rewrite Nl. unfold f. cbn [fst snd]. rewrite out_nth by exact I'. unfold log_stds. rewrite nth_map_seq by exact Im.
    unfold exp_ok in EO. rewrite Forall_forall in EO. destruct (EO (nth (Nat.modulo i (length ls)) ls 0) (nth_In _ _ Im)) as [P Ex].
    rewrite kl_gauss_d12 by (cbn [re d12]; auto; now apply Qcpos_neq). cbn [re d1 d2 d12].
    rewrite jv_dot by auto. assert (Li : length (nth i J []) = n).
    { unfold shaped in H. rewrite Forall_forall in H. apply H, nth_In, I'. }
    rewrite dot_unit by auto. fold (ent J i k). f_equal.
    unfold gauss_fim. rewrite concat_repeat_nth by (rewrite ?map_length; first [lia | destruct ls; [congruence|discriminate]]).
    rewrite map_length. rewrite (@nth_indep _ (map (fun l => exp (- (1 + 1) * l)) ls) _ 0 ((fun l => exp (- (1 + 1) * l)) 0)) by (rewrite map_length; exact Im).
    rewrite (map_nth (fun l => exp (- (1 + 1) * l))). set (z := nth (Nat.modulo i (length ls)) ls 0) in *.
    unfold Qcdiv. replace (/ (exp z * exp z)) with (exp (- (1 + 1) * z)); [ring|].
    assert (Pn : exp z * exp z <> 0) by (apply Qcpos_neq, Qcmul_pos; exact P).
    apply (f_equal (fun t => t * / (exp z * exp z))) in Ex. rewrite <- Qcmult_assoc, Qcmult_inv_r, Qcmult_1_r, Qcmult_1_l in Ex by exact Pn. exact Ex. }
  rewrite Q. replace (sumn (fun a => (1 + 1) * (nth a (unit_vec n k) 0 * nth a v 0)) 0 (length ls))
    with (if Nat.ltb k (length ls) then (1 + 1) * nth k v 0 else 0).
  - field. exact Bq.
  - destruct (Nat.ltb_spec k (length ls)) as [J1|J1].
    + rewrite (@sumn_pick _ k) by (try lia; intros j Hj N; rewrite unit_nth by lia; replace (Nat.eqb j k) with false by (symmetry; apply Nat.eqb_neq; auto); ring).
      rewrite unit_nth, Nat.eqb_refl by exact K. ring.
    + symmetry. apply sumn_zero. intros j Hj. rewrite unit_nth by lia. replace (Nat.eqb j k) with false by (symmetry; apply Nat.eqb_neq; lia). ring.
Qed.
Print Assumptions C192_partial.

(* hence they are different for every vector that moves a standard deviation *)
Theorem C192_refuted : forall exp n mu J S2 ls batch used damping v k,
  exp_ok exp ls -> ls <> [] -> (0 < batch)%nat -> length J = (length ls * batch)%nat -> (length ls <= n)%nat ->
  shaped n J -> length v = n -> Forall (fun b => b = true) used -> (k < length ls)%nat -> nth k v 0 <> 0 ->
  fvp_direct n used (mean_kl_gauss exp mu J S2 ls batch) damping v <> Ok (fvp_fim n J (gauss_fim exp ls batch) batch damping v).
Proof.
  intros exp n mu J S2 ls b used damping v k EO NE B0 LJ Ln H Lv Us K V E.
  destruct (@C192_partial exp n mu J S2 ls b used damping v k EO NE B0 LJ Ln H Lv Us ltac:(lia)) as (r & E1 & _ & E2).
  rewrite E in E1. injection E1 as <-. destruct (Nat.ltb_spec k (length ls)) as [J1|J1]; [|lia].
  apply V. set (a := nth k _ 0) in E2 at 1 2. set (x := nth k v 0) in *.
  assert (Z : (1 + 1) * x = 0) by (replace ((1 + 1) * x) with (a + (1 + 1) * x - a) by ring; rewrite <- E2; ring).
  apply Qcmult_integral in Z as [Z|Z]; [exfalso; exact (two_neq Z)|exact Z].
Qed.
Print Assumptions C192_refuted.

(* Discrete actors: the direct product is the one with metric 1 / p; the second derivatives of the probabilities of a
   sample add up to zero, because the probabilities add up to one. *)
Theorem C192_discrete : forall log n p J S2 batch used damping v k,
  (forall i, (i < length J)%nat -> 0 < nth i p 0) -> length p = length J ->
  (forall x, sumn (fun i => S2 i x v) 0 (length J) = 0) ->
  shaped n J -> length v = n -> Forall (fun b => b = true) used -> (k < n)%nat ->
  exists r, fvp_direct n used (mean_kl_cat log p J S2 batch) damping v = Ok r /\ length r = n /\
    nth k r 0 = nth k (fvp_fim n J (map Qcinv p) batch damping v) 0.
Proof.
  intros log n p J S2 b used damping v k P Lp Z H Lv Us K. unfold fvp_direct.
  replace (forallb (fun b => b) used) with true by (symmetry; apply forallb_forall; intros x I; rewrite Forall_forall in Us; auto).
  eexists. split; [reflexivity|].
  assert (L1 : length (map (fun k => d12 (mean_kl_cat log p J S2 b (unit_vec n k) v)) (seq 0 n)) = n) by now rewrite map_length, seq_length.
  split; [rewrite vadd_len; [exact L1|now rewrite L1, scale_len]|].
  rewrite vadd_nth by now rewrite L1, scale_len. rewrite scale_nth, nth_map_seq by exact K.
  rewrite fvp_nth by (rewrite ?map_length; auto). f_equal. unfold mean_kl_cat.
  assert (D : forall x, d12 (bdiv x (bconst (nq b))) = d12 x / nq b).
  { intros x. unfold bdiv, binv, bfun, bmul, bconst, Qcdiv. cbn [re d1 d2 d12]. ring. }
  rewrite D, bsum_d12. f_equal. unfold out at 2. rewrite !map_length, seq_length.
  transitivity (sumn (fun i => nth i (map Qcinv p) 0 * ent J i k * nth i (jv n J v) 0 + - (1) * S2 i (unit_vec n k) v) 0 (length J)).
  - apply sumn_ext. intros i I. assert (I' : (i < length J)%nat) by lia.
    rewrite nth_indep with (d' := kl_cat log (bconst 0)) by (unfold out; now rewrite !map_length, seq_length).
    rewrite map_nth, out_nth by exact I'. rewrite kl_cat_d12 by (cbn [re]; apply Qcpos_neq, P, I'). cbn [re d1 d2 d12].
    rewrite jv_dot by auto. assert (Li : length (nth i J []) = n).
    { unfold shaped in H. rewrite Forall_forall in H. apply H, nth_In, I'. }
    rewrite dot_unit by auto. fold (ent J i k).
    rewrite (@nth_indep _ (map Qcinv p) i 0 (Qcinv 0)) by (rewrite map_length; lia). rewrite map_nth. unfold Qcdiv. ring.
  - rewrite sumn_plus, sumn_mult, Z. ring.
Qed.
Print Assumptions C192_discrete.

(* get_fim returns p instead: the products are different for every vector that changes a probability *)
Theorem C192_discrete_refuted : forall log n p J S2 batch used damping v,
  (forall i, (i < length J)%nat -> 0 < nth i p 0 < 1) -> length p = length J -> (0 < batch)%nat ->
  (forall x, sumn (fun i => S2 i x v) 0 (length J) = 0) ->
  shaped n J -> length v = n -> Forall (fun b => b = true) used ->
  (exists i, (i < length J)%nat /\ sumn (fun j => ent J i j * nth j v 0) 0 n <> 0) ->
  fvp_direct n used (mean_kl_cat log p J S2 batch) damping v <> Ok (fvp_fim n J (get_fim p) batch damping v).
Proof.
  intros log n p J S2 b used damping v P Lp B0 Z H Lv Us (i & I & Ne) E.
  assert (EQ : dot v (fvp_fim n J (map Qcinv p) b damping v) = dot v (fvp_fim n J (get_fim p) b damping v)).
  { f_equal. assert (LM : length (map Qcinv p) = length J) by now rewrite map_length. assert (LG : length (get_fim p) = length J) by exact Lp.
    apply nth_ext with (d := 0) (d' := 0); [now rewrite !fvp_len by auto|]. intros k K. rewrite fvp_len in K by auto.
    destruct (@C192_discrete log n p J S2 b used damping v k (fun i I => proj1 (P i I)) Lp Z H Lv Us K) as (r & E1 & _ & E2).
    rewrite E in E1. injection E1 as <-. symmetry. exact E2. }
  rewrite !fvp_form in EQ by (rewrite ?map_length; auto). unfold get_fim in EQ.
  set (w := jv n J v) in *.
  assert (Wi : nth i w 0 <> 0) by (unfold w; rewrite jv_nth by auto; exact Ne).
  assert (D : 0 < sumn (fun i => (nth i (map Qcinv p) 0 - nth i p 0) * (nth i w 0 * nth i w 0)) 0 (length J)).
  { assert (G : forall j, (j < length J)%nat -> 0 < nth j (map Qcinv p) 0 - nth j p 0).
    { intros j Lj. rewrite (@nth_indep _ (map Qcinv p) j 0 (Qcinv 0)) by (rewrite map_length; lia). rewrite map_nth.
      destruct (P j Lj) as [P0 P1]. set (x := nth j p 0) in *.
      assert (1 < / x). { rewrite <- (Qcmult_inv_r x) by now apply Qcpos_neq. rewrite <- (Qcmult_1_l (/ x)) at 2. apply Qcmult_lt_compat_r; [now apply Qcinv_pos|exact P1]. }
      qcl. }
    apply sumn_pos with (i := i); [|lia|].
    - intros j Lj. apply Qcmul_nonneg; [apply Qclt_le_weak, G; lia|apply sq_nonneg].
    - apply Qcmul_pos; [apply G; lia|]. destruct (Qclt_le_dec 0 (nth i w 0 * nth i w 0)) as [Q|Q]; [exact Q|].
      exfalso. apply Wi. pose proof (sq_nonneg (nth i w 0)) as Q2. pose proof (Qcle_antisym _ _ Q Q2) as Q3.
      apply Qcmult_integral in Q3. tauto. }
  assert (Q : sumn (fun i => (nth i (map Qcinv p) 0 - nth i p 0) * (nth i w 0 * nth i w 0)) 0 (length J) = 0).
  { transitivity (sumn (fun i => nth i (map Qcinv p) 0 * nth i w 0 * nth i w 0) 0 (length J)
                  + - (1) * sumn (fun i => nth i p 0 * nth i w 0 * nth i w 0) 0 (length J)).
    - rewrite <- sumn_mult, <- sumn_plus. apply sumn_ext. intros j _. ring.
    - set (a := sumn (fun i => nth i (map Qcinv p) 0 * nth i w 0 * nth i w 0) 0 (length J)) in *.
      set (c := sumn (fun i => nth i p 0 * nth i w 0 * nth i w 0) 0 (length J)) in *.
      assert (Bq : nq b <> 0) by (apply Qcpos_neq, nq_pos; lia).
      assert (Ea : a / nq b = c / nq b).
      { apply (f_equal (fun z => z - damping * dot v v)) in EQ. ring_simplify in EQ. exact EQ. }
      apply (f_equal (fun z => z * nq b)) in Ea. unfold Qcdiv in Ea. rewrite <- !Qcmult_assoc, (Qcmult_comm (/ nq b)), Qcmult_inv_r, !Qcmult_1_r in Ea by exact Bq.
      rewrite Ea. ring. }
  rewrite Q in D. exact (Qclt_not_eq _ _ D eq_refl).
Qed.
Print Assumptions C192_discrete_refuted.

(* an actor with a parameter its output does not depend on: one product raises, the other has damping alone there *)
Theorem C192_unused : forall n used kl damping v J M batch k,
  In false used -> shaped n J -> length M = length J -> length v = n -> (k < n)%nat -> (forall i, (i < length J)%nat -> ent J i k = 0) ->
  fvp_direct n used kl damping v = Err ERuntime /\ nth k (fvp_fim n J M batch damping v) 0 = damping * nth k v 0.
Proof.
  intros n used kl damping v J M b k F H LM Lv K Z. split.
  - unfold fvp_direct. replace (forallb (fun b => b) used) with false; [reflexivity|]. symmetry.
    destruct (forallb (fun b => b) used) eqn:E; [|reflexivity]. rewrite forallb_forall in E. exact (eq_sym (E _ F)).
  - rewrite fvp_nth by auto. rewrite sumn_zero.
    + unfold Qcdiv. ring.
    + intros i I. rewrite Z by lia. ring.
Qed.
Print Assumptions C192_unused.

(* one action, one sample: parameters [log_std; w], mean = w * 3 *)
Example C192_nonvacuous :
  let exp := fun _ => 1 in let v := [1; 1 + 1] in let J := [[0; 1 + 1 + 1]] in
  exp_ok exp [0] /\
  fvp_direct 2 [true; true] (mean_kl_gauss exp [0] J (fun _ _ _ => 1) [0] 1) 0 v = Ok [1 + 1; nq 18] /\
  fvp_fim 2 J (gauss_fim exp [0] 1) 1 0 v = [0; nq 18] /\
  (* two actions with probabilities 1/2: the direct product is four times the other one *)
  let h := / (1 + 1) in let K := [[1]; [- (1)]] in
  fvp_direct 1 [true] (mean_kl_cat (fun _ => 0) [h; h] K (fun i _ _ => if Nat.eqb i 0 then 1 else - (1)) 1) 0 [1] = Ok [nq 4] /\
  fvp_fim 1 K (get_fim [h; h]) 1 0 [1] = [1].
Proof.
  split; [|split; [|split; [|split]]]; try (vm_compute; reflexivity).
  repeat constructor.
Qed.
