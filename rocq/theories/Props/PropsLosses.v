(* C34 projected distributions, C35 weighted losses, C36 target networks. *)
From Coq Require Import QArith.
From Verif Require Import Lib.Rat Model.Losses Model.Target Spec.LossesSpec Spec.TargetSpec
  Proofs.ReturnsProofs Proofs.ProjectProofs Proofs.LossTargetProofs.
Close Scope Q_scope.
Open Scope nat_scope.

Definition q (n : Z) : Qc := Q2Qc (inject_Z n).

Lemma project_row lo hi eps g A rows : 2 <= A -> (0 < eps)%Qc -> (lo + eps + eps <= hi)%Qc ->
  (forall v t p, In (v, t, p) rows -> length p = A) ->
  exists d, project lo hi eps g A rows = Ok d /\ length d = length rows * A /\
    forall i v t p, nth_error rows i = Some (v, t, p) -> forall k, k < A ->
      nth (i * A + k) d 0%Qc = sumn (fun j => nth j p 0 * given (image lo hi eps g A v t j) (Z.of_nat k))%Qc 0 A.
Proof.
  intros HA He Hw Hr.
  destruct (@project_spec lo hi eps g A HA He Hw (0%Qc, false, []) rows) as (d & E & L & N).
  - intros [[v t] p] I. eapply Hr; eauto.
  - exists d. repeat split; auto. intros i v t p Hi k Hk.
    assert (i < length rows) by (apply nth_error_Some; congruence).
    rewrite N by auto. rewrite (nth_error_nth _ _ _ Hi). cbn [rv rt rp fst snd].
    apply sumn_ext. intros j _. rewrite pos_image; auto.
Qed.
Lemma given_share b k : exists s, given b k = s /\ (integral b -> s = 0%Qc) /\ (~ integral b -> s = tent (b - zq k)).
Proof. exists (given b k). split; auto. split; [apply given_integral|apply given_tent]. Qed.

Lemma sumn_swap (c : nat -> Qc) h n m a b :
  sumn (fun k => sumn (fun j => c j * h j k)%Qc a n) b m = sumn (fun j => c j * sumn (fun k => h j k) b m)%Qc a n.
Proof.
  revert b. induction m; intros b; cbn [sumn].
  - rewrite sumn_zero; auto. intros; ring.
  - rewrite IHm, <- sumn_plus. apply sumn_ext. intros; ring.
Qed.

(* C34: atom k of row i receives from atom j its probability times the share of an atom at
   that distance from the image of atom j; images that hit an atom exactly give nothing. *)
Theorem C34_entries : forall lo hi eps g A rows,
  2 <= A -> (0 < eps)%Qc -> (lo + eps + eps <= hi)%Qc ->
  (forall v t p, In (v, t, p) rows -> length p = A) ->
  exists d, project lo hi eps g A rows = Ok d /\ length d = length rows * A /\
    forall i v t p, nth_error rows i = Some (v, t, p) -> forall k, k < A ->
      exists share : nat -> Qc,
        nth (i * A + k) d 0%Qc = sumn (fun j => nth j p 0 * share j)%Qc 0 A /\
        forall j, let b := image lo hi eps g A v t j in
                  (integral b -> share j = 0%Qc) /\ (~ integral b -> share j = tent (b - nq k)).
Proof.
  intros lo hi eps g A rows HA He Hw Hr. destruct (project_row lo hi eps g A rows HA He Hw Hr) as (d & E & L & N).
  exists d. repeat split; auto. intros i v t p Hi k Hk.
  exists (fun j => given (image lo hi eps g A v t j) (Z.of_nat k)). split; [apply (N i v t p Hi k Hk)|].
  intros j. cbv zeta. split; [apply given_integral|]. intros I. rewrite given_tent by auto. now rewrite zq_nat.
Qed.
Print Assumptions C34_entries.

Theorem C34_nonneg : forall lo hi eps g A rows d,
  2 <= A -> (0 < eps)%Qc -> (lo + eps + eps <= hi)%Qc ->
  (forall v t p, In (v, t, p) rows -> length p = A /\ forall x, In x p -> (0 <= x)%Qc) ->
  project lo hi eps g A rows = Ok d -> forall x, In x d -> (0 <= x)%Qc.
Proof.
  intros lo hi eps g A rows d HA He Hw Hr P x Hx.
  destruct (project_row lo hi eps g A rows HA He Hw) as (d' & E & L & N).
  { intros v t p I. apply (Hr v t p I). }
  rewrite P in E. injection E as <-. apply (In_nth _ _ 0%Qc) in Hx as (m & Lm & <-).
  assert (Am : A <> 0) by lia. pose proof (Nat.div_mod m A Am) as DM. pose proof (Nat.mod_upper_bound m A Am) as MU.
  assert (DB : m / A < length rows) by (apply Nat.div_lt_upper_bound; auto; lia).
  rewrite (Nat.mul_comm A) in DM. rewrite DM.
  destruct (nth_error rows (m / A)) as [[[v t] p]|] eqn:R; [|apply nth_error_None in R; lia].
  rewrite (N _ _ _ _ R) by auto. apply sumn_nonneg. intros j Hj. apply Qcmul_nonneg; [|apply given_nonneg].
  destruct (Hr v t p) as [Lp Pp]; [eapply nth_error_In; eauto|]. apply Pp, nth_In. lia.
Qed.
Print Assumptions C34_nonneg.

(* Row mass: the images that hit an atom exactly lose their probability.  Missing for the
   full claim: it is false for such images (C34_mass_refuted). *)
Theorem C34_mass_partial : forall lo hi eps g A rows d i v t p,
  2 <= A -> (0 < eps)%Qc -> (lo + eps + eps <= hi)%Qc ->
  (forall v t p, In (v, t, p) rows -> length p = A) ->
  project lo hi eps g A rows = Ok d -> nth_error rows i = Some (v, t, p) ->
  exists kept : nat -> Qc,
    sumn (fun k => nth (i * A + k) d 0%Qc) 0 A = sumn (fun j => nth j p 0 * kept j)%Qc 0 A /\
    forall j, (integral (image lo hi eps g A v t j) -> kept j = 0%Qc) /\
              (~ integral (image lo hi eps g A v t j) -> kept j = 1%Qc).
Proof.
  intros lo hi eps g A rows d i v t p HA He Hw Hr P Hi.
  destruct (project_row lo hi eps g A rows HA He Hw Hr) as (d' & E & L & N).
  rewrite P in E. injection E as <-.
  exists (fun j => sumn (fun k => given (image lo hi eps g A v t j) (Z.of_nat k)) 0 A). split.
  - rewrite (@sumn_ext _ (fun k => sumn (fun j => nth j p 0 * given (image lo hi eps g A v t j) (Z.of_nat k))%Qc 0 A))
      by (intros k Hk; apply (N i v t p Hi); lia).
    apply (sumn_swap (fun j => nth j p 0%Qc) (fun j k => given (image lo hi eps g A v t j) (Z.of_nat k))).
  - intros j. rewrite <- (@pos_image lo hi eps g A He Hw). split; intros I.
    + apply sumn_zero. intros. now apply given_integral.
    + rewrite given_mass; [|apply floor_bound; auto|apply ceil_bound; auto].
      apply not_integral_floor in I as [_ C]. rewrite C, zq_plus, zq_1. ring.
Qed.
Print Assumptions C34_mass_partial.

(* Without exact hits the expectation (in units of the spacing) is preserved as well. *)
Theorem C34_mean_partial : forall lo hi eps g A rows d i v t p,
  2 <= A -> (0 < eps)%Qc -> (lo + eps + eps <= hi)%Qc ->
  (forall v t p, In (v, t, p) rows -> length p = A) ->
  project lo hi eps g A rows = Ok d -> nth_error rows i = Some (v, t, p) ->
  (forall j, j < A -> ~ integral (image lo hi eps g A v t j)) ->
  sumn (fun k => nth (i * A + k) d 0 * nq k)%Qc 0 A = sumn (fun j => nth j p 0 * image lo hi eps g A v t j)%Qc 0 A.
Proof.
  intros lo hi eps g A rows d i v t p HA He Hw Hr P Hi NI.
  destruct (project_row lo hi eps g A rows HA He Hw Hr) as (d' & E & L & N).
  rewrite P in E. injection E as <-.
  rewrite (@sumn_ext _ (fun k => sumn (fun j => nth j p 0 * (given (image lo hi eps g A v t j) (Z.of_nat k) * nq k))%Qc 0 A)).
  2:{ intros k Hk. rewrite (N i v t p Hi) by lia. rewrite Qcmult_comm, <- sumn_scale. apply sumn_ext. intros; ring. }
  transitivity (sumn (fun j => nth j p 0 * sumn (fun k => given (image lo hi eps g A v t j) (Z.of_nat k) * nq k) 0 A)%Qc 0 A).
  - apply (sumn_swap (fun j => nth j p 0%Qc) (fun j k => (given (image lo hi eps g A v t j) (Z.of_nat k) * nq k)%Qc)).
  - apply sumn_ext. intros j Hj. f_equal. specialize (NI j ltac:(lia)). rewrite <- (@pos_image lo hi eps g A He Hw) in NI |- *.
    apply given_mean; auto; [apply floor_bound|apply ceil_bound]; auto.
Qed.
Print Assumptions C34_mean_partial.

(* A terminal step whose value is exactly an inner atom gets the zero vector as its target,
   whatever the next-state distribution. *)
Theorem C34_mass_refuted : forall lo hi eps g A rows d i p m,
  2 <= A -> (0 < eps)%Qc -> (lo + eps + eps <= hi)%Qc -> (eps <= (hi - lo) / (nq A - 1))%Qc ->
  (forall v t p, In (v, t, p) rows -> length p = A) ->
  project lo hi eps g A rows = Ok d ->
  0 < m -> m + 1 < A ->
  nth_error rows i = Some ((lo + nq m * ((hi - lo) / (nq A - 1)))%Qc, true, p) ->
  forall k, k < A -> nth (i * A + k) d 0%Qc = 0%Qc.
Proof.
  intros lo hi eps g A rows d i p m HA He Hw Hs Hr P M0 M1 Hi k Hk.
  destruct (project_row lo hi eps g A rows HA He Hw Hr) as (d' & E & L & N).
  rewrite P in E. injection E as <-. rewrite (N _ _ _ _ Hi) by auto.
  apply sumn_zero. intros j Hj. rewrite given_integral; [ring|]. exists (Z.of_nat m). fold (nq m).
  pose proof (@step_pos lo hi eps A HA He Hw) as SP. pose proof (@atoms_step lo hi eps A HA He Hw) as AS. unfold delta_z in SP, AS.
  unfold image. cbv zeta. set (s := ((hi - lo) / (nq A - 1))%Qc) in *.
  assert (M1' : (1 <= nq m)%Qc) by (rewrite <- nq_1; apply nq_le; lia).
  assert (M2' : (nq m + 1 <= nq A - 1)%Qc).
  { assert (nq (m + 1 + 1) <= nq A)%Qc by (apply nq_le; lia). rewrite !nq_add, nq_1 in H. qcl. }
  assert (X1 : (0 <= (nq m - 1) * s)%Qc) by (apply Qcmul_nonneg; qcl).
  assert (X2 : (0 <= (nq A - 1 - (nq m + 1)) * s)%Qc) by (apply Qcmul_nonneg; qcl).
  assert (Y1 : (eps <= nq m * s)%Qc). { replace (nq m * s)%Qc with ((nq m - 1) * s + s)%Qc by ring. qcl. }
  assert (Y2 : (nq m * s + eps <= hi - lo)%Qc).
  { rewrite <- AS. replace ((nq A - 1) * s)%Qc with ((nq A - 1 - (nq m + 1)) * s + nq m * s + s)%Qc by ring. qcl. }
  destruct (Qclt_le_dec (lo + nq m * s) (lo + eps)); [exfalso; qcl|].
  destruct (Qclt_le_dec (hi - eps) (lo + nq m * s)); [exfalso; qcl|].
  replace (lo + nq m * s - lo)%Qc with (nq m * s)%Qc by ring. apply Qcpos_neq in SP. change (Q2Qc (inject_Z (Z.of_nat m))) with (nq m). field. exact SP.
Qed.
Print Assumptions C34_mass_refuted.

(* five atoms 0..4: a non-terminal step whose images miss the atoms keeps its mass, the
   terminal step with value 2 loses all of it *)
Example C34_nonvacuous :
  let e := Q2Qc (1 # 1000000) in
  let u := Q2Qc (1 # 5) in
  let h := Q2Qc (1 # 2) in
  match project (q 0) (q 4) e h 5 [(Q2Qc (1 # 4), false, [u;u;u;u;u]); (q 2, true, [u;u;u;u;u])] with
  | Ok d => map this d = map this [Q2Qc (1 # 5); Q2Qc (2 # 5); Q2Qc (7 # 20); Q2Qc (1 # 20); 0; 0; 0; 0; 0; 0]%Qc
  | Err _ => False
  end.
Proof. vm_compute. reflexivity. Qed.

(* C35: DQNPer and DDPGPer. *)
Theorem C35_per_loss : forall crit cur y w,
  length cur = length y -> length w = length y ->
  per_loss crit cur y w = Ok (weighted_mean w (map2 crit cur y)).
Proof. intros. apply per_loss_eq; auto. Qed.
Print Assumptions C35_per_loss.
(* the priority of sample i is |value_i - y_i| *)
Theorem C35_per_priorities : forall v y,
  length v = length y ->
  exists e, per_abs_error v y = Ok e /\ length e = length v /\
    forall i, i < length v -> nth i e 0%Qc = Qcabs (nth i v 0 - nth i y 0)%Qc.
Proof.
  intros v y L. unfold per_abs_error. rewrite column_bop by auto. cbn [bind rows_of column].
  eexists. split; [reflexivity|]. rewrite !map_length, map2_length by auto. split; auto.
  intros i Hi. rewrite map_map. rewrite (@nth_map_len _ _ _ _ 0%Qc) by (rewrite map2_length; auto).
  rewrite (@map2_nth _ _ _ _ _ _ 0%Qc 0%Qc) by auto. cbn [qsum]. ring.
Qed.
Print Assumptions C35_per_priorities.

(* the loss of a sample of RAINBOW is the cross entropy of the target and the predicted distribution *)
Definition cross_entropy (lg : Qc -> Qc) (t p : list Qc) : Qc :=
  (- sumn (fun k => nth k t 0 * lg (nth k p 0)) 0 (length t))%Qc.
Lemma rb_sample lg t p : length p = length t -> rb_sample_loss lg t p = cross_entropy lg t p.
Proof.
  unfold rb_sample_loss, cross_entropy. intros L.
  replace (- sumn _ _ _)%Qc with (-(1) * sumn (fun k => nth k t 0 * lg (nth k p 0)) 0 (length t))%Qc by ring.
  rewrite <- sumn_scale, <- sumn_qsum, map2_length by auto. apply sumn_ext. intros k Hk.
  rewrite (@map2_nth _ _ _ _ _ _ 0%Qc 0%Qc) by (auto; lia). ring.
Qed.
Theorem C35_rainbow_loss : forall lg targets qs i t p,
  length qs = length targets -> nth_error targets i = Some t -> nth_error qs i = Some p -> length p = length t ->
  nth_error (map2 (rb_sample_loss lg) targets qs) i = Some (cross_entropy lg t p).
Proof.
  intros lg ts qs i t p L Ht Hp Lp. rewrite <- rb_sample by exact Lp. clear Lp.
  revert qs i L Ht Hp. induction ts as [|a ts IH]; intros [|b qs] [|i] L Ht Hp; cbn in *; try discriminate; try congruence.
  apply IH; auto.
Qed.
Print Assumptions C35_rainbow_loss.
(* and its priority is the loss, which is positive for a distribution, plus 1e-6 *)
Theorem C35_rainbow_priorities : forall lg targets qs i t p,
  length qs = length targets -> nth_error targets i = Some t -> nth_error qs i = Some p -> length p = length t ->
  nth_error (rb_abs_error lg targets qs) i
  = Some (Qcabs (sumn (fun k => nth k t 0 * lg (nth k p 0)) 0 (length t)) + Q2Qc (1 # 1000000))%Qc.
Proof.
  intros lg ts qs i t p L Ht Hp Lp. unfold rb_abs_error. rewrite nth_error_map, (C35_rainbow_loss lg ts qs i t p L Ht Hp Lp).
  cbn. unfold cross_entropy. do 2 f_equal. unfold Qcabs. qdec; qcl.
Qed.
Print Assumptions C35_rainbow_priorities.

(* RAINBOW multiplies a vector by a column: the loss is the product of the two means,
   whatever the losses and weights. *)
Theorem C35_rainbow_refuted : forall lg targets qs w,
  targets <> [] -> length qs = length targets -> length w = length targets ->
  rb_loss lg targets qs w = Ok (plain_mean (map2 (rb_sample_loss lg) targets qs) * plain_mean w)%Qc.
Proof.
  intros lg ts qs w N L1 L2. unfold rb_loss.
  assert (Lm : length (map2 (rb_sample_loss lg) ts qs) = length ts) by (apply map2_length; auto).
  destruct (@vec_times_column (map2 (rb_sample_loss lg) ts qs) w) as (t & -> & M).
  - intros Q. rewrite Q in Lm. destruct ts; cbn in *; congruence.
  - congruence.
  - cbn [bind]. now rewrite M.
Qed.
Print Assumptions C35_rainbow_refuted.
(* ... which is the weighted mean when all weights are equal; missing: it is not otherwise *)
Theorem C35_rainbow_partial : forall lg targets qs c,
  targets <> [] -> length qs = length targets ->
  rb_loss lg targets qs (repeat c (length targets)) =
  Ok (weighted_mean (repeat c (length targets)) (map2 (rb_sample_loss lg) targets qs)).
Proof.
  intros lg ts qs c N L. rewrite C35_rainbow_refuted by (auto; now rewrite repeat_length). f_equal.
  set (l := map2 _ ts qs). assert (Ll : length l = length ts) by (apply map2_length; auto).
  unfold plain_mean, weighted_mean. rewrite repeat_length, Ll.
  assert (Z : nq (length ts) <> 0%Qc) by (apply Qcpos_neq, nq_pos; destruct ts; cbn; [congruence|lia]).
  assert (S : forall n, qsum (repeat c n) = (nq n * c)%Qc).
  { induction n; cbn; [rewrite nq_0; ring|]. rewrite IHn, nq_S. ring. }
  rewrite S. rewrite (@sumn_ext _ (fun i => c * nth i l 0)%Qc).
  - rewrite sumn_scale, <- Ll, sumn_qsum. rewrite Ll. field. exact Z.
  - intros k Hk. f_equal. rewrite (nth_indep _ 0%Qc c) by (rewrite repeat_length; lia). apply nth_repeat.
Qed.
Print Assumptions C35_rainbow_partial.

Definition this_ok (r : res Qc) : option Q := match r with Ok x => Some (this x) | Err _ => None end.
Example C35_nonvacuous :
  this_ok (per_loss (fun a b => (a - b) * (a - b))%Qc [q 1; q 4] [q 2; q 2] [q 3; q 1]) = Some (7 # 2)%Q /\
  (* losses 1 and 4, weights 3 and 1: 7/2 expected, RAINBOW returns 5 *)
  this_ok (rb_loss (fun x => x) [[q (-1)]; [q (-4)]] [[q 1]; [q 1]] [q 3; q 1]) = Some (5 # 1)%Q /\
  this (weighted_mean [q 3; q 1] (map2 (rb_sample_loss (fun x => x)) [[q (-1)]; [q (-4)]] [[q 1]; [q 1]])) = (7 # 2)%Q.
Proof. vm_compute. repeat split. Qed.

(* C36: one soft update. *)
Theorem C36_soft_update : forall tau t s,
  same_shape t s ->
  exists t', soft_update tau t s = (t', Ok tt) /\ same_shape t t' /\ n_bufs t' = n_bufs t /\
    forall i j, has (n_params t) i j ->
      elem (n_params t') i j = ((1 - tau) * elem (n_params t) i j + tau * elem (n_params s) i j)%Qc.
Proof.
  intros tau t s H. pose proof (soft_ok tau H) as E. destruct (soft_update tau t s) as [t' r] eqn:U.
  exists t'. pose proof (soft_shape tau H) as Sh. rewrite U in Sh. injection E as -> ->. repeat split; try apply Sh.
  intros i j I. pose proof (@elem_soft tau t s i j H I) as X. rewrite U in X. cbn [fst] in X. rewrite X. unfold mix. ring.
Qed.
Print Assumptions C36_soft_update.
(* n soft updates towards a fixed source: the distance shrinks by exactly (1-tau) each time,
   and the target is a convex combination of where it started and the source *)
Theorem C36_soft_fixed_source : forall tau n t s i j,
  same_shape t s -> has (n_params t) i j ->
  let t' := follow tau t (repeat s n) in
  (elem (n_params t') i j - elem (n_params s) i j =
   Qcpower (1 - tau) n * (elem (n_params t) i j - elem (n_params s) i j))%Qc /\
  ((0 <= tau)%Qc -> (tau <= 1)%Qc -> exists a, (0 <= a)%Qc /\ (a <= 1)%Qc /\
     elem (n_params t') i j = (a * elem (n_params t) i j + (1 - a) * elem (n_params s) i j)%Qc).
Proof.
  intros tau n t s i j H I t'. assert (D := @follow_fixed tau n t s i j H I). fold t' in D. split; auto.
  intros T0 T1. exists (Qcpower (1 - tau) n).
  assert (B : (0 <= Qcpower (1 - tau) n)%Qc /\ (Qcpower (1 - tau) n <= 1)%Qc).
  { clear D. induction n; [cbn; split; discriminate|]. rewrite Qcpower_S. destruct IHn as [L U]. split.
    - apply Qcmul_nonneg; auto. qcl.
    - assert (0 <= (1 - tau) * (1 - Qcpower (1 - tau) n))%Qc by (apply Qcmul_nonneg; qcl).
      assert (E : ((1 - tau) * Qcpower (1 - tau) n = (1 - tau) - (1 - tau) * (1 - Qcpower (1 - tau) n))%Qc) by ring.
      rewrite E. set (Qcmult _ _) in *. clearbody q0. qcl. }
  destruct B as [B0 B1]. repeat split; auto.
  replace (elem (n_params t') i j) with (elem (n_params t') i j - elem (n_params s) i j + elem (n_params s) i j)%Qc by ring.
  rewrite D. ring.
Qed.
Print Assumptions C36_soft_fixed_source.
(* with changing sources the target never leaves the range of the values seen *)
Theorem C36_soft_hull : forall tau ss t i j lo hi,
  (0 <= tau)%Qc -> (tau <= 1)%Qc ->
  (forall s, In s ss -> same_shape t s) -> has (n_params t) i j ->
  (forall s, In s (t :: ss) -> (lo <= elem (n_params s) i j)%Qc /\ (elem (n_params s) i j <= hi)%Qc) ->
  (lo <= elem (n_params (follow tau t ss)) i j)%Qc /\ (elem (n_params (follow tau t ss)) i j <= hi)%Qc.
Proof. intros. apply follow_hull; auto. Qed.
Print Assumptions C36_soft_hull.
Theorem C36_hard_update : forall t s, same_shape t s -> hard_update t s = (s, Ok tt).
Proof. intros. now apply hard_ok. Qed.
Print Assumptions C36_hard_update.
(* update_steps = k: after the update whose number (among those with update_target set) is a
   multiple of k the targets equal the online networks, after any other they are unchanged *)
Theorem C36_periodic : forall k online target xs x,
  0 < k -> same_shapes online target ->
  (forall y, In y (xs ++ [x]) -> same_shapes target (fst y)) ->
  let st0 := fst (fr_new None (Some k) online target) in
  let st := fr_run None (Some k) st0 xs in
  let st' := fr_run None (Some k) st0 (xs ++ [x]) in
  f_online st' = fst x /\ snd (fr_update None (Some k) st x) = Ok tt /\
  (snd x = true -> Nat.divide k (flagged (xs ++ [x])) -> f_target st' = f_online st') /\
  (snd x = false \/ ~ Nat.divide k (flagged (xs ++ [x])) -> f_target st' = f_target st).
Proof.
  intros k online target xs [o fl] K SH H st0 st st'.
  assert (T0 : f_target st0 = target).
  { unfold st0, fr_new. destruct (all_pairs hard_update online target); reflexivity. }
  assert (C0 : f_count st0 = 0).
  { unfold st0, fr_new. destruct (all_pairs hard_update online target); reflexivity. }
  assert (Sh : same_shapes (f_target st) o).
  { assert (A : same_shapes (f_target st0) (f_target st)).
    { apply run_shape; auto. intros y Hy. rewrite T0. apply H, in_or_app; auto. }
    assert (B : same_shapes target o) by (apply (H (o, fl)), in_or_app; right; left; auto).
    rewrite T0 in A. clear - A B. unfold same_shapes in *. revert o B. induction A; intros o B; inversion B; subst; constructor; auto.
    eapply shape_trans; [apply shape_sym; eassumption|eassumption]. }
  assert (Cn : f_count st = flagged xs) by (unfold st; rewrite run_count, C0; auto).
  unfold st'. rewrite run_app. fold st. change (fr_run None (Some k) st [(o, fl)]) with (fst (fr_update None (Some k) st (o, fl))).
  rewrite flagged_app. cbn [snd fst]. destruct fl.
  - replace (flagged [(o, true)]) with 1 by reflexivity. rewrite <- Cn. unfold fr_update. destruct k as [|k]; [lia|].
    destruct (Nat.eqb_spec ((f_count st + 1) mod S k) 0) as [Q|Q].
    + rewrite all_hard by auto. cbn. repeat split; auto. intros [F|F]; [discriminate|].
      destruct F. apply Nat.mod_divide in Q; auto.
    + cbn. repeat split; auto. intros _ F. destruct Q. apply Nat.mod_divide; auto.
  - cbn. repeat split; auto. intros; discriminate.
Qed.
Print Assumptions C36_periodic.
(* at construction the online networks are made equal to the targets *)
Theorem C36_init : forall rate steps online target,
  rate = None \/ steps = None -> same_shapes online target ->
  fr_new rate steps online target = (MkFr target target 0, Ok tt).
Proof.
  intros rate steps o t N H. unfold fr_new. rewrite all_hard by auto.
  destruct rate, steps; try reflexivity. destruct N; discriminate.
Qed.
Print Assumptions C36_init.

Example C36_nonvacuous :
  let n x := MkNet [[q x; q (x + 1)]; [q (2 * x)]] [[q x]] in
  let st0 := fst (fr_new None (Some 2) [n 0%Z] [n 7%Z]) in
  same_shapes [n 0%Z] [n 7%Z] /\
  f_target (fr_run None (Some 2) st0 [([n 1%Z], true)]) = [n 7%Z] /\
  f_target (fr_run None (Some 2) st0 [([n 1%Z], true); ([n 2%Z], true)]) = [n 2%Z] /\
  f_target (fr_run None (Some 2) st0 [([n 1%Z], true); ([n 2%Z], true); ([n 3%Z], false); ([n 4%Z], true)]) = [n 2%Z] /\
  map (map this) (n_params (follow (Q2Qc (1 # 2)) (n 0%Z) [n 4%Z; n 4%Z])) = [[3 # 1; 4 # 1]; [6 # 1]]%Q.
Proof.
  cbv zeta. split; [repeat constructor|]. vm_compute. repeat split.
Qed.
