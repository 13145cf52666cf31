From Coq Require Import QArith.
From Verif Require Import Lib.Rat Model.Losses Model.Target Spec.LossesSpec Spec.TargetSpec Proofs.ReturnsProofs Proofs.ProjectProofs.
Close Scope Q_scope.
Open Scope nat_scope.
Set Implicit Arguments.

(* ---------------- losses ---------------- *)
Lemma bc1_single f x y : bc1 f [x] [y] = Ok [f x y]. Proof. reflexivity. Qed.
Lemma seqr_singles f a b : length a = length b ->
  seqr (map2 (bc1 f) (map (fun x => [x]) a) (map (fun x => [x]) b)) = Ok (map (fun x => [x]) (map2 f a b)).
Proof.
  revert b; induction a as [|x a IH]; intros [|y b] L; cbn in L |- *; try discriminate; auto.
  rewrite IH by lia. reflexivity.
Qed.
Lemma column_bop f a b : length a = length b -> bop f (column a) (column b) = Ok (column (map2 f a b)).
Proof.
  intros L. unfold bop, column, bc2, rows_of. rewrite !map_length, L, Nat.eqb_refl.
  rewrite seqr_singles by auto. reflexivity.
Qed.
Lemma concat_singles {X} (l : list X) : concat (map (fun x => [x]) l) = l.
Proof. induction l; cbn; congruence. Qed.
Lemma mean_column l : mean (column l) = plain_mean l.
Proof. unfold mean, entries, column, plain_mean. now rewrite concat_singles. Qed.
Lemma weighted_eq w l : length w = length l -> plain_mean (map2 Qcmult l w) = weighted_mean w l.
Proof.
  intros L. unfold plain_mean, weighted_mean. rewrite map2_length by auto. f_equal.
  rewrite <- sumn_qsum, map2_length by auto. apply sumn_ext. intros k Hk.
  rewrite (@map2_nth _ _ _ _ _ _ 0%Qc 0%Qc) by (auto; lia). ring.
Qed.
Lemma per_loss_eq crit cur y w : length cur = length y -> length w = length y ->
  per_loss crit cur y w = Ok (weighted_mean w (map2 crit cur y)).
Proof.
  intros L1 L2. unfold per_loss. rewrite column_bop by auto. cbn [bind].
  rewrite column_bop by (rewrite map2_length; lia). cbn [bind]. rewrite mean_column, weighted_eq; auto.
  rewrite map2_length; lia.
Qed.
Lemma qsum_scale c l : qsum (map (fun x => c * x)%Qc l) = (c * qsum l)%Qc.
Proof. induction l; cbn; [ring|rewrite IHl; ring]. Qed.

(* a vector times a column: the whole outer product *)
Lemma seqr_outer l w : w <> [] ->
  (if 1 =? length w then seqr (map2 (bc1 Qcmult) [l] (map (fun x => [x]) w))
   else seqr (map (bc1 Qcmult l) (map (fun x => [x]) w)))
  = Ok (map (fun y => map (fun x => (x * y)%Qc) l) w).
Proof.
  intros N.
  assert (E : forall y, bc1 Qcmult l [y] = Ok (map (fun x => (x * y)%Qc) l)).
  { intros y. unfold bc1. destruct l as [|a [|b l]]; reflexivity. }
  destruct (Nat.eqb_spec 1 (length w)) as [Q|Q].
  - destruct w as [|y [|z w]]; cbn in Q; try discriminate. cbn [map map2 seqr]. rewrite E. reflexivity.
  - clear N Q. induction w as [|y w IH]; [reflexivity|]. cbn [map seqr]. rewrite E, IH. reflexivity.
Qed.
Lemma outer_sum l w : qsum (concat (map (fun y => map (fun x => (x * y)%Qc) l) w)) = (qsum l * qsum w)%Qc.
Proof.
  induction w as [|y w IH]; cbn; [ring|]. rewrite qsum_app, IH.
  assert (qsum (map (fun x => x * y) l) = y * qsum l)%Qc.
  { rewrite <- qsum_scale. f_equal. apply map_ext. intros. ring. }
  rewrite H. ring.
Qed.
Lemma outer_len (l w : list Qc) : length (concat (map (fun y => map (fun x => (x * y)%Qc) l) w)) = length l * length w.
Proof. induction w; cbn; [lia|]. rewrite app_length, map_length, IHw. lia. Qed.
Lemma vec_times_column l w : l <> [] -> length w = length l ->
  exists t, bop Qcmult (V1 l) (column w) = Ok t /\ mean t = (plain_mean l * plain_mean w)%Qc.
Proof.
  intros N L. assert (Nw : w <> []) by (destruct w, l; cbn in *; congruence).
  exists (V2 (map (fun y => map (fun x => (x * y)%Qc) l) w)). split.
  - unfold bop, column, bc2, rows_of. rewrite map_length. cbn [length].
    transitivity (bind (Ok (map (fun y => map (fun x => (x * y)%Qc) l) w)) (fun r => Ok (V2 r))); [|reflexivity].
    f_equal. rewrite <- (seqr_outer l Nw).
    destruct (1 =? length w); reflexivity.
  - unfold mean, entries, plain_mean. rewrite outer_sum, outer_len, nq_mul.
    assert (nq (length l) <> 0)%Qc by (apply Qcpos_neq, nq_pos; destruct l; cbn; [congruence|lia]).
    assert (nq (length w) <> 0)%Qc by (rewrite L; auto). field. auto.
Qed.

(* ---------------- target networks ---------------- *)
Lemma copy_zip_ok f ts ss : map (@length Qc) ts = map (@length Qc) ss ->
  copy_zip f ts ss = (map2 (map2 f) ts ss, Ok tt).
Proof.
  revert ss; induction ts as [|t ts IH]; intros [|s ss] H; cbn in *; try discriminate; auto.
  injection H as L H. rewrite L, Nat.eqb_refl, IH by auto. reflexivity.
Qed.
Lemma map2_snd {A} (t s : list A) : length t = length s -> map2 (fun _ y => y) t s = s.
Proof. revert s; induction t; intros [|y s] H; cbn in *; try discriminate; auto. now rewrite IHt by lia. Qed.
Lemma copy_zip_copy ts ss : map (@length Qc) ts = map (@length Qc) ss ->
  copy_zip (fun _ y => y) ts ss = (ss, Ok tt).
Proof.
  intros H. rewrite copy_zip_ok by auto. f_equal.
  revert ss H; induction ts as [|t ts IH]; intros [|s ss] H; cbn in *; try discriminate; auto.
  injection H as L H. now rewrite map2_snd, IH by auto.
Qed.
Lemma hard_ok t s : same_shape t s -> hard_update t s = (s, Ok tt).
Proof.
  intros [P B]. unfold hard_update. rewrite copy_zip_copy by auto. rewrite copy_zip_copy by auto.
  destruct s; reflexivity.
Qed.
Lemma all_hard ts ss : same_shapes ts ss -> all_pairs hard_update ts ss = (ss, Ok tt).
Proof.
  induction 1; cbn; auto. rewrite hard_ok by auto. now rewrite IHForall2.
Qed.

Definition mix (r x y : Qc) : Qc := (x * (1 - r) + y * r)%Qc.
Lemma soft_ok r t s : same_shape t s ->
  soft_update r t s = (MkNet (map2 (map2 (mix r)) (n_params t) (n_params s)) (n_bufs t), Ok tt).
Proof. intros [P B]. unfold soft_update. rewrite copy_zip_ok by auto. reflexivity. Qed.
Lemma map2_lengths f ts ss : map (@length Qc) ts = map (@length Qc) ss ->
  map (@length Qc) (map2 (map2 f) ts ss) = map (@length Qc) ts.
Proof.
  revert ss; induction ts as [|t ts IH]; intros [|s ss] H; cbn in *; try discriminate; auto.
  injection H as L H. now rewrite map2_length, IH by auto.
Qed.
Lemma same_len i (p q : list (list Qc)) : map (@length Qc) p = map (@length Qc) q ->
  length p = length q /\ length (nth i p []) = length (nth i q []).
Proof.
  intros H. split.
  - rewrite <- (map_length (@length Qc) p), H. apply map_length.
  - revert i q H; induction p as [|x p IH]; intros [|i] [|y q] H; cbn in *; try discriminate; auto;
    injection H as L H; auto.
Qed.
Lemma elem_map2 f p q i j : map (@length Qc) p = map (@length Qc) q -> has p i j ->
  elem (map2 (map2 f) p q) i j = f (elem p i j) (elem q i j).
Proof.
  intros H [I J]. destruct (@same_len i p q H) as [L1 L2]. unfold elem.
  rewrite (@map2_nth _ _ _ _ _ _ [] []) by auto. apply map2_nth; auto.
Qed.
Lemma soft_shape r t s : same_shape t s -> same_shape t (fst (soft_update r t s)).
Proof. intros H. rewrite soft_ok by auto. destruct H as [P B]. split; cbn; auto. symmetry. now apply map2_lengths. Qed.
Lemma shape_sym a b : same_shape a b -> same_shape b a.
Proof. intros [P B]; split; auto. Qed.
Lemma shape_trans a b c : same_shape a b -> same_shape b c -> same_shape a c.
Proof. intros [P B] [P' B']; split; congruence. Qed.
Lemma has_shape a b i j : same_shape a b -> has (n_params a) i j -> has (n_params b) i j.
Proof. intros [P _] [I J]. destruct (@same_len i _ _ P) as [L1 L2]. split; lia. Qed.
Lemma elem_soft r t s i j : same_shape t s -> has (n_params t) i j ->
  elem (n_params (fst (soft_update r t s))) i j = mix r (elem (n_params t) i j) (elem (n_params s) i j).
Proof. intros H I. rewrite soft_ok by auto. destruct H. now apply elem_map2. Qed.

Lemma follow_shape r ss t : (forall s, In s ss -> same_shape t s) -> same_shape t (follow r t ss).
Proof.
  revert t; induction ss as [|s ss IH]; intros t H; cbn; [split; auto|].
  assert (A : same_shape t (fst (soft_update r t s))) by (apply soft_shape, H; left; auto).
  eapply shape_trans; [exact A|]. apply IH. intros x Hx. eapply shape_trans; [apply shape_sym, A|]. apply H. right; auto.
Qed.
Lemma follow_bufs r ss t : (forall s, In s ss -> same_shape t s) -> n_bufs (follow r t ss) = n_bufs t.
Proof.
  revert t; induction ss as [|s ss IH]; intros t H; cbn; auto.
  assert (A : same_shape t s) by (apply H; left; auto). pose proof (soft_shape r A) as A'.
  rewrite IH.
  - rewrite soft_ok by auto. reflexivity.
  - intros x Hx. eapply shape_trans; [apply shape_sym, A'|]. apply H. right; auto.
Qed.
Lemma follow_fixed r n t s i j : same_shape t s -> has (n_params t) i j ->
  (elem (n_params (follow r t (repeat s n))) i j - elem (n_params s) i j =
   Qcpower (1 - r) n * (elem (n_params t) i j - elem (n_params s) i j))%Qc.
Proof.
  revert t; induction n; intros t H I; [cbn; ring|]. cbn [repeat follow].
  pose proof (soft_shape r H) as A. rewrite IHn.
  - rewrite elem_soft by auto. rewrite Qcpower_S. unfold mix. ring.
  - eapply shape_trans; [apply shape_sym, A|exact H].
  - eapply has_shape; eauto.
Qed.
Lemma follow_hull r ss t i j lo hi : (0 <= r)%Qc -> (r <= 1)%Qc ->
  (forall s, In s ss -> same_shape t s) -> has (n_params t) i j ->
  (forall s, In s (t :: ss) -> (lo <= elem (n_params s) i j)%Qc /\ (elem (n_params s) i j <= hi)%Qc) ->
  (lo <= elem (n_params (follow r t ss)) i j)%Qc /\ (elem (n_params (follow r t ss)) i j <= hi)%Qc.
Proof.
  intros R0 R1. revert t; induction ss as [|s ss IH]; intros t H I B; cbn; [apply B; left; auto|].
  assert (A : same_shape t s) by (apply H; left; auto). pose proof (soft_shape r A) as A'.
  apply IH.
  - intros x Hx. eapply shape_trans; [apply shape_sym, A'|]. apply H. right; auto.
  - eapply has_shape; eauto.
  - intros x [<-|Hx]; [|apply B; right; right; auto].
    rewrite elem_soft by auto. destruct (B t (or_introl eq_refl)) as [L1 U1]. destruct (B s (or_intror (or_introl eq_refl))) as [L2 U2].
    unfold mix. set (a := elem (n_params t) i j) in *. set (b := elem (n_params s) i j) in *. clearbody a b. clear - R0 R1 L1 U1 L2 U2.
    assert (0 <= (a - lo) * (1 - r))%Qc by (apply Qcmul_nonneg; qcl).
    assert (0 <= (b - lo) * r)%Qc by (apply Qcmul_nonneg; qcl).
    assert (0 <= (hi - a) * (1 - r))%Qc by (apply Qcmul_nonneg; qcl).
    assert (0 <= (hi - b) * r)%Qc by (apply Qcmul_nonneg; qcl).
    assert (E1 : (a * (1 - r) + b * r = (a - lo) * (1 - r) + (b - lo) * r + lo)%Qc) by ring.
    assert (E2 : (a * (1 - r) + b * r = hi - ((hi - a) * (1 - r) + (hi - b) * r))%Qc) by ring.
    split; [rewrite E1|rewrite E2];
      repeat match goal with H : context [Qcmult ?x ?y] |- _ => set (Qcmult x y) in *; clearbody q end; qcl.
Qed.

Lemma flagged_app xs ys : flagged (xs ++ ys) = flagged xs + flagged ys.
Proof. unfold flagged. now rewrite filter_app, app_length. Qed.
Lemma run_count k st xs : 0 < k ->
  f_count (fr_run None (Some k) st xs) = f_count st + flagged xs.
Proof.
  intros K. unfold fr_run. revert st; induction xs as [|[o fl] xs IH]; intros st; cbn [fold_left]; [cbn; lia|].
  rewrite IH. change ((o, fl) :: xs) with ([(o, fl)] ++ xs). rewrite flagged_app.
  unfold fr_update. destruct fl; cbn; [|lia]. destruct k as [|k]; [lia|].
  destruct (((f_count st + 1) mod S k) =? 0); [destruct (all_pairs _ _ _)|]; cbn; lia.
Qed.
Lemma run_app r s st xs ys : fr_run r s st (xs ++ ys) = fr_run r s (fr_run r s st xs) ys.
Proof. unfold fr_run. apply fold_left_app. Qed.
Lemma run_shape k st xs : 0 < k -> (forall x, In x xs -> same_shapes (f_target st) (fst x)) ->
  same_shapes (f_target st) (f_target (fr_run None (Some k) st xs)).
Proof.
  intros K. assert (refl : forall l, same_shapes l l) by (induction l; constructor; auto; split; auto).
  assert (trans : forall a b c, same_shapes a b -> same_shapes b c -> same_shapes a c).
  { unfold same_shapes. induction a; intros b c H1 H2; inversion H1; subst; inversion H2; subst; constructor; eauto using shape_trans. }
  assert (sym : forall a b, same_shapes a b -> same_shapes b a).
  { induction 1; constructor; auto using shape_sym. }
  unfold fr_run. revert st; induction xs as [|[o fl] xs IH]; intros st H; cbn [fold_left]; [auto|].
  assert (A : same_shapes (f_target st) (f_target (fst (fr_update None (Some k) st (o, fl))))).
  { unfold fr_update. destruct fl; cbn; auto. destruct k as [|k]; [lia|].
    destruct (((f_count st + 1) mod S k) =? 0); cbn; auto.
    pose proof (H _ (or_introl eq_refl)) as Ho. cbn in Ho. rewrite all_hard by auto. cbn. auto. }
  eapply trans; [exact A|]. apply IH. intros x Hx. eapply trans; [apply sym, A|]. apply H. right; auto.
Qed.
