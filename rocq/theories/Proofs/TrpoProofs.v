From Coq Require Import Field.
From Verif Require Import Lib.Rat Model.Trpo.
Set Implicit Arguments.
Local Open Scope Qc_scope.

(* ---- flat parameters ---- *)
Fixpoint total (m : list vec) : nat := match m with [] => O | p :: r => (length p + total r)%nat end.
Lemma concat_length (m : list vec) : length (get_flat m) = total m.
Proof. unfold get_flat. induction m; cbn; auto. rewrite app_length. now rewrite IHm. Qed.
Lemma set_flat_shape m v : length v = total m -> map (@length Qc) (set_flat m v) = map (@length Qc) m.
Proof.
  revert v. induction m as [|p m IH]; cbn; intros v L; auto.
  rewrite firstn_length, IH by (rewrite skipn_length; lia). f_equal. lia.
Qed.
Lemma get_set_flat m v : length v = total m -> get_flat (set_flat m v) = v.
Proof.
  revert v. unfold get_flat. induction m as [|p m IH]; cbn; intros v L.
  - now destruct v.
  - rewrite IH by (rewrite skipn_length; lia). apply firstn_skipn.
Qed.
Lemma set_flat_ext m m' v : map (@length Qc) m = map (@length Qc) m' -> set_flat m v = set_flat m' v.
Proof.
  revert m' v. induction m as [|p m IH]; intros [|p' m'] v H; cbn in *; try discriminate; auto.
  injection H as H1 H2. rewrite H1. f_equal. auto.
Qed.
Lemma set_get_flat m : set_flat m (get_flat m) = m.
Proof.
  unfold get_flat. induction m as [|p m IH]; cbn; auto.
  rewrite firstn_app, firstn_all, Nat.sub_diag, skipn_app, skipn_all, Nat.sub_diag. cbn.
  now rewrite app_nil_r, IH.
Qed.
Lemma zipw_length f a b : length a = length b -> length (zipw f a b) = length a.
Proof. revert b. induction a; intros [|y b] L; cbn in *; auto; try discriminate. Qed.
Lemma scale_length k a : length (scale k a) = length a.
Proof. apply map_length. Qed.
Lemma total_shape m m' : map (@length Qc) m = map (@length Qc) m' -> total m = total m'.
Proof.
  revert m'. induction m as [|p m IH]; intros [|p' m'] H; cbn in *; try discriminate; auto.
  injection H as H1 H2. f_equal; auto.
Qed.

Section LS.
  Variables (loss kl : list vec -> Qc) (lim : Qc) (step : vec).
  Lemma search_spec m0 n : length step = total m0 -> forall i m,
    map (@length Qc) m = map (@length Qc) m0 ->
    let cand j := set_flat m0 (vadd (get_flat m0) (scale (half_pow j) step)) in
    let ok j := kl (cand j) <= lim /\ loss (cand j) < loss m0 in
    let (m', b) := search loss kl lim step (get_flat m0) (loss m0) m i n in
    if b then exists j, (i <= j < i + n)%nat /\ m' = cand j /\ ok j /\ forall k, (i <= k < j)%nat -> ~ ok k
    else m' = m0 /\ forall k, (i <= k < i + n)%nat -> ~ ok k.
  Proof.
    intros L. induction n as [|n IH]; intros i m Sh cand ok; cbn [search].
    - split; [rewrite (@set_flat_ext m m0) by auto; apply set_get_flat|lia].
    - assert (Lc : forall j, length (vadd (get_flat m0) (scale (half_pow j) step)) = total m0).
      { intros j. unfold vadd. rewrite zipw_length; rewrite concat_length; auto. rewrite scale_length. auto. }
      assert (E : set_flat m (vadd (get_flat m0) (scale (half_pow i) step)) = cand i) by (apply set_flat_ext; auto).
      rewrite E.
      assert (Dec : (Qcleb (kl (cand i)) lim && Qcltb 0 (loss m0 - loss (cand i)))%bool = true <-> ok i).
      { rewrite andb_true_iff. unfold ok.
        destruct (Qcleb_spec (kl (cand i)) lim), (Qcltb_spec 0 (loss m0 - loss (cand i)));
          split; intros [? ?]; split; try discriminate; auto; try contradiction; qcl. }
      destruct (Qcleb (kl (cand i)) lim && Qcltb 0 (loss m0 - loss (cand i)))%bool eqn:B.
      + exists i. repeat split; try lia; apply Dec; reflexivity.
      + assert (No : ~ ok i) by (intros H; apply Dec in H; congruence).
        specialize (IH (S i) (cand i)). cbn zeta in IH.
        assert (Sh' : map (@length Qc) (cand i) = map (@length Qc) m0) by (apply set_flat_shape; auto).
        specialize (IH Sh').
        destruct (search loss kl lim step (get_flat m0) (loss m0) (cand i) (S i) n) as [m' []].
        * destruct IH as (j & A1 & A2 & A3 & A4). exists j. repeat split; try lia; auto; try apply A3.
          intros k Hk. destruct (Nat.eq_dec k i) as [->|]; auto. apply A4. lia.
        * destruct IH as (A1 & A2). split; auto. intros k Hk.
          destruct (Nat.eq_dec k i) as [->|]; auto. apply A2. lia.
  Qed.
End LS.

(* ---- conjugate gradients ---- *)
Definition linear (A : vec -> vec) (n : nat) : Prop :=
  (forall x, length x = n -> length (A x) = n)
  /\ (forall x y k, length x = n -> length y = n -> A (vadd x (scale k y)) = vadd (A x) (scale k (A y))).
Lemma zeros_A A n z : linear A n -> length z = n -> (forall x, In x z -> x = 0) -> A z = map (fun _ => 0) z.
Proof.
  intros [H1 H2] L Z.
  assert (Ez : vadd z (scale 1 z) = z).
  { clear - Z. unfold vadd, scale. induction z as [|x z IH]; auto. cbn. rewrite IH by (intros; apply Z; now right).
    rewrite (Z x (or_introl eq_refl)). f_equal. }
  specialize (H2 z z 1 L L). rewrite Ez in H2.
  assert (G : forall a (w : vec), length a = length w -> a = vadd a (scale 1 a) -> a = map (fun _ => 0) w).
  { intros a. induction a as [|x a IH]; intros [|y w] La E; cbn in *; try discriminate; auto.
    injection E as E1 E2. f_equal; [|apply IH; auto]. qcl. }
  apply G; [rewrite H1; auto|]. exact H2.
Qed.
Lemma vsub_zeros b z : length b = length z -> (forall x, In x z -> x = 0) -> vsub b z = b.
Proof.
  revert z. induction b as [|x b IH]; intros [|y z] L Z; cbn in *; try discriminate; auto.
  f_equal; [|apply IH; auto]. rewrite (Z y) by auto. qcl.
Qed.
Lemma vsub_step b a k c : length b = length a -> length a = length c ->
  vsub (vsub b a) (scale k c) = vsub b (vadd a (scale k c)).
Proof.
  revert a c. induction b as [|x b IH]; intros [|y a] [|w c] L1 L2; cbn in *; try discriminate; auto.
  f_equal; [qcl|]. apply IH; lia.
Qed.

Section CG.
  Variables (A : vec -> vec) (eps thr : Qc) (b : vec).
  Hypothesis Lin : linear A (length b).
  Definition res2 (x : vec) : Qc := dot (vsub b (A x)) (vsub b (A x)).
  Lemma cg_loop_spec n : forall x p, length x = length b -> length p = length b ->
    forall y, cg_loop A eps thr n x (vsub b (A x)) p (res2 x) = Some y ->
    length y = length b /\
    (res2 y < thr
     \/ forall k z, (0 < k <= n)%nat -> cg_loop A eps thr k x (vsub b (A x)) p (res2 x) = Some z -> thr <= res2 z).
  Proof.
    destruct Lin as [LA Lk].
    induction n as [|n IH]; intros x p Lx Lp y H; cbn [cg_loop] in H.
    - injection H as <-. split; auto. right. lia.
    - destruct (qdiv (res2 x) (dot p (A p) + eps)) as [alpha|] eqn:D1; [|discriminate].
      set (x' := vadd x (scale alpha p)) in *.
      assert (Lx' : length x' = length b) by (unfold x', vadd; rewrite zipw_length; rewrite ?scale_length; congruence).
      assert (Er : vsub (vsub b (A x)) (scale alpha (A p)) = vsub b (A x')).
      { unfold x'. rewrite Lk by auto. apply vsub_step; rewrite ?LA; auto. }
      rewrite Er in H. fold (res2 x') in H.
      destruct (qdiv (res2 x') (res2 x + eps)) as [beta|] eqn:D2; [|discriminate].
      destruct (Qcltb_spec (res2 x') thr) as [T|T].
      + injection H as <-. auto.
      + assert (Lp' : length (vadd (vsub b (A x')) (scale beta p)) = length b).
        { unfold vadd, vsub. rewrite !zipw_length; auto; rewrite ?scale_length; rewrite ?LA; auto.
          rewrite zipw_length; auto. rewrite LA; auto. }
        destruct (IH x' _ Lx' Lp' y H) as [Ly [G|G]]; split; auto. right.
        intros [|k] z Hk Hz; [lia|]. cbn [cg_loop] in Hz. rewrite D1 in Hz. fold x' in Hz.
        rewrite Er in Hz. fold (res2 x') in Hz. rewrite D2 in Hz.
        destruct (Qcltb_spec (res2 x') thr); [contradiction|].
        destruct k as [|k]; [injection Hz as <-; qcl|].
        apply (G (S k)); [lia|exact Hz].
  Qed.
End CG.
