(* CtxPool worker identities. *)
From Verif Require Import Lib.Base Model.Pool Spec.PoolSpec.
Set Implicit Arguments.

Section CtxP.
  Variable C : Type.
  Variable ctxs : list C.
  Notation n := (length ctxs).

  Definition CI (s : cpool C) : Prop :=
    NoDup (map (@c_id C) (cp_pool s)) /\ Forall (own_context ctxs) (cp_pool s) /\
    Forall (fun w => c_alive w = false) (cp_gone s) /\
    match cp_pc s with
    | MIdle => length (cp_pool s) = n
    | MReap _ | MNeed => True
    | MSpawn todo => NoDup todo /\ (forall x, In x todo -> x < n /\ ~ In x (map (@c_id C) (cp_pool s))) /\
                     length (cp_pool s) + length todo = n
    end.

  Lemma map_upd_id (p : list (cworker C)) i w w' : nth_error p i = Some w -> c_id w' = c_id w ->
    map (@c_id C) (upd i w' p) = map (@c_id C) p.
  Proof.
    revert i; induction p as [|x p IH]; intros [|i] H E; cbn in *; try discriminate.
    - injection H as ->. now rewrite E.
    - f_equal. now apply IH.
  Qed.
  Lemma remove_at_map {T U} (f : T -> U) i l : map f (remove_at i l) = remove_at i (map f l).
  Proof. unfold remove_at. now rewrite map_app, firstn_map, skipn_map. Qed.
  Lemma In_remove_at {T} i (l : list T) x : In x (remove_at i l) -> In x l.
  Proof.
    unfold remove_at. rewrite in_app_iff. revert i; induction l as [|y l IH]; intros [|i]; cbn; try tauto.
    intros [[H|H]|H]; auto; right; apply (IH i); auto.
  Qed.
  Lemma NoDup_remove_at {T} i (l : list T) : NoDup l -> NoDup (remove_at i l).
  Proof.
    revert i; induction l as [|y l IH]; intros [|i] N; cbn; auto.
    - now inversion N.
    - inversion N; subst. change (NoDup (y :: remove_at i l)). constructor; auto. intro H. now apply In_remove_at in H.
  Qed.

  Lemma filter_split {T} (f : T -> bool) l : length (filter f l) + length (filter (fun x => negb (f x)) l) = length l.
  Proof. induction l as [|x l IH]; cbn; auto. destruct (f x); cbn; lia. Qed.

  Lemma need_len (p : list (cworker C)) : NoDup (map (@c_id C) p) -> Forall (own_context ctxs) p ->
    length (need_ids ctxs p) = n - length p /\ length p <= n.
  Proof.
    intros N F. unfold need_ids, nprocs.
    pose proof (filter_split (fun i => existsb (Nat.eqb i) (map (@c_id C) p)) (seq 0 n)) as S.
    rewrite seq_length in S.
    assert (L : length (filter (fun i => existsb (Nat.eqb i) (map (@c_id C) p)) (seq 0 n)) = length p).
    { rewrite <- (map_length (@c_id C) p). apply Nat.le_antisymm; apply NoDup_incl_length; auto.
      - apply NoDup_filter, seq_NoDup.
      - intros i H. apply filter_In in H as [_ H]. apply existsb_exists in H as (y & Hy & Q). apply Nat.eqb_eq in Q. now subst.
      - intros i H. apply filter_In. split.
        + apply in_map_iff in H as (w & <- & I). rewrite Forall_forall in F. apply F in I as [I _]. apply in_seq. lia.
        + apply existsb_exists. exists i. split; auto. apply Nat.eqb_refl. }
    lia.
  Qed.

  Lemma CI_step s l : fair_order l -> CI s -> CI (cstep ctxs s l).
  Proof.
    intros Fo (N & F & Gn & P). destruct l as [i|ord]; cbn [cstep].
    - destruct (nth_error (cp_pool s) i) as [w|] eqn:W; [|split; auto].
      unfold CI. cbn [cpc cp_pool cp_gone cp_pc]. rewrite (@map_upd_id _ _ _ _ W) by reflexivity. rewrite upd_length. split; auto. split; [|split; auto].
      apply Forall_forall. intros x H. apply In_upd in H as [->|H].
      + apply nth_error_In in W. rewrite Forall_forall in F. apply F in W. exact W.
      + rewrite Forall_forall in F. auto.
    - destruct (cp_pc s) as [|[|i]| |[|pid r]] eqn:Pc.
      + unfold CI; cbn [cpc cp_pool cp_gone cp_pc]; auto.
      + unfold CI; cbn [cpc cp_pool cp_gone cp_pc]; auto.
      + destruct (nth_error (cp_pool s) i) as [w|] eqn:W; [|unfold CI; cbn [cpc cp_pool cp_gone cp_pc]; auto].
        destruct (c_alive w) eqn:Al; [unfold CI; cbn [cpc cp_pool cp_gone cp_pc]; auto|].
        unfold CI, cdel; cbn [cp_pool cp_gone cp_pc]. rewrite W.
        rewrite remove_at_map. split; [now apply NoDup_remove_at|]. split; [|split; auto].
        * apply Forall_forall. intros x H. apply In_remove_at in H. rewrite Forall_forall in F. auto.
        * apply Forall_app. split; auto.
      + cbn in Fo. destruct (need_len N F) as [L1 L2]. specialize (Fo (need_ids ctxs (cp_pool s))).
        unfold CI; cbn [cpc cp_pool cp_gone cp_pc]. split; auto. split; auto. split; auto.
        assert (NN : NoDup (need_ids ctxs (cp_pool s))) by (apply NoDup_filter, seq_NoDup).
        rewrite firstn_all2.
        * split; [|split].
          -- eapply Permutation_NoDup; [apply Permutation_sym; exact Fo|exact NN].
          -- intros x H. eapply Permutation_in in H; [|exact Fo]. unfold need_ids in H. apply filter_In in H as [H1 H2].
             apply in_seq in H1. split; [unfold nprocs in H1; lia|]. intro I. apply negb_true_iff in H2.
             rewrite (proj2 (existsb_exists _ _)) in H2; [discriminate|]. exists x. split; auto. apply Nat.eqb_refl.
          -- rewrite (Permutation_length Fo), L1. lia.
        * rewrite (Permutation_length Fo), L1. unfold nprocs. lia.
      + destruct P as (_ & _ & P). unfold CI; cbn [cpc cp_pool cp_gone cp_pc]. cbn in P. split; auto. split; auto. split; auto. lia.
      + destruct P as (Nt & Ht & L). inversion Nt; subst. destruct (Ht pid) as [H3 H4]; [cbn; auto|].
        unfold CI; cbn [cpc cp_pool cp_gone cp_pc]. rewrite map_app. cbn [map c_id].
        split; [|split; [|split; [auto|]]].
        * apply (Permutation_NoDup (l := pid :: map (@c_id C) (cp_pool s))); [apply Permutation_cons_append|]. now constructor.
        * apply Forall_app. split; auto. repeat constructor; auto.
        * split; auto. split.
          -- intros x I. destruct (Ht x) as [? ?]; [cbn; auto|]. split; auto. rewrite in_app_iff. intros [?|[<-|[]]]; auto.
          -- rewrite app_length. cbn in *. lia.
  Qed.

  Lemma CI_run ls : Forall fair_order ls -> CI (crun ctxs ls).
  Proof.
    unfold crun. assert (G : forall s, CI s -> Forall fair_order ls -> CI (fold_left (cstep ctxs) ls s)).
    { induction ls as [|l ls IH]; intros s I F; cbn; auto. inversion F; subst. apply IH; auto. now apply CI_step. }
    intro. apply G; auto. unfold CI. cbn. repeat split; constructor.
  Qed.
End CtxP.
