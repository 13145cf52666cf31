From Coq Require Import Permutation.
From Verif Require Import Lib.Base Model.ParallelEnv Spec.ParallelEnvSpec.
Set Implicit Arguments.

Section P.
  Context {S Cmd R X : Type}.
  Variable exec : nat -> S -> Cmd -> S * (R + X).
  Notation st := (st S Cmd R X).
  Notation work := (work exec).
  Notation collect := (collect exec).
  Notation call := (call exec).
  Definition quiescent (s : st) : Prop := resq s = [] /\ forall w, In w (workers s) -> snd w = [].
  Definition envs (s : st) : list S := map fst (workers s).

  Lemma put_all_spec idxs cmds (s : st) :
    NoDup idxs -> length cmds = length idxs -> (forall i, In i idxs -> i < length (workers s)) ->
    exists s', put_all idxs cmds s = (s', Ok tt) /\ resq s' = resq s /\ length (workers s') = length (workers s)
      /\ forall i, nth_error (workers s') i =
           option_map (fun w => (fst w, snd w ++ match cmd_of idxs cmds i with Some c => [c] | None => [] end))
                      (nth_error (workers s) i).
  Proof.
    revert cmds s. induction idxs as [|i is IH]; intros [|c cs] s N L B; cbn in L; try discriminate.
    - exists s. cbn. repeat split; auto. intros i. destruct (nth_error (workers s) i) as [[e q]|]; cbn; auto.
      now rewrite app_nil_r.
    - cbn [put_all]. destruct (nth_error (workers s) i) as [[e q]|] eqn:E.
      2:{ apply nth_error_None in E. specialize (B i (or_introl eq_refl)). lia. }
      inversion N as [|? ? N1 N2]; subst.
      destruct (IH cs (St (upd i (e, q ++ [c]) (workers s)) (resq s))) as (s' & P & Q & L' & W); auto.
      { cbn. intros j Hj. rewrite upd_length. apply B. now right. }
      exists s'. cbn in Q, L'. rewrite upd_length in L'. repeat split; auto.
      intros j. rewrite W. cbn [workers]. unfold cmd_of. cbn [combine dget].
      change (eqb j i) with (Nat.eqb j i). destruct (Nat.eqb_spec j i) as [->|Nj].
      + rewrite upd_same, E by (apply nth_error_Some; congruence). cbn. f_equal. f_equal.
        replace (dget i (combine is cs)) with (@None Cmd); [now rewrite app_nil_r|].
        symmetry. apply dget_None. intros H. apply N1.
        unfold dkeys in H. apply in_map_iff in H as ([a b] & <- & H). now apply in_combine_l in H.
      + rewrite upd_other by auto. reflexivity.
  Qed.

  Section Inv.
    Variable envs0 : list S.
    Variable cm : nat -> option Cmd.
    Definition status (s : st) (result : list (nat * R)) (i : nat) (e0 : S) : Prop :=
      match cm i with
      | None => nth_error (workers s) i = Some (e0, []) /\ ~ In i (map fst (resq s)) /\ ~ In i (dkeys result)
      | Some c =>
          (nth_error (workers s) i = Some (e0, [c]) /\ ~ In i (map fst (resq s)) /\ ~ In i (dkeys result))
          \/ (nth_error (workers s) i = Some (fst (exec i e0 c), []) /\ In (i, snd (exec i e0 c)) (resq s)
              /\ ~ In i (dkeys result))
          \/ (nth_error (workers s) i = Some (fst (exec i e0 c), []) /\ ~ In i (map fst (resq s))
              /\ exists r, snd (exec i e0 c) = inl r /\ dget i result = Some r)
      end.
    Definition inv (s : st) (result : list (nat * R)) : Prop :=
      length (workers s) = length envs0 /\ NoDup (map fst (resq s)) /\ NoDup (dkeys result)
      /\ (forall i, In i (map fst (resq s)) \/ In i (dkeys result) -> i < length envs0)
      /\ forall i e0, nth_error envs0 i = Some e0 -> status s result i e0.

    Lemma env_at i : i < length envs0 -> exists e, nth_error envs0 i = Some e.
    Proof. intros H. destruct (nth_error envs0 i) eqn:E; eauto. apply nth_error_None in E. lia. Qed.

    Lemma work_inv s result i : inv s result -> inv (work i s) result.
    Proof.
      intros (L & N1 & N2 & B & A). unfold ParallelEnv.work.
      destruct (nth_error (workers s) i) as [[e [|c q]]|] eqn:E; [repeat split; auto| |repeat split; auto].
      assert (Hi : i < length envs0) by (rewrite <- L; apply nth_error_Some; congruence).
      destruct (env_at Hi) as (e0 & E0). pose proof (A i e0 E0) as Si. unfold status in Si.
      destruct (cm i) as [c'|] eqn:Ec.
      2:{ destruct Si as (H & _). rewrite E in H. discriminate. }
      destruct Si as [(H & Nr & Nd)|[(H & _)|(H & _)]]; rewrite E in H; try discriminate.
      injection H as -> -> ->. destruct (exec i e0 c') as [e' r] eqn:Ex. cbn.
      unfold inv. cbn [workers resq]. rewrite upd_length. split; [auto|]. split; [|split; [auto|]].
      { rewrite map_app. cbn. apply Permutation_NoDup with (i :: map fst (resq s)).
        - apply Permutation_cons_append.
        - constructor; auto. }
      split.
      { intros j [Hj|Hj]; [|auto]. rewrite map_app in Hj. apply in_app_or in Hj as [Hj|[<-|[]]]; auto. }
      intros j ej Ej. specialize (A j ej Ej). unfold status in *. cbn [workers resq].
      destruct (Nat.eq_dec j i) as [->|Nj].
      - rewrite Ec in *. rewrite E0 in Ej. injection Ej as <-. right. left. rewrite Ex. cbn.
        rewrite upd_same by (rewrite L; auto). split; auto. split; auto. apply in_or_app. right. now left.
      - rewrite upd_other by auto. rewrite map_app. cbn [map fst].
        assert (K : ~ In j (map fst (resq s)) -> ~ In j (map fst (resq s) ++ [i])).
        { intros Q H. apply in_app_or in H as [H|[H|[]]]; auto. }
        destruct (cm j) as [cj|].
        + destruct A as [(H1 & H2 & H3)|[(H1 & H2 & H3)|(H1 & H2 & H3)]].
          * left; auto.
          * right; left. repeat split; auto. apply in_or_app. auto.
          * right; right. auto.
        + destruct A as (H1 & H2 & H3). auto.
    Qed.
    Lemma get_inv s result i v q : inv s result -> resq s = (i, inl v) :: q ->
      inv (St (workers s) q) (dset i v result).
    Proof.
      intros (L & N1 & N2 & B & A) Q. rewrite Q in *. cbn [map fst] in *.
      inversion N1 as [|? ? N1a N1b]; subst.
      assert (Hi : i < length envs0) by (apply B; left; now left).
      unfold inv. cbn [workers resq]. split; auto. split; auto. split; [now apply NoDup_dset|]. split.
      { intros j [Hj|Hj]; [apply B; left; now right|].
        apply In_dkeys_dset in Hj as [->|Hj]; auto. }
      intros j ej Ej. specialize (A j ej Ej). unfold status in *. rewrite Q in A. cbn [workers resq map fst] in *.
      destruct (cm j) as [cj|].
      - destruct A as [(H1 & H2 & H3)|[(H1 & H2 & H3)|(H1 & H2 & H3)]].
        + left. repeat split; auto. { intros H; apply H2; now right. }
          intros H. apply In_dkeys_dset in H as [->|H]; auto. apply H2. now left.
        + cbn in H2. destruct H2 as [H2|H2].
          * injection H2 as -> H2. right; right. repeat split; auto. exists v. split; auto. apply dget_dset_same.
          * right; left. repeat split; auto. intros H. apply In_dkeys_dset in H as [->|H]; auto.
            apply N1a. apply (in_map fst) in H2. exact H2.
        + right; right. assert (j <> i) by (intros ->; apply H2; now left).
          split; [exact H1|]. split; [intros H4; apply H2; now right|]. destruct H3 as (r & E1 & E2). exists r. split; auto.
          rewrite dget_dset_other; auto.
      - destruct A as (H1 & H2 & H3). repeat split; auto.
        + intros H; apply H2; now right.
        + intros H. apply In_dkeys_dset in H as [->|H]; auto. apply H2. now left.
    Qed.
  End Inv.

  (* what one request must do; [ws] are the environments before it *)
  Definition request_ok (idxs : list nat) (cmds : list Cmd) (env0 : list S) (s' : st) (o : outcome R X) : Prop :=
    match o with
    | Returned rs =>
        map (fun ic => answer exec env0 (fst ic) (snd ic)) (combine idxs cmds) = map (fun r => Some (inl r)) rs
        /\ quiescent s' /\ forall i, nth_error (envs s') i = after exec env0 idxs cmds i
    | Raised x => exists i c, In (i, c) (combine idxs cmds) /\ answer exec env0 i c = Some (inr x)
    | PyError _ => False
    | Blocked => (exists w, In w (workers s') /\ snd w <> []) \/ resq s' <> []
    end.
  Section Finish.
    Variables (idxs : list nat) (cmds : list Cmd) (envs0 : list S).
    Hypothesis ND : NoDup idxs.
    Hypothesis Len : length cmds = length idxs.
    Hypothesis Bnd : forall i, In i idxs -> i < length envs0.
    Notation cm := (cmd_of idxs cmds).

    Lemma keys_combine : dkeys (combine idxs cmds) = idxs.
    Proof.
      unfold dkeys. clear ND Bnd. revert cmds Len.
      induction idxs as [|i is IH]; intros [|c cs] L; cbn in *; try discriminate; auto. f_equal; auto.
    Qed.
    Lemma cm_some i c : cm i = Some c <-> In (i, c) (combine idxs cmds).
    Proof.
      split; [apply dget_Some_In|]. apply dget_In. now rewrite keys_combine.
    Qed.
    Lemma cm_in i : In i idxs -> exists c, cm i = Some c.
    Proof.
      intros H. destruct (cm i) as [c|] eqn:E; [eauto|]. apply dget_None in E. now rewrite keys_combine in E.
    Qed.
    Lemma cm_none i : ~ In i idxs -> cm i = None.
    Proof. intros H. apply dget_None. now rewrite keys_combine. Qed.
    Lemma result_in s result i : inv envs0 cm s result -> In i (map fst (resq s)) \/ In i (dkeys result) -> In i idxs.
    Proof.
      intros (L & N1 & N2 & B & A) H. destruct (in_dec Nat.eq_dec i idxs) as [|N]; auto.
      destruct (env_at envs0 (B i H)) as (e & E). specialize (A i e E). unfold status in A.
      rewrite (cm_none _ N) in A. tauto.
    Qed.
    Lemma pick_all result (l : list nat) (vs : list R) :
      map (fun i => dget i result) l = map Some vs -> pick (X := X) result l = Returned vs.
    Proof.
      revert vs. induction l as [|i l IH]; intros [|v vs] H; cbn in *; try discriminate; auto.
      injection H as H1 H2. rewrite H1, (IH vs H2). reflexivity.
    Qed.
    Lemma finish s result : inv envs0 cm s result -> length idxs <= length result ->
      request_ok idxs cmds envs0 s (pick result idxs).
    Proof.
      intros I L. pose proof I as (Lw & N1 & N2 & B & A).
      assert (Inc : incl idxs (dkeys result)).
      { apply NoDup_length_incl; auto.
        - unfold dkeys. rewrite map_length. exact L.
        - intros i Hi. eapply result_in; eauto. }
      assert (Q : resq s = []).
      { destruct (resq s) as [|[i v] q] eqn:E; auto. exfalso.
        assert (Hi : In i idxs) by (eapply result_in; eauto; left; rewrite E; now left).
        destruct (env_at envs0 (Bnd _ Hi)) as (e & Ee). specialize (A i e Ee). unfold status in A.
        destruct (cm_in _ Hi) as (c & Ec). rewrite Ec, E in A. cbn in A.
        specialize (Inc i Hi). tauto. }
      assert (G : forall i c, In (i, c) (combine idxs cmds) -> exists e r,
                 nth_error envs0 i = Some e /\ snd (exec i e c) = inl r /\ dget i result = Some r
                 /\ nth_error (workers s) i = Some (fst (exec i e c), [])).
      { intros i c H. assert (Hi : In i idxs) by (eapply in_combine_l; eauto).
        destruct (env_at envs0 (Bnd _ Hi)) as (e & Ee). specialize (A i e Ee). unfold status in A.
        apply cm_some in H. rewrite H, Q in A. cbn in A. specialize (Inc i Hi).
        destruct A as [(? & ? & ?)|[(? & [] & ?)|(A1 & A2 & r & A3 & A4)]]; [tauto|].
        exists e, r. auto. }
      assert (V : exists vs, map (fun i => dget i result) idxs = map Some vs
                 /\ map (fun ic => answer exec envs0 (fst ic) (snd ic)) (combine idxs cmds)
                    = map (fun r => Some (inl r)) vs).
      { clear - G Len. revert cmds Len G. induction idxs as [|i is IH]; intros [|c cs] L G; cbn in *; try discriminate.
        - exists []. auto.
        - destruct (G i c (or_introl eq_refl)) as (e & r & E1 & E2 & E3 & _).
          destruct (IH cs) as (vs & H1 & H2); [lia|intros; apply G; now right|].
          exists (r :: vs). cbn. rewrite E3, H1, H2. unfold answer. rewrite E1. cbn. rewrite E2. auto. }
      destruct V as (vs & V1 & V2). rewrite (pick_all _ _ _ V1). cbn. split; [exact V2|].
      split; [split; [exact Q|]|].
      - intros w Hw. apply In_nth_error in Hw as (i & Hi).
        assert (Li : i < length envs0) by (rewrite <- Lw; apply nth_error_Some; congruence).
        destruct (env_at envs0 Li) as (e & Ee). specialize (A i e Ee). unfold status in A.
        destruct (cm i) as [c|] eqn:Ec.
        + apply cm_some in Ec. destruct (G i c Ec) as (? & ? & _ & _ & _ & H). rewrite H in Hi. now injection Hi as <-.
        + destruct A as (H & _). rewrite H in Hi. now injection Hi as <-.
      - intros i. unfold after, envs.
        destruct (nth_error envs0 i) as [e|] eqn:Ee.
        + specialize (A i e Ee). unfold status in A. destruct (cm i) as [c|] eqn:Ec.
          * apply cm_some in Ec. destruct (G i c Ec) as (e' & ? & E' & _ & _ & H). rewrite Ee in E'. injection E' as <-.
            rewrite (map_nth_error fst _ _ H). reflexivity.
          * destruct A as (H & _). rewrite (map_nth_error fst _ _ H). reflexivity.
        + apply nth_error_None. rewrite map_length, Lw. now apply nth_error_None.
    Qed.
    Lemma collect_ok sched : forall s result, inv envs0 cm s result ->
      let (s', o) := collect idxs result sched s in request_ok idxs cmds envs0 s' o.
    Proof.
      induction sched as [|e sched IH]; intros s result I; cbn [ParallelEnv.collect];
        destruct (Nat.leb_spec (length idxs) (length result)) as [L|L].
      - now apply finish.
      - cbn. pose proof I as (Lw & N1 & N2 & B & A).
        assert (M : exists i, In i idxs /\ ~ In i (dkeys result)).
        { clear - ND L. assert (D : forall l, (exists i, In i l /\ ~ In i (dkeys result)) \/ incl l (dkeys result)).
          { induction l as [|a l [(i & H1 & H2)|H]]; [right; intros ? []|left; exists i; split; [now right|auto]|].
            destruct (in_dec Nat.eq_dec a (dkeys result)); [right; intros x [<-|Hx]; auto|].
            left; exists a; split; [now left|auto]. }
          destruct (D idxs) as [|H]; auto. apply NoDup_incl_length in H; auto.
          unfold dkeys in H. rewrite map_length in H. lia. }
        destruct M as (i & Hi & Nr). destruct (env_at envs0 (Bnd _ Hi)) as (e & Ee).
        specialize (A i e Ee). unfold status in A. destruct (cm_in _ Hi) as (c & Ec). rewrite Ec in A.
        destruct A as [(H & _)|[(_ & H & _)|(_ & _ & r & _ & H)]].
        + left. exists (e, [c]). split; [eapply nth_error_In; eauto|discriminate].
        + right. intros E. rewrite E in H. exact H.
        + exfalso. apply Nr. destruct (in_dec Nat.eq_dec i (dkeys result)) as [|N]; auto.
          apply dget_None in N. congruence.
      - now apply finish.
      - destruct e as [i|].
        + apply IH. now apply work_inv.
        + destruct (resq s) as [|[i [v|x]] q] eqn:Q; [now apply IH| |].
          * apply IH. apply get_inv; auto.
          * cbn. pose proof I as (Lw & N1 & N2 & B & A).
            assert (Hi : In i idxs) by (eapply result_in; eauto; left; rewrite Q; now left).
            destruct (env_at envs0 (Bnd _ Hi)) as (e & Ee). specialize (A i e Ee). unfold status in A.
            destruct (cm_in _ Hi) as (c & Ec). rewrite Ec, Q in A. cbn in A.
            exists i, c. split; [now apply cm_some|]. unfold answer. rewrite Ee. cbn.
            destruct A as [(_ & H & _)|[(_ & [H|H] & _)|(_ & H & _)]]; try tauto.
            -- injection H as H. now rewrite H.
            -- rewrite Q in N1. cbn in N1. inversion N1; subst. exfalso.
               apply (in_map fst) in H. contradiction.
    Qed.
  End Finish.

  Lemma call_ok idxs cmds sched s : quiescent s -> NoDup idxs -> length cmds = length idxs ->
    (forall i, In i idxs -> i < length (workers s)) ->
    let (s', o) := call idxs cmds sched s in request_ok idxs cmds (envs s) s' o.
  Proof.
    intros [Q E] N L B. unfold ParallelEnv.call.
    destruct (@put_all_spec idxs cmds s N L B) as (s1 & -> & Q1 & L1 & W).
    apply collect_ok; auto.
    - intros i Hi. unfold envs. rewrite map_length. auto.
    - unfold inv. unfold envs. rewrite Q1, Q, map_length. cbn. repeat split; auto; try constructor.
      + intros i [[]|[]].
      + intros i e Ee. unfold status. rewrite Q1, Q, W. cbn.
        assert (H : nth_error (workers s) i = Some (e, [])).
        { destruct (nth_error (workers s) i) as [[e' q]|] eqn:Ew.
          - rewrite (map_nth_error fst _ _ Ew) in Ee. injection Ee as ->.
            apply nth_error_In in Ew. apply E in Ew. cbn in Ew. now subst.
          - apply nth_error_None in Ew.
            assert (i < length (map fst (workers s))) by (apply nth_error_Some; congruence).
            rewrite map_length in *. lia. }
        rewrite H. cbn. destruct (cmd_of idxs cmds i); [left|]; repeat split; auto.
  Qed.
End P.
