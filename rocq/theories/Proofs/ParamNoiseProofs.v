From Verif Require Import Lib.Base Lib.Rat Model.ParamNoise Spec.ParamNoiseSpec.
Set Implicit Arguments.

Section P.
  Context {V : Type}.
  Variable add : V -> V -> V.
  Variable dflt : V.
  Notation pvalue := (pvalue dflt).
  Notation values := (values dflt).

  Definition fresh (p : pst V) (b : V) : Prop :=
    org p = None /\ noisy p = None /\ cur p < length (heap p) /\ pvalue p = b.
  Definition held (pert : bool) (p : pst V) (b w : V) : Prop :=
    exists o n, org p = Some o /\ noisy p = Some n /\ o < length (heap p) /\ n < length (heap p)
      /\ cur p < length (heap p) /\ o <> n /\ nth o (heap p) dflt = b /\ nth n (heap p) dflt = w
      /\ (pert = false -> cur p = o).
  Inductive R3 (pert : bool) : module V -> list V -> list V -> Prop :=
  | R3n : R3 pert [] [] []
  | R3c p m b bs w ws : held pert p b w -> R3 pert m bs ws -> R3 pert (p :: m) (b :: bs) (w :: ws).
  Inductive R2 : module V -> list V -> Prop :=
  | R2n : R2 [] []
  | R2c p m b bs : fresh p b -> R2 m bs -> R2 (p :: m) (b :: bs).
  Definition inv (pert : bool) (m : module V) (s : list V * option (list V)) : Prop :=
    match snd s with
    | None => R2 m (fst s) /\ pert = false
    | Some w => R3 pert m (fst s) w
    end.

  Lemma nth_upd_eq i (x : V) l : i < length l -> nth i (upd i x l) dflt = x.
  Proof.
    intros H. rewrite upd_nth, Nat.eqb_refl. destruct (Nat.ltb_spec i (length l)); [reflexivity|lia].
  Qed.
  Lemma regenerate_held p b x : cur p < length (heap p) -> pvalue p = b ->
    held true (regenerate add dflt p x) b (add b x) /\ pvalue (regenerate add dflt p x) = add b x.
  Proof.
    intros Hc Hv. unfold regenerate, inplace, ParamNoise.pvalue, held in *. cbn.
    rewrite upd_length, app_length. cbn [length].
    assert (E : nth (cur p) (heap p ++ [nth (cur p) (heap p) dflt]) dflt = b) by (rewrite app_nth1; auto).
    rewrite E.
    split.
    - exists (length (heap p)), (length (heap p) + 1).
      rewrite app_length, upd_length, app_length. cbn [length].
      repeat split; try lia.
      + rewrite app_nth1 by (rewrite upd_length, app_length; cbn; lia). rewrite upd_nth.
        destruct (Nat.eqb_spec (cur p) (length (heap p))); [lia|]. cbn [andb].
        rewrite app_nth2, Nat.sub_diag by lia. exact Hv.
      + rewrite app_nth2; rewrite upd_length, app_length; cbn [length]; [|lia].
        rewrite Nat.sub_diag. cbn [nth]. apply nth_upd_eq. rewrite app_length. cbn. lia.
    - rewrite app_nth1 by (rewrite upd_length, app_length; cbn; lia).
      apply nth_upd_eq. rewrite app_length. cbn. lia.
  Qed.
  Lemma R2_values m b : R2 m b -> values m = b.
  Proof. induction 1 as [|p m b bs F _ IH]; cbn; auto. f_equal; auto. apply F. Qed.
  Lemma R3_values_org m b w : R3 false m b w -> values m = b.
  Proof.
    induction 1 as [|p m b bs w ws F _ IH]; cbn; auto. f_equal; auto.
    destruct F as (o & n & ? & ? & ? & ? & ? & ? & ? & ? & E). unfold ParamNoise.pvalue. now rewrite E.
  Qed.
  Lemma R2_noisy m b : R2 m b -> noisy_params m = false /\ org_params m = false.
  Proof.
    induction 1 as [|p m b bs F _ [I1 I2]]; cbn; auto.
    destruct F as (-> & -> & _). cbn. auto.
  Qed.
  Lemma R3_noisy p m b w pe : R3 pe (p :: m) b w -> noisy_params (p :: m) = true /\ org_params (p :: m) = true.
  Proof.
    inversion 1 as [|? ? ? ? ? ? F]; subst. destruct F as (o & n & E1 & E2 & _).
    cbn. rewrite E1, E2. auto.
  Qed.
  Lemma regenerate_all m b (x : nat -> V) i :
    length m = length b ->
    (forall k p, nth_error m k = Some p -> cur p < length (heap p) /\ nth_error b k = Some (pvalue p)) ->
    R3 true (mapi_ (fun j p => regenerate add dflt p (x j)) i m) b (add_all add i b x)
    /\ values (mapi_ (fun j p => regenerate add dflt p (x j)) i m) = add_all add i b x.
  Proof.
    revert b i. induction m as [|p m IH]; intros [|v b] i L H; cbn in *; try discriminate.
    - split; auto; constructor.
    - destruct (H 0 p eq_refl) as (Hc & [= Hv]). symmetry in Hv.
      destruct (@regenerate_held p v (x i) Hc Hv) as [A B].
      destruct (IH b (S i)) as [C D]; [lia| |].
      + intros k q Hk. exact (H (S k) q Hk).
      + split; [constructor; auto|]. f_equal; auto.
  Qed.
  Lemma R2_ready m b : R2 m b -> length m = length b /\
    (forall k p, nth_error m k = Some p -> cur p < length (heap p) /\ nth_error b k = Some (pvalue p)).
  Proof.
    induction 1 as [|p m b bs F _ [IL IH]]; cbn; split; auto.
    - intros [|k]; discriminate.
    - intros [|k] q; cbn; [intros [= <-]|apply IH]. destruct F as (_ & _ & ? & ->). auto.
  Qed.
  Lemma R3_ready m b w : R3 false m b w -> length m = length b /\
    (forall k p, nth_error m k = Some p -> cur p < length (heap p) /\ nth_error b k = Some (pvalue p)).
  Proof.
    induction 1 as [|p m b bs w ws F _ [IL IH]]; cbn; split; auto.
    - intros [|k]; discriminate.
    - intros [|k] q; cbn; [intros [= <-]|apply IH].
      destruct F as (o & n & ? & ? & ? & ? & ? & ? & E & ? & C).
      split; auto. unfold ParamNoise.pvalue. rewrite C by auto. now rewrite E.
  Qed.
  Lemma set_org_all pe m b w : R3 pe m b w -> R3 false (map (fun p => set_ p (org p)) m) b w.
  Proof.
    induction 1 as [|p m b bs w ws F _ IH]; cbn; constructor; auto.
    destruct F as (o & n & E1 & E2 & ? & ? & ? & ? & ? & ? & _). rewrite E1. cbn.
    exists o, n. cbn. rewrite E1. repeat split; auto.
  Qed.
  Lemma set_noisy_all pe m b w : R3 pe m b w ->
    R3 true (map (fun p => set_ p (noisy p)) m) b w /\ values (map (fun p => set_ p (noisy p)) m) = w.
  Proof.
    induction 1 as [|p m b bs w ws F _ [I1 I2]]; cbn; [split; [constructor|auto]|].
    destruct F as (o & n & E1 & E2 & ? & ? & ? & ? & ? & E & _). rewrite E2. cbn. split.
    - constructor; auto. exists o, n. cbn. rewrite E2. repeat split; auto; discriminate.
    - f_equal; auto.
  Qed.
  Lemma R3_weaken pe m b w : R3 pe m b w -> R3 true m b w.
  Proof.
    induction 1 as [|p m b bs w ws F _ IH]; constructor; auto.
    destruct F as (o & n & F). exists o, n. intuition discriminate.
  Qed.
  Lemma on_last_R3 pe m b w : R3 pe m b w -> R3 pe (on_last (fun p => set_ p (org p)) m) b w.
  Proof.
    induction 1 as [|p m b bs w ws F H IH]; [constructor|].
    assert (G : held pe (set_ p (org p)) b w).
    { destruct F as (o & n & E1 & E2 & F). rewrite E1. exists o, n. cbn. rewrite E1, E2. tauto. }
    destruct m as [|q m]; cbn in *; constructor; auto.
  Qed.
  Lemma on_last_single pe p b w : R3 pe [p] b w -> R3 false (on_last (fun p => set_ p (org p)) [p]) b w.
  Proof. exact (fun H => set_org_all H). Qed.
  Lemma backward_nil gs (m : module V) : org_params m = false -> backward gs m = m.
  Proof.
    unfold backward. induction gs as [|g gs IH]; cbn; auto. intros E.
    destruct g; unfold post_hook; rewrite ?E; auto.
  Qed.
  Lemma post_R3 pe m b w : R3 pe m b w -> R3 pe (post_hook m) b w.
  Proof. intros H. unfold post_hook. destruct (org_params m); auto. now apply on_last_R3. Qed.
  Lemma backward_R3 pe gs m b w : R3 pe m b w -> R3 pe (backward gs m) b w.
  Proof.
    unfold backward. revert m. induction gs as [|g gs IH]; cbn; intros m H; auto.
    apply IH. destruct g; auto. now apply post_R3.
  Qed.
  Lemma backward_single pe gs p b w : R3 pe [p] b w -> existsb (fun b => b) gs = true ->
    R3 false (backward gs [p]) b w.
  Proof.
    revert pe p. induction gs as [|g gs IH]; intros pe p H E; [discriminate|].
    destruct g; cbn in E.
    - change (R3 false (backward gs (post_hook [p])) b w).
      apply backward_R3. unfold post_hook. rewrite (proj2 (R3_noisy H)). now apply on_last_single with pe.
    - change (R3 false (backward gs [p]) b w). eapply IH; eauto.
  Qed.
  Lemma step_R2 m b (d : nat -> V) i : R2 m b ->
    R2 (mapi_ (fun j p => inplace add dflt p (d j)) i m) (add_all add i b d).
  Proof.
    intros H. revert i. induction H as [|p m b bs F _ IH]; intros i; cbn; constructor; auto.
    destruct F as (E1 & E2 & L & E). unfold fresh, inplace, ParamNoise.pvalue in *. cbn.
    rewrite upd_length, nth_upd_eq, E by auto. auto.
  Qed.
  Lemma step_R3 m b w (d : nat -> V) i : R3 false m b w ->
    R3 false (mapi_ (fun j p => inplace add dflt p (d j)) i m) (add_all add i b d) w.
  Proof.
    intros H. revert i. induction H as [|p m b bs w ws F _ IH]; intros i; cbn; constructor; auto.
    destruct F as (o & n & E1 & E2 & L1 & L2 & L & N & E & Ew & C).
    specialize (C eq_refl). unfold held, inplace, ParamNoise.pvalue. cbn.
    exists o, n. rewrite upd_length, !upd_nth, C, Nat.eqb_refl.
    destruct (Nat.ltb_spec o (length (heap p))); [|lia].
    destruct (Nat.eqb_spec o n); [lia|]. cbn. rewrite E. repeat split; auto.
  Qed.
  Lemma R2_app_new vs : R2 (m_new vs) vs.
  Proof. induction vs; cbn; constructor; auto. repeat split; auto. Qed.

  (* one event; for the Backward rule [single] must imply that there is one parameter *)
  Definition next_pert (single pert : bool) (e : event V) : bool :=
    match e with
    | Forward p _ _ => p
    | Backward g => pert && negb (single && existsb (fun b => b) g)
    | Step _ => false
    end.
  Definition allowed (pert : bool) (e : event V) : Prop :=
    match e with
    | Forward true reset _ => reset = true -> pert = false
    | Step _ => pert = false
    | _ => True
    end.
  Lemma careful_cons single pert e es :
    careful single pert (e :: es) <-> allowed pert e /\ careful single (next_pert single pert e) es.
  Proof. destruct e as [[]| |]; cbn; tauto. Qed.
  Definition shown (e : event V) (m : module V) (s : list V * option (list V)) : Prop :=
    match e with
    | Forward true _ _ => snd s = Some (values m)
    | Forward false _ _ => fst s = values m
    | _ => True
    end.
  Lemma spec_len s e : length (fst (spec_step add s e)) = length (fst s).
  Proof.
    assert (A : forall d vs i, length (add_all add i vs d) = length vs).
    { intros d vs. induction vs; cbn; auto. }
    destruct e as [[] r n|g|d]; cbn; auto. destruct (snd s), r; auto.
  Qed.
  Lemma step_inv single pert m s e :
    (single = true -> length (fst s) = 1) -> inv pert m s -> allowed pert e ->
    let m' := ev_step add dflt m e in let s' := spec_step add s e in
    inv (next_pert single pert e) m' s' /\ shown e m' s'.
  Proof.
    destruct s as [b [w|]]; intros S I A; unfold inv in *; cbn [fst snd] in *.
    - destruct e as [[] reset x|g|d]; cbn in A |- *.
      + unfold pre_hook. destruct reset.
        * rewrite A in I by auto. rewrite andb_false_r.
          destruct (R3_ready I) as [L H]. destruct (@regenerate_all m b x 0 L H) as [B C].
          split; [exact B|]. cbn. f_equal. symmetry. exact C.
        * cbn. rewrite andb_true_r. destruct m as [|p m].
          -- inversion I; subst. cbn. split; auto. constructor.
          -- rewrite (proj1 (R3_noisy I)). destruct (set_noisy_all I) as [B C]. split; [exact B|]. cbn. f_equal. symmetry. exact C.
      + unfold pre_hook. destruct m as [|p m].
        * inversion I; subst. cbn. split; auto; constructor.
        * rewrite (proj2 (R3_noisy I)). apply set_org_all in I. split; auto.
          symmetry. now apply R3_values_org in I.
      + split; auto. destruct (single && existsb (fun b => b) g)%bool eqn:E; cbn.
        * rewrite andb_false_r. apply andb_true_iff in E as [-> E].
          specialize (S eq_refl). destruct m as [|p [|]]; inversion I; subst; try discriminate.
          -- apply backward_single with pert; auto.
          -- match goal with H : R3 _ (_ :: _) _ _ |- _ => inversion H; subst end. discriminate.
        * rewrite andb_true_r. now apply backward_R3.
      + subst pert. split; auto. now apply step_R3.
    - destruct I as [I ->]. destruct (R2_noisy I) as [E1 E2]. destruct e as [[] reset x|g|d]; cbn.
      + unfold pre_hook. rewrite E1. cbn [andb].
        destruct (R2_ready I) as [L H]. destruct (@regenerate_all m b x 0 L H) as [B C].
        split; [exact B|]. cbn. f_equal. symmetry. exact C.
      + unfold pre_hook. rewrite E2. split; [auto|]. symmetry. now apply R2_values.
      + rewrite backward_nil by auto. auto.
      + split; auto. split; auto. now apply step_R2.
  Qed.
  Lemma run_inv single : forall es pert m s,
    (single = true -> length (fst s) = 1) -> inv pert m s -> careful single pert es ->
    exists pert', inv pert' (fold_left (ev_step add dflt) es m) (fold_left (spec_step add) es s)
      /\ (forall e, careful single pert (es ++ [e]) -> allowed pert' e)
      /\ (forall g, single = true -> existsb (fun b => b) g = true ->
           next_pert single pert' (Backward g) = false).
  Proof.
    induction es as [|e es IH]; intros pert m s S I C.
    - exists pert. cbn [fold_left app]. split; auto. split.
      + intros e He. apply careful_cons in He. tauto.
      + cbn. intros g -> ->. apply andb_false_r.
    - apply careful_cons in C as [A C]. cbn [fold_left].
      destruct (@step_inv single pert m s e S I A) as [I' _].
      destruct (IH (next_pert single pert e) (ev_step add dflt m e) (spec_step add s e)) as (p & B1 & B2 & B3); auto.
      + intros Hs. rewrite spec_len. auto.
      + exists p. split; auto. split; auto. intros e' He. apply B2.
        cbn [app] in He. apply careful_cons in He. tauto.
  Qed.
  Lemma fold_spec_len es s : length (fst (fold_left (spec_step add) es s)) = length (fst s).
  Proof. revert s. induction es; cbn; intros; auto. rewrite IHes. apply spec_len. Qed.
End P.

Section Last.
  Context {V : Type}.
  Variable add : V -> V -> V.
  Variable dflt : V.
  Lemma map_removelast {A B} (f : A -> B) l : removelast (map f l) = map f (removelast l).
  Proof. induction l as [|a [|b l] IH]; cbn in *; auto. f_equal; auto. Qed.
  Lemma mapi_removelast {A B} (f : nat -> A -> B) l i : removelast (mapi_ f i l) = mapi_ f i (removelast l).
  Proof. revert i. induction l as [|a [|b l] IH]; intros i; cbn in *; auto. f_equal. apply (IH (S i)). Qed.
  Lemma on_last_removelast (f : pst V -> pst V) m : removelast (on_last f m) = removelast m.
  Proof.
    induction m as [|p [|q m] IH]; auto.
    change (on_last f (p :: q :: m)) with (p :: on_last f (q :: m)).
    change (removelast (p :: q :: m)) with (p :: removelast (q :: m)). rewrite <- IH.
    assert (E : on_last f (q :: m) <> []) by (destruct m; discriminate).
    destruct (on_last f (q :: m)); [congruence|reflexivity].
  Qed.
  Lemma post_removelast (m : module V) : removelast (post_hook m) = removelast m.
  Proof. unfold post_hook. destruct (org_params m); auto. apply on_last_removelast. Qed.
  Lemma backward_removelast g (m : module V) : removelast (backward g m) = removelast m.
  Proof.
    unfold backward. revert m. induction g as [|b g IH]; cbn; intros m; auto. rewrite IH.
    destruct b; auto. apply post_removelast.
  Qed.
  Lemma org_params_removelast (m : module V) : org_params (removelast m) = true -> org_params m = true.
  Proof.
    unfold org_params. rewrite !existsb_exists. intros (p & I & E). exists p. split; auto.
    destruct m as [|q m]; [contradiction|].
    rewrite (app_removelast_last (l := q :: m) q) by discriminate. apply in_or_app. auto.
  Qed.
  (* the state after the first perturbed pass *)
  Definition perturbed_new (vs : list V) (n : nat -> V) (i : nat) : module V :=
    mapi_ (fun j v => PS [add v (n j); v; add v (n j)] 0 (Some 1) (Some 2)) i vs.
  Lemma first_pass vs r n : pre_hook add dflt true r n (m_new vs) = perturbed_new vs n 0.
  Proof.
    unfold pre_hook. replace (noisy_params (m_new vs)) with false by (induction vs; cbn; auto).
    cbn [andb]. generalize 0. induction vs as [|v vs IH]; intros i; [reflexivity|]. exact (f_equal (cons _) (IH (S i))).
  Qed.
  Lemma perturbed_new_values vs n i : values dflt (perturbed_new vs n i) = add_all add i vs n.
  Proof. revert i. induction vs; cbn; intros; auto. f_equal. apply IHvs. Qed.
  Lemma add_all_removelast vs n i : removelast (add_all add i vs n) = add_all add i (removelast vs) n.
  Proof. revert i. induction vs as [|v [|w vs] IH]; intros i; auto. cbn in *. f_equal. apply (IH (S i)). Qed.
  Lemma lost vs n d i :
    values dflt (map (fun p => set_ p (org p)) (mapi_ (fun j p => inplace add dflt p (d j)) i (perturbed_new vs n i))) = vs.
  Proof. revert i. induction vs; cbn; intros; auto. f_equal. apply IHvs. Qed.
  Lemma twice vs n1 n2 i :
    values dflt (map (fun p => set_ p (org p)) (mapi_ (fun j p => regenerate add dflt p (n2 j)) i (perturbed_new vs n1 i)))
    = add_all add i vs n1.
  Proof. revert i. induction vs; cbn; intros; auto. f_equal. apply IHvs. Qed.
End Last.
