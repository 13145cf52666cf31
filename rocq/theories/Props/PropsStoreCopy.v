(* C198: what is stored is isolated from the caller's objects; C199: transitions that cannot be copied. *)
From Verif Require Import Spec.BufferSpec Proofs.BufferProofs Model.StoreCopy.
Set Implicit Arguments.

(* ---- what an attribute shows: the values of its tensors, by key ---- *)
Section Show.
  Context {X : Type}.
  Definition show_ten (h : heap X) (a : nat) : option X :=
    match nth_error (tens h) a with Some t => nth_error (cells h) (t_cell t) | None => None end.
  Inductive view := WDict (d : option (list (string * option X))) | WTen (x : option X) | WVal (x : X).
  Definition show (h : heap X) (v : slot X) : view :=
    match v with
    | SDict a => WDict (option_map (map (fun p => (fst p, show_ten h (snd p)))) (nth_error (dicts h) a))
    | STen a => WTen (show_ten h a)
    | SVal x => WVal x
    end.
  Definition shows (h : heap X) (l : slots X) : list (string * view) := map (fun p => (fst p, show h (snd p))) l.
  (* all tensors of the attribute are on the device *)
  Definition ten_on (dev : nat) (h : heap X) (a : nat) : Prop := exists t, nth_error (tens h) a = Some t /\ t_dev t = dev.
  Definition on (dev : nat) (h : heap X) (v : slot X) : Prop :=
    match v with
    | SDict a => exists d, nth_error (dicts h) a = Some d /\ Forall (fun p => ten_on dev h (snd p)) d
    | STen a => ten_on dev h a
    | SVal _ => True
    end.
  (* addresses lead somewhere *)
  Definition wf_slot (h : heap X) (v : slot X) : Prop :=
    match v with SDict a => a < length (dicts h) | STen a => a < length (tens h) | SVal _ => True end.
  Definition wf_slots (h : heap X) (l : slots X) : Prop := Forall (fun p => wf_slot h (snd p)) l.
  Definition wf_tran (h : heap X) (t : tran X) : Prop := wf_slots h (a_maj t) /\ wf_slots h (a_sub t) /\ wf_slots h (a_cus t).
  Definition wf (h : heap X) : Prop :=
    (forall a t, nth_error (tens h) a = Some t -> t_cell t < length (cells h)) /\
    (forall a d, nth_error (dicts h) a = Some d -> Forall (fun p => snd p < length (tens h)) d) /\
    (forall a t, nth_error (trs h) a = Some t -> wf_tran h t).
  (* major attributes are dictionaries, sub attributes are none (C52) *)
  Definition valid (t : tran X) : Prop :=
    Forall (fun p => exists a, snd p = SDict a) (a_maj t) /\ Forall (fun p => forall a, snd p <> SDict a) (a_sub t).
  (* no tensor of the attribute is the result of a differentiable operation *)
  Definition leaf_ten (h : heap X) (a : nat) : bool := match nth_error (tens h) a with Some t => t_leaf t | None => false end.
  Definition leaf_dict (h : heap X) (a : nat) : bool :=
    match nth_error (dicts h) a with Some d => forallb (fun p => leaf_ten h (snd p)) d | None => false end.
  Definition leaf (h : heap X) (v : slot X) : bool :=
    match v with SDict a => leaf_dict h a | STen a => leaf_ten h a | SVal _ => true end.
  Definition leaves (h : heap X) (l : slots X) : bool := forallb (fun p => leaf h (snd p)) l.
End Show.

Section Copy.
  Context {X : Type}.
  Variables (h0 : heap X) (dev : nat).
  Notation n_c := (length (cells h0)).
  Notation n_t := (length (tens h0)).
  Notation n_d := (length (dicts h0)).

  Definition pre {A} (l l' : list A) : Prop := exists r, l' = l ++ r.
  Lemma pre_refl {A} (l : list A) : pre l l. Proof. exists []. now rewrite app_nil_r. Qed.
  Lemma pre_trans {A} (a b c : list A) : pre a b -> pre b c -> pre a c.
  Proof. intros (r & ->) (r' & ->). exists (r ++ r'). now rewrite app_assoc. Qed.
  Lemma pre_nth {A} (l l' : list A) n x : pre l l' -> nth_error l n = Some x -> nth_error l' n = Some x.
  Proof. intros (r & ->) E. rewrite nth_error_app1; auto. apply nth_error_Some. congruence. Qed.
  Lemma pre_len {A} (l l' : list A) : pre l l' -> length l <= length l'.
  Proof. intros (r & ->). rewrite app_length. lia. Qed.
  Lemma pre_lt {A} (l l' : list A) n : pre l l' -> n < length l -> nth_error l' n = nth_error l n.
  Proof. intros (r & ->) L. now apply nth_error_app1. Qed.
  Lemma pre_snoc {A} (l : list A) x : pre l (l ++ [x]). Proof. now exists [x]. Qed.
  Lemma nth_snoc {A} (l : list A) x : nth_error (l ++ [x]) (length l) = Some x.
  Proof. rewrite nth_error_app2, Nat.sub_diag by lia. reflexivity. Qed.

  Definition App (h h1 : heap X) : Prop := pre (cells h) (cells h1) /\ pre (tens h) (tens h1) /\ pre (dicts h) (dicts h1) /\ trs h1 = trs h.
  Lemma App_refl h : App h h. Proof. repeat split; auto using pre_refl. Qed.
  Lemma App_trans a b c : App a b -> App b c -> App a c.
  Proof. intros (A1 & A2 & A3 & A4) (B1 & B2 & B3 & B4). repeat split; eauto using pre_trans. congruence. Qed.

  (* new addresses which show the same as old ones *)
  Definition RC (h : heap X) (c c' : nat) : Prop := n_c <= c' /\ exists x, nth_error (cells h0) c = Some x /\ nth_error (cells h) c' = Some x.
  Definition RT (h : heap X) (a a' : nat) : Prop :=
    n_t <= a' /\ exists t t', nth_error (tens h0) a = Some t /\ nth_error (tens h) a' = Some t' /\ RC h (t_cell t) (t_cell t').
  Definition RE (h : heap X) (p p' : string * nat) : Prop := fst p = fst p' /\ RT h (snd p) (snd p').
  Definition RD (h : heap X) (a a' : nat) : Prop :=
    n_d <= a' /\ exists d d', nth_error (dicts h0) a = Some d /\ nth_error (dicts h) a' = Some d' /\ Forall2 (RE h) d d'.
  Definition RS (h : heap X) (v v' : slot X) : Prop :=
    match v, v' with SDict a, SDict a' => RD h a a' | STen a, STen a' => RT h a a' | SVal x, SVal x' => x = x' | _, _ => False end.
  Definition RL (h : heap X) (l l' : slots X) : Prop := Forall2 (fun p p' => fst p = fst p' /\ RS h (snd p) (snd p')) l l'.

  Lemma RC_app h h1 c c' : App h h1 -> RC h c c' -> RC h1 c c'.
  Proof. intros (A & _) (L & x & E1 & E2). split; auto. exists x. eauto using pre_nth. Qed.
  Lemma RT_app h h1 a a' : App h h1 -> RT h a a' -> RT h1 a a'.
  Proof. intros A (L & t & t' & E1 & E2 & C). split; auto. exists t, t'. split; auto. split; [destruct A as (_ & A & _); eauto using pre_nth|eapply RC_app; eauto]. Qed.
  Lemma F2_impl {A B} (P Q : A -> B -> Prop) l l' : (forall x y, P x y -> Q x y) -> Forall2 P l l' -> Forall2 Q l l'.
  Proof. intros H F. induction F; constructor; auto. Qed.
  Lemma RE_app h h1 d d' : App h h1 -> Forall2 (RE h) d d' -> Forall2 (RE h1) d d'.
  Proof. intros A. apply F2_impl. intros x y [E R]. split; auto. eapply RT_app; eauto. Qed.
  Lemma RD_app h h1 a a' : App h h1 -> RD h a a' -> RD h1 a a'.
  Proof. intros A (L & d & d' & E1 & E2 & F). split; auto. exists d, d'. split; auto. split; [destruct A as (_ & _ & A & _); eauto using pre_nth|eapply RE_app; eauto]. Qed.

  (* steps which keep everything said about new addresses *)
  Definition Keep (h h1 : heap X) : Prop :=
    (forall v v', RS h v v' -> RS h1 v v') /\ (forall v, on dev h v -> on dev h1 v).
  Lemma on_app h h1 v : App h h1 -> on dev h v -> on dev h1 v.
  Proof.
    assert (T : forall a, App h h1 -> ten_on dev h a -> ten_on dev h1 a).
    { intros a (_ & A & _) (t & E & D). exists t. eauto using pre_nth. }
    intros A. destruct v; cbn; auto. intros (d & E & F). exists d. split; [destruct A as (_ & _ & A & _); eauto using pre_nth|].
    eapply Forall_impl; [|exact F]. cbn. auto.
  Qed.
  Lemma Keep_app h h1 : App h h1 -> Keep h h1.
  Proof.
    intros A. split; [|intros; eapply on_app; eauto]. intros [a|a|x] [a'|a'|x']; cbn; auto; [apply RD_app|apply RT_app]; auto.
  Qed.
  Lemma Keep_trans a b c : Keep a b -> Keep b c -> Keep a c.
  Proof. intros (A1 & A2) (B1 & B2). split; eauto. Qed.
  Lemma RL_keep h h1 l l' : Keep h h1 -> RL h l l' -> RL h1 l l'.
  Proof. intros (A & _). apply F2_impl. intros x y [E R]. auto. Qed.

  (* ---------------- deepcopy ---------------- *)
  Hypothesis W : wf h0.
  Definition St (s : heap X * memo) : Prop :=
    App h0 (fst s) /\
    (forall c c', dget c (m_cell (snd s)) = Some c' -> RC (fst s) c c') /\
    (forall a a', dget a (m_ten (snd s)) = Some a' -> RT (fst s) a a' /\ leaf_ten h0 a = true) /\
    (forall a a', dget a (m_dict (snd s)) = Some a' -> RD (fst s) a a' /\ leaf_dict h0 a = true).
  Definition Post {A} (s : heap X * memo) (f : res (A * (heap X * memo))) (P : heap X -> A -> Prop) (good : bool) : Prop :=
    if good then exists r s1, f = Ok (r, s1) /\ App (fst s) (fst s1) /\ St s1 /\ P (fst s1) r else f = Err ERuntime.

  Lemma dget_set (d : list (nat * nat)) k v k' v' : dget k' (dset k v d) = Some v' -> (k' = k /\ v' = v) \/ dget k' d = Some v'.
  Proof.
    destruct (Nat.eq_dec k' k) as [->|N]; [rewrite dget_dset_same; left; split; congruence|]. rewrite dget_dset_other by auto. auto.
  Qed.
  Lemma cp_cell_ok c s : St s -> c < n_c -> Post s (cp_cell c s) (fun h c' => RC h c c') true.
  Proof.
    intros I L. pose proof I as (A & M1 & M2 & M3). destruct s as [h m]. cbn [fst snd] in *. unfold cp_cell. destruct (dget c (m_cell m)) as [c'|] eqn:G.
    - exists c', (h, m). split; auto. split; [apply App_refl|]. auto.
    - destruct (nth_error (cells h0) c) as [x|] eqn:E; [|apply nth_error_None in E; lia].
      assert (E' : nth_error (cells h) c = Some x) by (destruct A as (A & _); eauto using pre_nth). rewrite E'.
      assert (A1 : App h (new_cell h x)) by (repeat split; cbn; auto using pre_snoc, pre_refl).
      assert (R : RC (new_cell h x) c (length (cells h))).
      { split; [destruct A as (A & _); now apply pre_len|]. exists x. split; auto. cbn. apply nth_snoc. }
      eexists _, _. split; [reflexivity|]. cbn [fst snd m_cell m_ten m_dict]. split; [exact A1|]. split; [|exact R].
      split; [eapply App_trans; eauto|]. cbn [fst snd m_cell m_ten m_dict]. split; [|split].
      + intros k k' H. apply dget_set in H as [[-> ->]|H]; auto. eapply RC_app; eauto.
      + intros k k' H. destruct (M2 _ _ H). split; [eapply RT_app; eauto|auto].
      + intros k k' H. destruct (M3 _ _ H). split; [eapply RD_app; eauto|auto].
  Qed.
  Lemma cp_ten_ok a s : St s -> a < n_t -> Post s (cp_ten a s) (fun h a' => RT h a a') (leaf_ten h0 a).
  Proof.
    intros I L. pose proof I as (A & M1 & M2 & M3). unfold cp_ten. destruct (dget a (m_ten (snd s))) as [a'|] eqn:G.
    - destruct (M2 _ _ G) as [R E]. rewrite E. exists a', s. auto using App_refl.
    - unfold leaf_ten. destruct (nth_error (tens h0) a) as [t|] eqn:E; [|apply nth_error_None in E; lia].
      assert (E' : nth_error (tens (fst s)) a = Some t) by (destruct A as (_ & A & _); eauto using pre_nth). rewrite E'.
      destruct (t_leaf t) eqn:Lf; [|reflexivity]. cbn [negb].
      destruct (cp_cell_ok (c := t_cell t) I (proj1 W _ _ E)) as (c' & [h m] & C1 & C2 & C3 & C4). rewrite C1. cbn [bind fst snd] in *.
      destruct C3 as (B & N1 & N2 & N3). cbn [fst snd] in *. set (t' := MkTen c' true (t_dev t)).
      assert (A1 : App h (new_ten h t')) by (repeat split; cbn; auto using pre_snoc, pre_refl).
      assert (R : RT (new_ten h t') a (length (tens h))).
      { split; [destruct B as (_ & B & _); now apply pre_len|]. exists t, t'. split; auto. split; [cbn; apply nth_snoc|]. eapply RC_app; eauto. }
      eexists _, _. split; [reflexivity|]. cbn [fst snd]. split; [eapply App_trans; eauto|]. split; [|exact R].
      split; [eapply App_trans; eauto|]. cbn [fst snd m_cell m_ten m_dict]. split; [|split].
      + intros k k' H. eapply RC_app; eauto.
      + intros k k' H. apply dget_set in H as [[-> ->]|H]; [split; auto; unfold leaf_ten; now rewrite E|].
        destruct (N2 _ _ H). split; [eapply RT_app; eauto|auto].
      + intros k k' H. destruct (N3 _ _ H). split; [eapply RD_app; eauto|auto].
  Qed.
  Lemma cp_entries_ok d : forall s, St s -> Forall (fun p => snd p < n_t) d ->
    Post s (cp_entries d s) (fun h d' => Forall2 (RE h) d d') (forallb (fun p => leaf_ten h0 (snd p)) d).
  Proof.
    induction d as [|[k a] d IH]; intros s I B; cbn [cp_entries forallb].
    - exists [], s. split; auto. split; [apply App_refl|]. auto.
    - inversion B; subst. cbn [snd] in *. pose proof (@cp_ten_ok a s I H1) as P. destruct (leaf_ten h0 a); [|unfold Post in *; cbn [andb]; now rewrite P].
      destruct P as (a' & s1 & E1 & A1 & I1 & R1). rewrite E1. cbn [bind fst snd andb].
      pose proof (IH _ I1 H2) as P. destruct (forallb _ d); [|unfold Post in *; now rewrite P].
      destruct P as (d' & s2 & E2 & A2 & I2 & R2). rewrite E2. cbn [bind fst snd]. eexists _, _. split; [reflexivity|].
      split; [eapply App_trans; eauto|]. split; auto. constructor; auto. split; auto. cbn. eapply RT_app; eauto.
  Qed.
  Lemma cp_dict_ok a s : St s -> a < n_d -> Post s (cp_dict a s) (fun h a' => RD h a a') (leaf_dict h0 a).
  Proof.
    intros I L. pose proof I as (A & M1 & M2 & M3). unfold cp_dict. destruct (dget a (m_dict (snd s))) as [a'|] eqn:G.
    - destruct (M3 _ _ G) as [R E]. rewrite E. exists a', s. auto using App_refl.
    - unfold leaf_dict. destruct (nth_error (dicts h0) a) as [d|] eqn:E; [|apply nth_error_None in E; lia].
      assert (E' : nth_error (dicts (fst s)) a = Some d) by (destruct A as (_ & _ & A & _); eauto using pre_nth). rewrite E'.
      pose proof (cp_entries_ok I (proj1 (proj2 W) _ _ E)) as P. destruct (forallb _ d) eqn:Fl; [|unfold Post in *; now rewrite P].
      destruct P as (d' & [h m] & C1 & C2 & C3 & C4). rewrite C1. cbn [bind fst snd] in *.
      destruct C3 as (B & N1 & N2 & N3). cbn [fst snd] in *.
      assert (A1 : App h (new_dict h d')) by (repeat split; cbn; auto using pre_snoc, pre_refl).
      assert (R : RD (new_dict h d') a (length (dicts h))).
      { split; [destruct B as (_ & _ & B & _); now apply pre_len|]. exists d, d'. split; auto. split; [cbn; apply nth_snoc|]. eapply RE_app; eauto. }
      eexists _, _. split; [reflexivity|]. cbn [fst snd]. split; [eapply App_trans; eauto|]. split; [|exact R].
      split; [eapply App_trans; eauto|]. cbn [fst snd m_cell m_ten m_dict]. split; [|split].
      + intros k k' H. eapply RC_app; eauto.
      + intros k k' H. destruct (N2 _ _ H). split; [eapply RT_app; eauto|auto].
      + intros k k' H. apply dget_set in H as [[-> ->]|H]; [split; auto; unfold leaf_dict; now rewrite E|].
        destruct (N3 _ _ H). split; [eapply RD_app; eauto|auto].
  Qed.
  Lemma cp_slots_ok l : forall s, St s -> wf_slots h0 l -> Post s (cp_slots l s) (fun h l' => RL h l l') (leaves h0 l).
  Proof.
    induction l as [|[k v] l IH]; intros s I B; cbn [cp_slots leaves forallb].
    - exists [], s. split; auto. split; [apply App_refl|]. split; [auto|constructor].
    - inversion B; subst. cbn [snd] in *.
      assert (P : Post s (cp_slot v s) (fun h v' => RS h v v') (leaf h0 v)).
      { destruct v as [a|a|x]; cbn [cp_slot leaf wf_slot] in *.
        - pose proof (@cp_dict_ok a s I H1) as P. destruct (leaf_dict h0 a); [|unfold Post in *; now rewrite P].
          destruct P as (a' & s1 & E1 & A1 & I1 & R1). rewrite E1. eexists _, _. split; [reflexivity|]. auto.
        - pose proof (@cp_ten_ok a s I H1) as P. destruct (leaf_ten h0 a); [|unfold Post in *; now rewrite P].
          destruct P as (a' & s1 & E1 & A1 & I1 & R1). rewrite E1. eexists _, _. split; [reflexivity|]. auto.
        - eexists _, _. split; [reflexivity|]. cbn. auto using App_refl. }
      destruct (leaf h0 v); [|unfold Post in *; cbn [andb]; now rewrite P].
      destruct P as (v' & s1 & E1 & A1 & I1 & R1). rewrite E1. cbn [bind fst snd andb].
      pose proof (IH _ I1 H2) as P. fold (leaves h0 l). destruct (leaves h0 l); [|unfold Post in *; now rewrite P].
      destruct P as (d' & s2 & E2 & A2 & I2 & R2). rewrite E2. cbn [bind fst snd]. eexists _, _. split; [reflexivity|].
      split; [eapply App_trans; eauto|]. split; auto. constructor; auto. split; auto. cbn. apply (Keep_app A2). exact R1.
  Qed.
  Lemma deepcopy_ok t : wf_tran h0 t ->
    if leaves h0 (a_maj t) && leaves h0 (a_sub t) && leaves h0 (a_cus t)
    then exists t' h, deepcopy h0 t = Ok (t', h) /\ App h0 h /\ RL h (a_maj t) (a_maj t') /\ RL h (a_sub t) (a_sub t') /\ RL h (a_cus t) (a_cus t')
    else deepcopy h0 t = Err ERuntime.
  Proof.
    intros (B1 & B2 & B3). unfold deepcopy.
    assert (I0 : St (h0, MkM [] [] [])) by (split; [apply App_refl|]; repeat split; discriminate).
    pose proof (cp_slots_ok I0 B1) as P. destruct (leaves h0 (a_maj t)); [|unfold Post in P; now rewrite P].
    destruct P as (l1 & s1 & E1 & A1 & I1 & R1). rewrite E1. cbn [bind fst snd andb].
    pose proof (cp_slots_ok I1 B2) as P. destruct (leaves h0 (a_sub t)); [|unfold Post in P; now rewrite P].
    destruct P as (l2 & s2 & E2 & A2 & I2 & R2). rewrite E2. cbn [bind fst snd andb].
    pose proof (cp_slots_ok I2 B3) as P. destruct (leaves h0 (a_cus t)); [|unfold Post in P; now rewrite P].
    destruct P as (l3 & s3 & E3 & A3 & I3 & R3). rewrite E3. cbn [bind fst snd andb].
    eexists _, _. split; [reflexivity|]. split; [apply I3|]. cbn. split; [|split]; auto.
    - eapply RL_keep; [apply Keep_app; exact A3|]. eapply RL_keep; [apply Keep_app; exact A2|]. exact R1.
    - eapply RL_keep; [apply Keep_app; exact A3|]. exact R2.
  Qed.

  (* ---------------- to(device) ---------------- *)
  Lemma move_ok x a h : App h0 h -> RT h x a -> exists a1 h1, move dev a h = Ok (a1, h1) /\ App h h1 /\
    (forall y, RT h y a -> RT h1 y a1) /\ ten_on dev h1 a1.
  Proof.
    intros A (L & t0 & t & E0 & E & (LC & v & C0 & C)). unfold move. rewrite E. destruct (Nat.eqb_spec (t_dev t) dev) as [D|D].
    - exists a, h. split; auto. split; [apply App_refl|]. split; auto. exists t. auto.
    - rewrite C. set (t1 := MkTen (length (cells h)) (t_leaf t) dev).
      assert (A1 : App h (new_ten (new_cell h v) t1)) by (repeat split; cbn; auto using pre_snoc, pre_refl).
      eexists _, _. split; [reflexivity|]. split; [exact A1|]. split.
      + intros y (_ & t0' & t' & E0' & E' & (LC' & v' & C0' & C')). rewrite E in E'. injection E' as <-. rewrite C in C'. injection C' as <-.
        split; [destruct A as (_ & A & _); cbn; now apply pre_len|]. exists t0', t1. split; auto. split; [cbn; apply nth_snoc|].
        split; [destruct A as (A & _); cbn; now apply pre_len|]. exists v. split; auto. cbn. apply nth_snoc.
      + exists t1. split; auto. cbn. apply nth_snoc.
  Qed.
  Lemma move_entries_ok d : forall d0 h, App h0 h -> Forall2 (RE h) d0 d -> exists d1 h1, move_entries dev d h = Ok (d1, h1) /\ App h h1 /\
    (forall y, Forall2 (RE h) y d -> Forall2 (RE h1) y d1) /\ Forall (fun p => ten_on dev h1 (snd p)) d1.
  Proof.
    induction d as [|[k a] d IH]; intros d0 h A F; cbn [move_entries].
    - exists [], h. split; [reflexivity|]. split; [apply App_refl|]. split; auto.
    - inversion F as [|[k0 a0] p' d00 d' [Ek R] F0]; subst. cbn in Ek, R. subst k0.
      destruct (@move_ok a0 a h A R) as (a1 & h1 & E1 & A1 & K1 & D1). rewrite E1. cbn [bind fst snd].
      destruct (IH d00 h1) as (d1 & h2 & E2 & A2 & K2 & D2); [eapply App_trans; eauto|eapply RE_app; eauto|]. rewrite E2. cbn [bind fst snd].
      eexists _, _. split; [reflexivity|]. split; [eapply App_trans; eauto|]. split.
      + intros y Fy. inversion Fy as [|[k' y0] p' yr d' [Ek' R'] Fr]; subst. cbn in Ek', R'. subst k'. constructor.
        * split; auto. cbn. eapply RT_app; eauto.
        * apply K2. eapply RE_app; eauto.
      + constructor; auto. cbn. exact (@on_app h1 h2 (STen a1) A2 D1).
  Qed.
  Lemma set_dict_keep h a d1 : n_d <= a -> (forall y, RD h y a -> exists d, nth_error (dicts h0) y = Some d /\ Forall2 (RE h) d d1) ->
    Forall (fun p => ten_on dev h (snd p)) d1 -> Keep h (set_dict h a d1).
  Proof.
    intros L H D. split.
    - intros [y|y|x] [y'|y'|x']; cbn; auto. intros R. destruct (Nat.eq_dec y' a) as [->|N].
      + destruct (H _ R) as (d & E & F). pose proof R as (_ & dd & dd' & _ & E' & _). split; auto. exists d, d1. split; auto. split; auto. cbn.
        apply upd_same. apply nth_error_Some. congruence.
      + destruct R as (L' & d & d' & E & E' & F). split; auto. exists d, d'. split; auto. split; auto. cbn. now rewrite upd_other by auto.
    - intros [y|y|x]; cbn; auto. intros (d & E & F). destruct (Nat.eq_dec y a) as [->|N].
      + exists d1. split; auto. apply upd_same. apply nth_error_Some. congruence.
      + exists d. split; auto. now rewrite upd_other by auto.
  Qed.
  Lemma RT_back h h1 x y a : App h h1 -> RT h x a -> RT h1 y a -> RT h y a.
  Proof.
    intros (A1 & A2 & _) (L & t0 & t & E0 & E & (LC & v & C0 & C)) (_ & t1 & t' & E1 & E' & (_ & v' & C1 & C')).
    rewrite (pre_nth _ A2 E) in E'. injection E' as <-. rewrite (pre_nth _ A1 C) in C'. injection C' as <-.
    split; auto. exists t1, t. repeat split; auto. exists v. auto.
  Qed.
  Lemma RE_back h h1 d : App h h1 -> forall x y, Forall2 (RE h) x d -> Forall2 (RE h1) y d -> Forall2 (RE h) y d.
  Proof.
    intros A. induction d as [|p d IH]; intros x y F G.
    - inversion G; subst. constructor.
    - inversion F as [|px p' xs d' [Ex Rx] Fx]; subst. inversion G as [|py p'' ys d'' [Ey Ry] Gy]; subst.
      constructor; [split; [exact Ey|eapply RT_back; eauto]|eapply IH; eauto].
  Qed.
  (* the old part of the heap is as it was *)
  Lemma App_set h a d : App h0 h -> n_d <= a -> App h0 (set_dict h a d).
  Proof.
    intros (A1 & A2 & (r & A3) & A4) L. repeat split; auto. cbn. rewrite A3, upd_app2 by auto. eexists. reflexivity.
  Qed.
  Lemma to_major_ok l' : forall l h, App h0 h -> RL h l l' -> Forall (fun p => exists a, snd p = SDict a) l ->
    exists h1, to_major dev l' h = Ok h1 /\ App h0 h1 /\ Keep h h1 /\ Forall (fun p => on dev h1 (snd p)) l'.
  Proof.
    induction l' as [|[k v] l' IH]; intros l h O R V; cbn [to_major].
    - exists h. split; [reflexivity|]. split; auto. split; [split; auto|constructor].
    - inversion R as [|[k0 v0] p' l0 q' [Ek Rv] R0]; subst. inversion V as [|p0 q0 [a0 Ea] V0]; subst. cbn in Ek, Rv, Ea. subst k0 v0.
      destruct v as [a|a|x]; cbn in Rv; try contradiction. pose proof Rv as (L & d0 & d & E0 & E & F). rewrite E.
      destruct (@move_entries_ok d d0 h O F) as (d1 & h1 & E1 & A1 & K1 & D1). rewrite E1. cbn [bind fst snd].
      assert (Eh : nth_error (dicts h1) a = Some d) by (destruct A1 as (_ & _ & A1 & _); eauto using pre_nth).
      assert (KD : Keep h1 (set_dict h1 a d1)).
      { apply set_dict_keep; auto. intros y (_ & dy & dy' & Ey & Ey' & Fy). exists dy. split; auto.
        rewrite Eh in Ey'. injection Ey' as <-. apply K1. eapply RE_back; eauto. }
      assert (K : Keep h (set_dict h1 a d1)) by (eapply Keep_trans; [apply Keep_app; exact A1|exact KD]).
      destruct (IH l0 (set_dict h1 a d1)) as (h2 & E2 & O2 & K2 & D2); auto.
      { apply App_set; auto. eapply App_trans; eauto. }
      { eapply RL_keep; eauto. }
      exists h2. split; auto. split; auto. split; [eapply Keep_trans; eauto|]. constructor; auto. cbn [snd]. apply K2. cbn.
      exists d1. split; [apply upd_same; apply nth_error_Some; congruence|exact D1].
  Qed.
  Lemma to_sub_ok l' : forall l h, App h0 h -> RL h l l' -> Forall (fun p => forall a, snd p <> SDict a) l ->
    exists l1 h1, to_sub dev l' h = Ok (l1, h1) /\ App h h1 /\ RL h1 l l1 /\ Forall (fun p => on dev h1 (snd p)) l1.
  Proof.
    induction l' as [|[k v] l' IH]; intros l h O R V; cbn [to_sub].
    - inversion R; subst. exists [], h. split; [reflexivity|]. split; [apply App_refl|]. split; constructor.
    - inversion R as [|[k0 v0] p' l0 q' [Ek Rv] R0]; subst. inversion V as [|p0 q0 Nd V0]; subst. cbn in Ek, Rv, Nd. subst k0.
      destruct v as [a|a|x].
      + destruct v0; cbn in Rv; try contradiction. now destruct (Nd a0).
      + destruct v0 as [a0|a0|x0]; cbn in Rv; try contradiction.
        destruct (@move_ok a0 a h O Rv) as (a1 & h1 & E1 & A1 & K1 & D1). rewrite E1. cbn [bind fst snd].
        destruct (IH l0 h1) as (l1 & h2 & E2 & A2 & R2 & D2); auto; [eapply App_trans; eauto|eapply RL_keep; [apply Keep_app; eauto|auto]|].
        rewrite E2. cbn [bind fst snd]. eexists _, _. split; [reflexivity|]. split; [eapply App_trans; eauto|]. split.
        * constructor; auto. split; auto. cbn. eapply RT_app; eauto.
        * constructor; auto. exact (@on_app h1 h2 (STen a1) A2 D1).
      + destruct v0 as [a0|a0|x0]; cbn in Rv; try contradiction. subst x0.
        destruct (IH l0 h) as (l1 & h2 & E2 & A2 & R2 & D2); auto. rewrite E2. cbn [bind fst snd].
        eexists _, _. split; [reflexivity|]. split; auto. split; constructor; auto. cbn. auto. exact I.
  Qed.
  Lemma RL_valid h l l' : RL h l l' -> Forall (fun p => exists a, snd p = SDict a) l -> Forall (fun p => exists a, snd p = SDict a) l'.
  Proof.
    intros R. induction R as [|[k v] [k' v'] l l' [_ Rv] R IH]; intros V; inversion V as [|p q [a Ea] V0]; subst; constructor; auto.
    cbn in *. subst v. destruct v'; try contradiction. eauto.
  Qed.

  (* ---------------- what the relation says about what is shown ---------------- *)
  Lemma RT_show h a a' : RT h a a' -> show_ten h a' = show_ten h0 a.
  Proof. intros (_ & t & t' & E & E' & (_ & x & C & C')). unfold show_ten. rewrite E, E'. congruence. Qed.
  Lemma RE_show h d d' : Forall2 (RE h) d d' -> map (fun p => (fst p, show_ten h (snd p))) d' = map (fun p => (fst p, show_ten h0 (snd p))) d.
  Proof. intros F. induction F as [|p p' l l' [Ek R] F IH]; cbn; auto. now rewrite Ek, (RT_show R), IH. Qed.
  Lemma RS_show h v v' : RS h v v' -> show h v' = show h0 v.
  Proof.
    destruct v, v'; cbn; try contradiction; [|intros R; now rewrite (RT_show R)|congruence].
    intros (_ & d & d' & E & E' & F). rewrite E, E'. cbn. now rewrite (RE_show F).
  Qed.
  Lemma RL_show h l l' : RL h l l' -> shows h l' = shows h0 l.
  Proof. intros F. induction F as [|p p' l l' [Ek R] F IH]; cbn; auto. unfold shows in IH. now rewrite Ek, (@RS_show h _ _ R), IH. Qed.

  Lemma store_copy_ok a t : nth_error (trs h0) a = Some t -> valid t ->
    if leaves h0 (a_maj t) && leaves h0 (a_sub t) && leaves h0 (a_cus t)
    then exists h t', store_copy dev a h0 = Ok (length (trs h0), new_tran h t') /\ App h0 h /\
           RL h (a_maj t) (a_maj t') /\ RL h (a_sub t) (a_sub t') /\ RL h (a_cus t) (a_cus t') /\
           Forall (fun p => on dev h (snd p)) (a_maj t') /\ Forall (fun p => on dev h (snd p)) (a_sub t')
    else store_copy dev a h0 = Err ERuntime.
  Proof.
    intros E (V1 & V2). unfold store_copy. rewrite E. pose proof (deepcopy_ok (proj2 (proj2 W) _ _ E)) as P.
    destruct (_ && _ && _)%bool; [|now rewrite P]. destruct P as (t' & h & E1 & A1 & R1 & R2 & R3). rewrite E1. cbn [bind fst snd].
    unfold to_device. destruct (@to_major_ok (a_maj t') (a_maj t) h A1 R1 V1) as (h1 & E2 & A2 & K2 & D2). rewrite E2. cbn [bind].
    destruct (@to_sub_ok (a_sub t') (a_sub t) h1 A2 (RL_keep K2 R2) V2) as (l1 & h2 & E3 & A3 & R4 & D4). rewrite E3. cbn [bind fst snd].
    exists h2, (MkTran (a_maj t') l1 (a_cus t')). split; [reflexivity|]. cbn [a_maj a_sub a_cus].
    assert (K3 : Keep h h2) by (eapply Keep_trans; [exact K2|apply Keep_app; exact A3]).
    split; [eapply App_trans; eauto|]. split; [eapply RL_keep; eauto|]. split; [exact R4|]. split; [eapply RL_keep; eauto|]. split; auto.
    eapply Forall_impl; [|exact D2]. intros p Hp. eapply on_app; eauto.
  Qed.
End Copy.

(* ---------------- the caller's later operations ---------------- *)
Section Isolated.
  Context {X : Type}.
  Variables h0 h1 : heap X.     (* before and after storing *)
  (* addresses which are not those of the copy *)
  Definition out {A} (f : heap X -> list A) (i : nat) : Prop := ~ (length (f h0) <= i < length (f h1)).
  Definition out_slot (v : slot X) : Prop := match v with SDict a => out (@dicts X) a | STen a => out (@tens X) a | SVal _ => True end.
  Definition out_tran (t : tran X) : Prop :=
    Forall (fun p => out_slot (snd p)) (a_maj t) /\ Forall (fun p => out_slot (snd p)) (a_sub t) /\ Forall (fun p => out_slot (snd p)) (a_cus t).
  Definition out_dict (d : list (string * nat)) : Prop := Forall (fun p => out (@tens X) (snd p)) d.
  (* an operation on, and with, the caller's objects *)
  Definition own (o : uop X) : Prop :=
    match o with
    | UCell c _ => out (@cells X) c
    | UDict a d => out (@dicts X) a /\ out_dict d
    | UTran a t => out (@trs X) a /\ out_tran t
    | UNewCell _ => True
    | UNewTen t => out (@cells X) (t_cell t)
    | UNewDict d => out_dict d
    | UNewTran t => out_tran t
    end.
  (* objects of the caller refer to objects of the caller only *)
  Definition apart (h : heap X) : Prop :=
    (forall a t, out (@tens X) a -> nth_error (tens h) a = Some t -> out (@cells X) (t_cell t)) /\
    (forall a d, out (@dicts X) a -> nth_error (dicts h) a = Some d -> out_dict d) /\
    (forall a t, out (@trs X) a -> nth_error (trs h) a = Some t -> out_tran t).
  Definition agree {A} (f : heap X -> list A) (h : heap X) : Prop :=
    length (f h1) <= length (f h) /\ forall i, length (f h0) <= i < length (f h1) -> nth_error (f h) i = nth_error (f h1) i.
  Definition Agree (h : heap X) : Prop := agree (@cells X) h /\ agree (@tens X) h /\ agree (@dicts X) h /\ agree (@trs X) h.

  Lemma agree_upd {A} (l0 l1 l : list A) a x : ~ (length l0 <= a < length l1) ->
    length l1 <= length l /\ (forall i, length l0 <= i < length l1 -> nth_error l i = nth_error l1 i) ->
    length l1 <= length (upd a x l) /\ (forall i, length l0 <= i < length l1 -> nth_error (upd a x l) i = nth_error l1 i).
  Proof. intros O [L H]. rewrite upd_length. split; auto. intros i I. rewrite upd_other; [auto|]. intros ->. auto. Qed.
  Lemma agree_snoc {A} (l0 l1 l : list A) x :
    length l1 <= length l /\ (forall i, length l0 <= i < length l1 -> nth_error l i = nth_error l1 i) ->
    length l1 <= length (l ++ [x]) /\ (forall i, length l0 <= i < length l1 -> nth_error (l ++ [x]) i = nth_error l1 i).
  Proof. intros [L H]. rewrite app_length. split; [cbn; lia|]. intros i I. rewrite nth_error_app1 by lia. auto. Qed.
  Lemma own_agree o h : own o -> Agree h -> Agree (ustep h o).
  Proof.
    intros O (A1 & A2 & A3 & A4). destruct o; cbn [own] in O; unfold Agree, agree in *; cbn; try tauto.
    - split; auto. now apply agree_upd.
    - destruct O. do 2 (split; auto). split; auto. now apply agree_upd.
    - destruct O. do 3 (split; auto). now apply agree_upd.
    - split; auto. now apply agree_snoc.
    - do 1 (split; auto). split; auto. now apply agree_snoc.
    - do 2 (split; auto). split; auto. now apply agree_snoc.
    - do 3 (split; auto). now apply agree_snoc.
  Qed.
  Lemma nth_upd_cases {A} (l : list A) a x i y : nth_error (upd a x l) i = Some y -> (i = a /\ y = x) \/ nth_error l i = Some y.
  Proof.
    destruct (Nat.eq_dec i a) as [->|N]; [|rewrite upd_other by auto; auto]. intros E. left. split; auto.
    rewrite upd_same in E; [congruence|]. rewrite <- (upd_length a x l). apply nth_error_Some. congruence.
  Qed.
  Lemma nth_snoc_cases {A} (l : list A) x i y : nth_error (l ++ [x]) i = Some y -> y = x \/ nth_error l i = Some y.
  Proof.
    intros E. destruct (Nat.lt_ge_cases i (length l)) as [L|L]; [rewrite nth_error_app1 in E by auto; auto|].
    rewrite nth_error_app2 in E by auto. destruct (i - length l) as [|n]; cbn in E; [left; congruence|]. destruct n; discriminate.
  Qed.
  Lemma own_apart o h : own o -> apart h -> apart (ustep h o).
  Proof.
    intros O (A1 & A2 & A3). destruct o; cbn [own] in O; unfold apart; cbn; (split; [|split]); intros i y Oi E; try (eapply A1; eassumption); try (eapply A2; eassumption); try (eapply A3; eassumption).
    - apply nth_upd_cases in E as [[-> ->]|E]; [tauto|eapply A2; eassumption].
    - apply nth_upd_cases in E as [[-> ->]|E]; [tauto|eapply A3; eassumption].
    - apply nth_snoc_cases in E as [->|E]; [exact O|eapply A1; eassumption].
    - apply nth_snoc_cases in E as [->|E]; [exact O|eapply A2; eassumption].
    - apply nth_snoc_cases in E as [->|E]; [exact O|eapply A3; eassumption].
  Qed.
  Lemma own_run ops : forall h, Forall own ops -> Agree h -> apart h -> Agree (fold_left ustep ops h) /\ apart (fold_left ustep ops h).
  Proof. induction ops as [|o ops IH]; intros h F A B; cbn; auto. inversion F; subst. apply IH; auto using own_agree, own_apart. Qed.

  Lemma in_len {A} (l : list A) i x : nth_error l i = Some x -> i < length l.
  Proof. intros E. apply nth_error_Some. congruence. Qed.
  Lemma agree_ten h a a' : Agree h -> RT h0 h1 a a' -> nth_error (tens h) a' = nth_error (tens h1) a' /\ show_ten h a' = show_ten h1 a'.
  Proof.
    intros (C1 & C2 & _) (L & t & t' & E & E' & (LC & x & X1 & X2)).
    assert (Q : nth_error (tens h) a' = nth_error (tens h1) a') by (apply C2; split; [auto|eapply in_len; eauto]).
    split; auto. unfold show_ten. rewrite Q, E'. apply C1. split; auto. eapply in_len; eauto.
  Qed.
  Lemma agree_show dev h v v' : Agree h -> RS h0 h1 v v' -> show h v' = show h1 v' /\ (on dev h1 v' -> on dev h v').
  Proof.
    intros A. assert (T : forall a a', RT h0 h1 a a' -> ten_on dev h1 a' -> ten_on dev h a').
    { intros a a' R (t & E & D). exists t. split; auto. rewrite (proj1 (agree_ten A R)). exact E. }
    destruct v as [a|a|x], v' as [a'|a'|x']; cbn; try contradiction; auto.
    - intros (L & d & d' & E & E' & F). pose proof A as (_ & _ & C3 & _).
      assert (Q : nth_error (dicts h) a' = nth_error (dicts h1) a') by (apply C3; split; [auto|eapply in_len; eauto]).
      rewrite Q, E'. cbn. split.
      + do 2 f_equal. clear -F A. induction F as [|p p' l l' [_ R] F IH]; cbn; auto. now rewrite IH, (proj2 (agree_ten A R)).
      + intros (d2 & E2 & D). injection E2 as <-. exists d'. split; auto. clear -F D T.
        induction F as [|p p' l l' [_ R] F IH]; [constructor|]. inversion D; subst. constructor; eauto.
    - intros R. split; [|eauto]. now rewrite (proj2 (agree_ten A R)).
  Qed.
  Lemma agree_shows dev h l l' : Agree h -> RL h0 h1 l l' ->
    shows h l' = shows h1 l' /\ (Forall (fun p => on dev h1 (snd p)) l' -> Forall (fun p => on dev h (snd p)) l').
  Proof.
    intros A F. induction F as [|p p' l l' [_ R] F [IH1 IH2]]; cbn; auto. destruct (@agree_show dev h _ _ A R) as [S1 S2].
    unfold shows in IH1. split; [now rewrite S1, IH1|]. intros D. inversion D; subst. constructor; auto.
  Qed.
End Isolated.

Lemma RL_tran {X} (h0 h : heap X) t l l' : RL h0 h l l' -> RL h0 (new_tran h t) l l'.
Proof.
  apply F2_impl. intros x y [E R]. split; auto.
Qed.
Lemma on_tran {X} dev (h : heap X) t (l : slots X) : Forall (fun p => on dev h (snd p)) l -> Forall (fun p => on dev (new_tran h t) (snd p)) l.
Proof. auto. Qed.

(* Storing a transition of which no tensor hangs in a computation graph gives a new transition which shows the same and
   whose major and sub attributes are on the storage's device; nothing of the caller's is changed; and whatever the
   caller does afterwards with their own objects, the stored transition shows the same. The caller cannot get at an
   object of the copy through their own. *)
Theorem C198_isolated : forall X (h0 : heap X) dev a t, wf h0 -> nth_error (trs h0) a = Some t -> valid t ->
  leaves h0 (a_maj t) = true -> leaves h0 (a_sub t) = true -> leaves h0 (a_cus t) = true ->
  exists s h1 t', store_copy dev a h0 = Ok (s, h1) /\ nth_error (trs h1) s = Some t' /\
    pre (cells h0) (cells h1) /\ pre (tens h0) (tens h1) /\ pre (dicts h0) (dicts h1) /\ trs h1 = trs h0 ++ [t'] /\
    (shows h1 (a_maj t') = shows h0 (a_maj t) /\ shows h1 (a_sub t') = shows h0 (a_sub t) /\ shows h1 (a_cus t') = shows h0 (a_cus t)) /\
    Forall (fun p => on dev h1 (snd p)) (a_maj t') /\ Forall (fun p => on dev h1 (snd p)) (a_sub t') /\
    forall ops, Forall (own h0 h1) ops -> let h2 := fold_left ustep ops h1 in
      nth_error (trs h2) s = Some t' /\
      (shows h2 (a_maj t') = shows h0 (a_maj t) /\ shows h2 (a_sub t') = shows h0 (a_sub t) /\ shows h2 (a_cus t') = shows h0 (a_cus t)) /\
      Forall (fun p => on dev h2 (snd p)) (a_maj t') /\ Forall (fun p => on dev h2 (snd p)) (a_sub t') /\
      apart h0 h1 h2.
Proof.
  intros X h0 dev a t W E V L1 L2 L3. pose proof (store_copy_ok dev W a E V) as P. rewrite L1, L2, L3 in P. cbn [andb] in P.
  destruct P as (h & t' & Es & (A1 & A2 & A3 & A4) & R1 & R2 & R3 & D1 & D2).
  apply (RL_tran t') in R1, R2, R3. apply (@on_tran X dev h t') in D1, D2. exists (length (trs h0)), (new_tran h t'), t'.
  set (h1 := new_tran h t') in *. assert (T1 : trs h1 = trs h0 ++ [t']) by (cbn; now rewrite A4).
  split; auto. split; [rewrite T1; apply nth_snoc|]. do 4 (split; auto). split; [split; [|split]; eapply RL_show; eauto|]. split; auto. split; auto.
  assert (Ag : Agree h0 h1 h1) by (repeat split; auto).
  assert (Ap : apart h0 h1 h1).
  { destruct W as (W1 & W2 & W3).
    assert (OT : forall i, i < length (tens h0) -> out h0 h1 (@tens X) i) by (intros i Hi [? ?]; lia).
    assert (OL : forall l, wf_slots h0 l -> Forall (fun p => out_slot h0 h1 (snd p)) l).
    { intros l. apply Forall_impl. intros [k [i|i|x]]; cbn; auto; intros Hi [? ?]; lia. }
    split; [|split].
    - intros i x Oi Ei. assert (i < length (tens h0)). { pose proof (in_len _ _ Ei). unfold out in Oi. lia. }
      rewrite (pre_lt A2) in Ei by auto. pose proof (W1 _ _ Ei). intros [? ?]. lia.
    - intros i x Oi Ei. assert (i < length (dicts h0)). { pose proof (in_len _ _ Ei). unfold out in Oi. lia. }
      rewrite (pre_lt A3) in Ei by auto. pose proof (W2 _ _ Ei) as Q. eapply Forall_impl; [|exact Q]. cbn. intros p Hp. auto.
    - intros i x Oi Ei. assert (i < length (trs h0)). { pose proof (in_len _ _ Ei). unfold out in Oi. lia. }
      rewrite T1, nth_error_app1 in Ei by auto. destruct (W3 _ _ Ei) as (Q1 & Q2 & Q3). repeat split; auto. }
  intros ops F h2. destruct (own_run F Ag Ap) as [Ag2 Ap2]. fold h2 in Ag2, Ap2.
  destruct (@agree_shows X h0 h1 dev h2 _ _ Ag2 R1) as [S1 N1]. destruct (@agree_shows X h0 h1 dev h2 _ _ Ag2 R2) as [S2 N2].
  destruct (@agree_shows X h0 h1 dev h2 _ _ Ag2 R3) as [S3 _].
  split; [|split; [|split; [|split]]]; auto.
  - pose proof Ag2 as (_ & _ & _ & [_ Q]). rewrite Q; [rewrite T1; apply nth_snoc|]. rewrite T1, app_length. cbn. lia.
  - rewrite S1, S2, S3. split; [|split]; eapply RL_show; eauto.
Qed.
Print Assumptions C198_isolated.
(* otherwise the copy raises *)
Theorem C198_refused : forall X (h0 : heap X) dev a t, wf h0 -> nth_error (trs h0) a = Some t -> valid t ->
  leaves h0 (a_maj t) && leaves h0 (a_sub t) && leaves h0 (a_cus t) = false -> store_copy dev a h0 = Err ERuntime.
Proof. intros X h0 dev a t W E V L. pose proof (store_copy_ok dev W a E V) as P. now rewrite L in P. Qed.
Print Assumptions C198_refused.

(* ---------------- constructing a transition ---------------- *)
Section Construct.
  Context {X : Type}.
  (* tensors may be replaced by others which show the same, without a graph *)
  Definition Same (h h1 : heap X) : Prop :=
    cells h1 = cells h /\ pre (tens h) (tens h1) /\ length (dicts h1) = length (dicts h) /\ trs h1 = trs h /\
    forall v, wf_slot h v -> wf_slot h1 v /\ show h1 v = show h v /\ (leaf h v = true -> leaf h1 v = true).
  Lemma Same_refl h : Same h h. Proof. repeat split; auto using pre_refl. Qed.
  Lemma Same_trans a b c : Same a b -> Same b c -> Same a c.
  Proof.
    intros (A1 & A2 & A3 & A4 & A5) (B1 & B2 & B3 & B4 & B5). split; [congruence|]. split; [eauto using pre_trans|]. split; [congruence|]. split; [congruence|].
    intros v V. destruct (A5 v V) as (V1 & S1 & L1). destruct (B5 v V1) as (V2 & S2 & L2). split; auto. split; [congruence|auto].
  Qed.
  (* the part of wf which is needed here *)
  Definition ok_dicts (h : heap X) : Prop := forall a d, nth_error (dicts h) a = Some d -> Forall (fun p => snd p < length (tens h)) d.
  Lemma Same_tens h h1 : ok_dicts h -> cells h1 = cells h -> pre (tens h) (tens h1) -> dicts h1 = dicts h -> trs h1 = trs h -> Same h h1.
  Proof.
    intros W C T D R. split; auto. split; auto. split; [now rewrite D|]. split; auto.
    assert (ST : forall a, a < length (tens h) -> show_ten h1 a = show_ten h a /\ leaf_ten h1 a = leaf_ten h a).
    { intros a L. unfold show_ten, leaf_ten. rewrite (pre_lt T L), C. auto. }
    intros [a|a|x] V; cbn in *; auto.
    - rewrite D. split; auto. destruct (nth_error (dicts h) a) as [d|] eqn:E; [|apply nth_error_None in E; lia]. cbn.
      unfold leaf_dict. rewrite D, E. pose proof (W _ _ E) as F. clear E. split.
      + do 2 f_equal. induction F as [|p d L F IH]; cbn; auto. now rewrite IH, (proj1 (ST _ L)).
      + induction F as [|p d L F IH]; cbn; auto. rewrite (proj2 (ST _ L)), !Bool.andb_true_iff. tauto.
    - destruct (ST a V) as [-> ->]. pose proof (pre_len T). split; [lia|auto].
  Qed.
  Lemma detach_entries_ok d : forall h : heap X, Forall (fun p => snd p < length (tens h)) d ->
    exists d' h1, detach_entries d h = Ok (d', h1) /\ cells h1 = cells h /\ pre (tens h) (tens h1) /\ dicts h1 = dicts h /\ trs h1 = trs h /\
      map (fun p => (fst p, show_ten h1 (snd p))) d' = map (fun p => (fst p, show_ten h (snd p))) d /\
      Forall (fun p => snd p < length (tens h1)) d' /\ forallb (fun p => leaf_ten h1 (snd p)) d' = true.
  Proof.
    induction d as [|[k a] d IH]; intros h F; cbn [detach_entries].
    - exists [], h. repeat split; auto using pre_refl.
    - inversion F; subst. cbn [snd] in *. destruct (nth_error (tens h) a) as [t|] eqn:E; [|apply nth_error_None in E; lia].
      set (t' := MkTen (t_cell t) true (t_dev t)).
      destruct (IH (new_ten h t')) as (d' & h1 & E1 & C1 & T1 & D1 & R1 & M1 & B1 & L1).
      { eapply Forall_impl; [|exact H2]. cbn. intros p Hp. rewrite app_length. lia. }
      rewrite E1. cbn [bind fst snd]. eexists _, h1. split; [reflexivity|]. cbn in C1, T1, D1, R1.
      assert (P : pre (tens h) (tens h1)) by (eapply pre_trans; [apply pre_snoc|exact T1]).
      assert (N : nth_error (tens h1) (length (tens h)) = Some t') by (eapply pre_nth; [exact T1|apply nth_snoc]).
      do 4 (split; auto). cbn [map fst snd forallb]. split; [|split].
      + rewrite M1. f_equal.
        * f_equal. unfold show_ten. rewrite N, E, C1. reflexivity.
        * apply map_ext_in. intros p I. f_equal. unfold show_ten. cbn. rewrite Forall_forall in H2. now rewrite nth_error_app1 by auto.
      + constructor; auto. cbn. eapply in_len; eauto.
      + unfold leaf_ten at 1. rewrite N. exact L1.
  Qed.
  Lemma ok_dicts_set h a d : ok_dicts h -> Forall (fun p => snd p < length (tens h)) d -> ok_dicts (set_dict h a d).
  Proof. intros W F i x E. cbn in E. apply nth_upd_cases in E as [[-> ->]|E]; [exact F|]. exact (W _ _ E). Qed.
  Lemma Same_set h a d d' : nth_error (dicts h) a = Some d ->
    map (fun p => (fst p, show_ten h (snd p))) d' = map (fun p => (fst p, show_ten h (snd p))) d ->
    forallb (fun p => leaf_ten h (snd p)) d' = true -> Same h (set_dict h a d') /\ leaf (set_dict h a d') (SDict a) = true.
  Proof.
    intros E M L. assert (A : a < length (dicts h)) by (eapply in_len; eauto).
    assert (LA : leaf (set_dict h a d') (SDict a) = true).
    { cbn. unfold leaf_dict. cbn [dicts set_dict]. rewrite upd_same by auto. exact L. }
    split; auto. split; [reflexivity|]. split; [apply pre_refl|]. split; [cbn; apply upd_length|]. split; [reflexivity|].
    intros [i|i|x] V; cbn in V; [|cbn; auto|cbn; auto]. split; [cbn; rewrite upd_length; auto|].
    destruct (Nat.eq_dec i a) as [->|N].
    - split; auto. cbn. rewrite upd_same by auto. rewrite E. cbn. do 2 f_equal. exact M.
    - cbn. unfold leaf_dict. cbn. rewrite upd_other by auto. auto.
  Qed.
  Lemma detach_major_ok l : forall h : heap X, ok_dicts h -> wf_slots h l -> Forall (fun p => exists a, snd p = SDict a) l ->
    exists h1, detach_major l h = Ok h1 /\ Same h h1 /\ ok_dicts h1 /\ leaves h1 l = true.
  Proof.
    induction l as [|[k v] l IH]; intros h W F V; cbn [detach_major].
    - exists h. split; auto. split; [apply Same_refl|]. auto.
    - inversion F as [|p q Fv F0]; subst. inversion V as [|p q [a Ea] V0]; subst. cbn in Fv, Ea. subst v. cbn in Fv.
      destruct (nth_error (dicts h) a) as [d|] eqn:E; [|apply nth_error_None in E; lia].
      destruct (detach_entries_ok h (W _ _ E)) as (d' & h1 & E1 & C1 & T1 & D1 & R1 & M1 & B1 & L1). rewrite E1. cbn [bind fst snd].
      pose proof (@Same_tens h h1 W C1 T1 D1 R1) as S1.
      assert (W1 : ok_dicts h1).
      { intros i x Ei. rewrite D1 in Ei. eapply Forall_impl; [|exact (W _ _ Ei)]. cbn. intros p Hp. pose proof (pre_len T1). lia. }
      assert (E' : nth_error (dicts h1) a = Some d) by (rewrite D1; exact E).
      assert (M1' : map (fun p => (fst p, show_ten h1 (snd p))) d' = map (fun p => (fst p, show_ten h1 (snd p))) d).
      { rewrite M1. apply map_ext_in. intros p I. f_equal. pose proof (W _ _ E) as Wd. rewrite Forall_forall in Wd.
        unfold show_ten. rewrite (pre_lt T1 (Wd _ I)), C1. reflexivity. }
      destruct (@Same_set h1 a d d' E' M1' L1) as [S2 La]. pose proof (Same_trans S1 S2) as S12.
      destruct (IH (set_dict h1 a d')) as (h2 & E2 & S3 & W3 & L3); auto using ok_dicts_set.
      { eapply Forall_impl; [|exact F0]. intros p Hp. destruct S12 as (_ & _ & _ & _ & Q). apply Q. exact Hp. }
      exists h2. split; auto. split; [eapply Same_trans; eauto|]. split; auto. cbn [leaves forallb snd]. fold (leaves h2 l). rewrite L3, Bool.andb_true_r.
      destruct S3 as (_ & _ & _ & _ & Q). apply Q; auto. cbn. rewrite upd_length. eapply in_len; eauto.
  Qed.
  Lemma detach_sub_ok l : forall h : heap X, ok_dicts h -> wf_slots h l -> Forall (fun p => forall a, snd p <> SDict a) l ->
    exists l1 h1, detach_sub l h = Ok (l1, h1) /\ Same h h1 /\ shows h1 l1 = shows h l /\ leaves h1 l1 = true.
  Proof.
    induction l as [|[k v] l IH]; intros h W F V; cbn [detach_sub].
    - exists [], h. split; auto. split; [apply Same_refl|]. auto.
    - inversion F as [|p q Fv F0]; subst. inversion V as [|p q Nd V0]; subst. cbn in Fv, Nd. destruct v as [a|a|x]; [now destruct (Nd a)| |].
      + cbn in Fv. destruct (nth_error (tens h) a) as [t|] eqn:E; [|apply nth_error_None in E; lia].
        set (t' := MkTen (t_cell t) true (t_dev t)). assert (S1 : Same h (new_ten h t')) by (apply Same_tens; cbn; auto using pre_snoc).
        destruct (IH (new_ten h t')) as (l1 & h1 & E1 & S2 & Sh & L); auto.
        { intros i x Ei. eapply Forall_impl; [|exact (W _ _ Ei)]. cbn. intros p Hp. rewrite app_length. lia. }
        { eapply Forall_impl; [|exact F0]. intros p Hp. destruct S1 as (_ & _ & _ & _ & Q). apply Q. exact Hp. }
        rewrite E1. cbn [bind fst snd]. eexists _, h1. split; [reflexivity|]. split; [eapply Same_trans; eauto|].
        pose proof S2 as (C2 & T2 & _). cbn in C2, T2.
        assert (N : nth_error (tens h1) (length (tens h)) = Some t') by (eapply pre_nth; [exact T2|apply nth_snoc]).
        cbn [shows leaves map forallb fst snd show leaf]. split.
        * fold (shows h1 l1). rewrite Sh. f_equal.
          -- do 2 f_equal. unfold show_ten. rewrite N, E, C2. reflexivity.
          -- apply map_ext_in. intros p I. f_equal. unfold wf_slots in F0. rewrite Forall_forall in F0. destruct S1 as (_ & _ & _ & _ & Q). apply Q; auto.
        * unfold leaf_ten at 1. rewrite N. exact L.
      + destruct (IH h W F0 V0) as (l1 & h1 & E1 & S2 & Sh & L). rewrite E1. cbn [bind fst snd]. eexists _, h1. split; [reflexivity|]. split; auto.
        cbn [shows leaves map forallb fst snd show leaf]. split; auto. fold (shows h1 l1). now rewrite Sh.
  Qed.
End Construct.

(* A new transition shows what was passed; everything the caller has shows the same as before, in the same memory; and
   its major and sub attributes hang in no graph, so that only custom attributes can keep it from being stored. *)
Theorem C198_constructed : forall X (h : heap X) maj sub cus, wf h -> wf_tran h (MkTran maj sub cus) -> valid (MkTran maj sub cus) ->
  exists s h1 t, construct maj sub cus h = Ok (s, h1) /\ nth_error (trs h1) s = Some t /\
    a_maj t = maj /\ a_cus t = cus /\
    (shows h1 (a_maj t) = shows h maj /\ shows h1 (a_sub t) = shows h sub /\ shows h1 (a_cus t) = shows h cus) /\
    cells h1 = cells h /\ trs h1 = trs h ++ [t] /\ (forall v, wf_slot h v -> show h1 v = show h v) /\
    leaves h1 (a_maj t) = true /\ leaves h1 (a_sub t) = true.
Proof.
  intros X h maj sub cus (W1 & W2 & W3) (F1 & F2 & F3) (V1 & V2). cbn [a_maj a_sub a_cus] in *. unfold construct.
  destruct (detach_major_ok W2 F1 V1) as (h1 & E1 & S1 & K1 & L1). rewrite E1. cbn [bind].
  assert (Up : forall l, wf_slots h l -> wf_slots h1 l /\ shows h1 l = shows h l).
  { intros l Fl. destruct S1 as (_ & _ & _ & _ & Q). unfold wf_slots in *. rewrite Forall_forall in *. split; [intros p I; apply Q; auto|].
    apply map_ext_in. intros p I. f_equal. apply Q. auto. }
  destruct (detach_sub_ok K1 (proj1 (Up _ F2)) V2) as (l1 & h2 & E2 & S2 & Sh & L2). rewrite E2. cbn [bind fst snd].
  assert (Up2 : forall l, wf_slots h1 l -> shows h2 l = shows h1 l).
  { intros l Fl. destruct S2 as (_ & _ & _ & _ & Q). unfold wf_slots in *. rewrite Forall_forall in *. apply map_ext_in. intros p I. f_equal. apply Q. auto. }
  set (t := MkTran maj l1 cus). exists (length (trs h)), (new_tran h2 t), t.
  pose proof (Same_trans S1 S2) as (C & T & D & R & Q). split; auto. split; [cbn; rewrite R; apply nth_snoc|]. do 2 (split; [reflexivity|]).
  split; [|split; [|split; [|split; [|split]]]].
  - split; [|split]; cbn [a_maj a_sub a_cus t].
    + change (shows h2 maj = shows h maj). rewrite Up2 by (apply Up; auto). apply Up; auto.
    + change (shows h2 l1 = shows h sub). rewrite Sh. apply Up; auto.
    + change (shows h2 cus = shows h cus). rewrite Up2 by (apply Up; auto). apply Up; auto.
  - exact C.
  - cbn. now rewrite R.
  - intros v Fv. apply Q. exact Fv.
  - cbn [a_maj t]. change (leaves h2 maj = true). unfold leaves in *. rewrite forallb_forall in *. intros p I. destruct S2 as (_ & _ & _ & _ & Q2).
    apply Q2; auto. pose proof (proj1 (Up _ F1)) as Fm. unfold wf_slots in Fm. rewrite Forall_forall in Fm. auto.
  - exact L2.
Qed.
Print Assumptions C198_constructed.

(* a step whose next state is the state of the following one; the caller goes on writing into the same memory *)
Definition step0 : heap nat :=
  MkH [10; 20; 30; 5] [MkTen 0 false 0; MkTen 1 true 0; MkTen 2 true 0; MkTen 3 false 0]
      [[("s", 0)]; [("a", 1)]; [("s", 2)]]%string [].
Example C198_nonvacuous :
  let maj := [("state", SDict 0); ("action", SDict 1); ("next_state", SDict 2)]%string in
  let sub := [("reward", STen 3); ("terminal", SVal 1)]%string in
  wf step0 /\ valid (MkTran maj sub []) /\
  exists s h1 s' h2 t', construct maj sub [] step0 = Ok (s, h1) /\ store_copy 1 s h1 = Ok (s', h2) /\ nth_error (trs h2) s' = Some t' /\
    let h3 := fold_left ustep [UCell 0 11; UCell 2 99; UDict 1 [("b", 2)]%string] h2 in
    Forall (own h1 h2) [UCell 0 11; UCell 2 99; UDict 1 [("b", 2)]%string] /\
    shows h3 maj = [("state", WDict (Some [("s", Some 11)])); ("action", WDict (Some [("b", Some 99)])); ("next_state", WDict (Some [("s", Some 99)]))]%string /\
    shows h3 (a_maj t') = [("state", WDict (Some [("s", Some 10)])); ("action", WDict (Some [("a", Some 20)])); ("next_state", WDict (Some [("s", Some 30)]))]%string /\
    store_copy 1 0 (MkH (cells h1) (tens h1) (dicts h1) [MkTran maj [] [("log_prob", STen 0)]%string]) = Err ERuntime.
Proof.
  cbn zeta. split; [|split].
  - split; [|split].
    + intros [|[|[|[|a]]]] t E; cbn in E; [| | | |now destruct a]; injection E as <-; cbn; lia.
    + intros [|[|[|a]]] d E; cbn in E; [| | |now destruct a]; injection E as <-; constructor; cbn; auto; lia.
    + intros [|a] t E; discriminate.
  - split; cbn; repeat (apply Forall_cons || apply Forall_nil); cbn; try (eexists; reflexivity); discriminate.
  - match goal with |- context [construct ?m ?s ?c ?h] => let r := eval vm_compute in (construct m s c h) in
      match r with Ok (?s0, ?h1) => exists s0, h1;
        let r2 := eval vm_compute in (store_copy 1 s0 h1) in match r2 with Ok (?s1, ?h2) =>
          let r3 := eval vm_compute in (nth_error (trs h2) s1) in match r3 with Some ?t => exists s1, h2, t end end end end.
    split; [vm_compute; reflexivity|]. split; [vm_compute; reflexivity|]. split; [reflexivity|]. split; [|split; [|split]; vm_compute; reflexivity].
    repeat (apply Forall_cons || apply Forall_nil); cbn; unfold out, out_dict; cbn; try lia.
    split; [intros []; lia|]. repeat (apply Forall_cons || apply Forall_nil). cbn. intros []. cbn in *. lia.
Qed.

(* ---------------- a transition that cannot be copied ---------------- *)
From Verif Require Import Spec.BufferSpec Proofs.BufferProofs.
Notation after ok cap eps := (b_run ok (b_new cap) (map BStore eps)).
Section Fail.
  Context {T : Type}.
  Variables (ok : T -> bool) (copy : T -> option T).
  Definition copies (l l' : list T) : Prop := Forall2 (fun x y => copy x = Some y) l l'.
  Lemma st_copy_all ep ep' : copies ep ep' -> forall s, st_store_copy copy s ep = st_store_loop s ep'.
  Proof.
    induction 1 as [|x y ep ep' C F IH]; intros s; cbn; auto. rewrite C. destruct (st_store1 s y) as [s1 [p|e]]; auto. now rewrite IH.
  Qed.
  Lemma st_copy_fail bad post pre pre' : copies pre pre' -> copy bad = None -> forall s W, StInv s W ->
    exists s1, st_store_copy copy s (pre ++ bad :: post) = (s1, Err ERuntime) /\ st_cap s1 = st_cap s /\ StInv s1 (W ++ pre').
  Proof.
    intros P B. induction P as [|x y pre pre' C F IH]; intros s W I; cbn.
    - rewrite B, app_nil_r. eauto.
    - rewrite C. destruct (st_store1_inv y I) as (s1 & E1 & C1 & I1). rewrite E1. destruct (IH _ _ I1) as (s2 & E2 & C2 & I2). rewrite E2.
      exists s2. split; auto. split; [congruence|]. now rewrite <- app_assoc in I2.
  Qed.
End Fail.

(* It is not so: the refusal comes in the middle of the loop. The transitions before the one which cannot be copied
   are in the storage, over the oldest ones, while the tables of handles still speak of these; so that as soon as there
   is no room beside the retained episodes, a handle of a retained episode leads to a transition of the refused one. *)
Theorem C199_refuted : forall T (ok : T -> bool) (copy : T -> option T) cap eps pre pre' bad post,
  0 < cap -> (forall e, In e eps -> length e <= cap) ->
  forallb ok (pre ++ bad :: post) = true -> copies copy pre pre' -> copy bad = None -> length pre <= cap ->
  let b := after ok cap eps in
  let (b', r) := b_store_copy ok copy b (pre ++ bad :: post) in
  let n := total (accepted ok eps) in let kept := total (retained cap (accepted ok eps)) in
  r = Err ERuntime /\ b_ten b' = b_ten b /\ b_eth b' = b_eth b /\
  length (st_data (b_st b')) = Nat.min (n + length pre) cap /\
  (forall k x, nth_error pre' k = Some x -> nth_error (st_data (b_st b')) ((n + k) mod cap) = Some x) /\
  (0 < kept -> cap < kept + length pre ->
   exists h x, In h (dkeys (b_ten b')) /\ In x pre' /\ nth_error (st_data (b_st b')) h = Some x).
Proof.
  intros T ok copy cap eps pre pre' bad post C L K P B LP. cbn zeta. set (b := after ok cap eps).
  pose proof (run_inv ok eps C L : Inv cap b _) as I.
  destruct (st_copy_fail bad post P B (iv_st I)) as (s1 & E1 & C1 & [_ SL _ SD]).
  unfold b_store_copy. destruct (pre ++ bad :: post) as [|x0 r0] eqn:EP; [now destruct pre|]. rewrite K. cbn [negb]. rewrite E1.
  rewrite (iv_cap I) in C1. rewrite C1 in *. rewrite app_length in *. fold (total (accepted ok eps)) in *.
  assert (LL : length pre' = length pre) by (clear - P; induction P; cbn; congruence). rewrite LL in *. cbn [b_ten b_eth b_st].
  assert (Q : forall k x, nth_error pre' k = Some x -> nth_error (st_data s1) ((total (accepted ok eps) + k) mod cap) = Some x).
  { intros k x E. assert (k < length pre) by (rewrite <- LL; apply nth_error_Some; congruence). rewrite SD by lia.
    unfold total. rewrite nth_error_app2 by lia. replace (_ + k - _) with k by lia. exact E. }
  do 3 (split; [reflexivity|]). split; [exact SL|]. split; [exact Q|]. intros KP OV.
  destruct (keys_of_inv I) as (a & KA & AT & AC & _). set (n := total (accepted ok eps)) in *. set (kept := total (retained cap (accepted ok eps))) in *.
  destruct (nth_error pre' (cap - kept)) as [x|] eqn:E; [|apply nth_error_None in E; lia].
  exists (a mod cap), x. split; [|split].
  - rewrite KA. unfold modseq. apply in_map_iff. exists a. split; [reflexivity|]. apply in_seq. lia.
  - eapply nth_error_In; eauto.
  - rewrite <- (Q _ _ E). f_equal. replace (n + (cap - kept)) with (a + 1 * cap) by lia. now rewrite Nat.mod_add by lia.
Qed.
Print Assumptions C199_refuted.

(* When every transition can be copied the copies are stored as in Model/Buffer.v; when the first one cannot, only an
   episode number is lost. *)
Theorem C199_partial : forall T (ok : T -> bool) (copy : T -> option T) (b : buffer T),
  (forall ep ep', copies copy ep ep' -> (forall x y, In x ep -> copy x = Some y -> ok y = ok x) ->
     b_store_copy ok copy b ep = b_store_episode ok b ep') /\
  (forall bad post, copy bad = None ->
     let (b', r) := b_store_copy ok copy b (bad :: post) in
     r = Err (if forallb ok (bad :: post) then ERuntime else EValue) /\
     b_st b' = b_st b /\ b_ten b' = b_ten b /\ b_eth b' = b_eth b).
Proof.
  intros T ok copy b. split.
  - intros ep ep' C K. assert (KE : forallb ok ep' = forallb ok ep).
    { clear b. induction C as [|x y ep ep' E F IH]; cbn; auto. rewrite IH by (intros; apply K; cbn; auto). now rewrite (K x y) by (cbn; auto). }
    unfold b_store_copy, b_store_episode, st_store_episode. rewrite KE, (st_copy_all C). destruct C as [|x y ep ep' E F]; auto.
    destruct (negb (forallb ok (x :: ep))); auto. destruct (st_store_loop (b_st b) (y :: ep')) as [s1 [hs|e]]; auto. destruct (has_dup hs); auto.
  - intros bad post B. unfold b_store_copy. destruct (forallb ok (bad :: post)); cbn [negb]; [cbn [st_store_copy]; rewrite B|]; auto.
Qed.
Print Assumptions C199_partial.

(* room for three, two stored, an episode of two plus one that cannot be copied: the oldest of them is gone *)
Example C199_nonvacuous :
  let copy := fun n => if n <? 9 then Some n else None in
  let b := after (fun _ : nat => true) 3 [[1; 2]] in
  let b' := fst (b_store_copy (fun _ => true) copy b [6; 7; 9]) in
  snd (b_store_copy (fun _ => true) copy b [6; 7; 9]) = Err ERuntime /\
  sample_all b = Ok (2, [1; 2]) /\ sample_all b' = Ok (2, [7; 2]) /\ sample_all (fst (b_store_copy (fun _ => true) copy b [9])) = Ok (2, [1; 2]).
Proof. repeat split. Qed.
