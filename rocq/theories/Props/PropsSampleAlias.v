(* C200, C201: what a sampled batch shares with the storage, and the device it is on. *)
From Verif Require Import Model.SampleAlias Props.PropsStoreCopy.
Set Implicit Arguments.

(* ---------------- specification ---------------- *)
Section Spec.
  Context {X : Type}.
  (* the attribute of a transition, and the tensor under a key of an attribute which is a dictionary *)
  Definition attribute (t : tran X) (k : string) : option (slot X) := dget k (a_maj t ++ a_sub t ++ a_cus t).
  Definition entry (h : heap X) (t : tran X) (k sk : string) (a : nat) : Prop :=
    exists i d, attribute t k = Some (SDict i) /\ nth_error (dicts h) i = Some d /\ dget sk d = Some a.
  Definition is_major (t : tran X) (k : string) : Prop := In k (dkeys (a_maj t)).
  Definition is_sub (t : tran X) (k : string) : Prop := In k (dkeys (a_sub t)) /\ ~ is_major t k.
  Definition is_custom (t : tran X) (k : string) : Prop := In k (dkeys (a_cus t)) /\ ~ is_major t k /\ ~ In k (dkeys (a_sub t)).
  (* a tensor which was not there, with memory which was not there *)
  Definition fresh (h h1 : heap X) (dev a : nat) : Prop :=
    exists t, nth_error (tens h1) a = Some t /\ length (tens h) <= a /\ length (cells h) <= t_cell t /\ t_dev t = dev.
  (* the i-th row of the tensors shows what the i-th transition shows *)
  Definition collected (h : heap X) (batch : list (tran X)) (k sk : string) (xs : list X) : Prop :=
    Forall2 (fun t x => exists a, entry h t k sk a /\ show_ten h a = Some x) batch xs.
  (* moved tensors: the stored one if it is there already *)
  Definition moved (h h1 : heap X) (dev a b : nat) : Prop :=
    ten_on dev h1 b /\ show_ten h1 b = show_ten h a /\ (ten_on dev h a -> b = a) /\ (~ ten_on dev h a -> fresh h h1 dev b).
End Spec.

Section Sample.
  Context {X : Type}.
  Variables (cat mk : list X -> option X) (dev : nat) (conc : bool) (extra : list string).
  Variable h0 : heap X.
  Hypothesis W : wf h0.

  Lemma mem_in k l : mem k l = true <-> In k l.
  Proof. unfold mem. rewrite existsb_exists. split; [intros (x & I & E); apply String.eqb_eq in E; now subst|]. intros I. exists k. split; auto. apply String.eqb_refl. Qed.
  Lemma mem_not k l : mem k l = false <-> ~ In k l.
  Proof. rewrite <- mem_in. destruct (mem k l); split; congruence. Qed.
  Lemma show_mono h h1 a (x : X) : App h h1 -> show_ten h a = Some x -> show_ten h1 a = Some x.
  Proof.
    intros (C & T & _) E. unfold show_ten in *. destruct (nth_error (tens h) a) as [t|] eqn:Et; [|discriminate].
    rewrite (@pre_nth _ _ _ _ _ T Et). eapply pre_nth; eauto.
  Qed.
  Lemma show_some a : a < length (tens h0) -> exists x, show_ten h0 a = Some x.
  Proof.
    intros L. unfold show_ten. destruct (nth_error (tens h0) a) as [t|] eqn:E; [|apply nth_error_None in E; lia].
    destruct W as (W1 & _). specialize (W1 _ _ E). destruct (nth_error (cells h0) (t_cell t)) eqn:F; [eauto|apply nth_error_None in F; lia].
  Qed.
  Lemma fresh_mono a b c d i : App a b -> App c d -> fresh b c dev i -> fresh (X := X) a d dev i.
  Proof.
    intros (C & T & _) (_ & T' & _) (t & E & L & M & D). exists t. pose proof (pre_len C). pose proof (pre_len T). split; [eapply pre_nth; eauto|]. split; [lia|]. split; [lia|auto].
  Qed.
  Lemma on_mono h h1 a : App h h1 -> ten_on dev h a -> ten_on (X := X) dev h1 a.
  Proof. intros (_ & T & _) (t & E & D). exists t. split; auto. eapply pre_nth; eauto. Qed.
  Lemma on_old h a : App h0 h -> a < length (tens h0) -> ten_on (X := X) dev h a -> ten_on dev h0 a.
  Proof. intros (_ & T & _) L (t & E & D). exists t. split; auto. rewrite <- E. symmetry. now apply pre_lt. Qed.

  Lemma move_cases a (h : heap X) b h1 : move dev a h = Ok (b, h1) -> App h h1 /\ ten_on dev h1 b /\
    (forall x, show_ten h a = Some x -> show_ten h1 b = Some x) /\ (ten_on dev h a -> b = a) /\ (~ ten_on dev h a -> fresh h h1 dev b).
  Proof.
    unfold move. destruct (nth_error (tens h) a) as [t|] eqn:E; [|discriminate]. destruct (Nat.eqb_spec (t_dev t) dev) as [D|D].
    - intros H. injection H as <- <-. split; [apply App_refl|]. split; [exists t; auto|]. split; auto. split; auto. intros N. destruct N. exists t. auto.
    - destruct (nth_error (cells h) (t_cell t)) as [x|] eqn:F; [|discriminate]. intros H. injection H as <- <-.
      split; [repeat split; cbn; try apply pre_refl; apply pre_snoc|]. split; [eexists; split; [apply nth_snoc|reflexivity]|].
      split; [|split].
      + intros y. unfold show_ten. rewrite E. cbn. rewrite nth_snoc. cbn. rewrite nth_snoc. congruence.
      + intros (t' & E' & D'). congruence.
      + intros _. eexists. split; [apply nth_snoc|]. cbn. auto.
  Qed.
  Lemma move_all_ok l : forall (h : heap X) l1 h1, move_all dev l h = Ok (l1, h1) -> App h h1 /\
    Forall2 (fun a b => forall x, show_ten h a = Some x -> show_ten h1 b = Some x) l l1.
  Proof.
    induction l as [|a l IH]; intros h l1 h1; cbn [move_all].
    - intros H. injection H as <- <-. split; [apply App_refl|constructor].
    - destruct (move dev a h) as [[b h2]|] eqn:E; [|discriminate]. cbn [bind fst snd]. destruct (move_all dev l h2) as [[l2 h3]|] eqn:E2; [|discriminate].
      cbn. intros H. injection H as <- <-. apply move_cases in E as (A & _ & S & _). apply IH in E2 as (A2 & F).
      split; [eapply App_trans; eauto|]. constructor.
      + intros x Hx. eapply show_mono; eauto.
      + eapply F2_impl; [|exact F]. intros i j Hi x Hx. apply Hi. eapply show_mono; eauto.
  Qed.
  Lemma values_ok l : forall (h : heap X) xs, values l h = Ok xs -> Forall2 (fun a x => show_ten h a = Some x) l xs.
  Proof.
    induction l as [|a l IH]; intros h xs; cbn [values].
    - intros H. injection H as <-. constructor.
    - destruct (nth_error (tens h) a) as [t|] eqn:E; [|discriminate]. destruct (nth_error (cells h) (t_cell t)) as [x|] eqn:F; [|discriminate].
      destruct (values l h) as [ys|] eqn:G; [|discriminate]. cbn. intros H. injection H as <-. constructor; auto. unfold show_ten. now rewrite E.
  Qed.
  Lemma fresh_ten_ok x (h : heap X) : App h (snd (fresh_ten dev x h)) /\ exists a, fst (fresh_ten dev x h) = RTen a /\
    fresh h (snd (fresh_ten dev x h)) dev a /\ show_ten (snd (fresh_ten dev x h)) a = Some x.
  Proof.
    cbn. split; [repeat split; cbn; try apply pre_refl; apply pre_snoc|]. eexists. split; [reflexivity|]. split.
    - eexists. split; [apply nth_snoc|]. cbn. auto.
    - unfold show_ten. cbn. rewrite nth_snoc. cbn. apply nth_snoc.
  Qed.
  Lemma tens_of_map l : tens_of (map (@STen X) l) = Ok l.
  Proof. induction l; cbn; auto. now rewrite IHl. Qed.
  Lemma make_true l (h : heap X) r h1 : l <> [] -> make_tensor cat mk dev true l h = Ok (r, h1) -> App h h1 /\ exists a, r = RTen a /\ fresh h h1 dev a.
  Proof.
    intros N H. destruct l as [|[i|i|x] l]; [congruence| | |]; cbn [make_tensor] in H.
    - cbn in H. discriminate.
    - destruct (tens_of (STen i :: l)) as [as_|]; [|discriminate]. cbn [bind] in H. destruct (move_all dev as_ h) as [[l1 h2]|] eqn:E; [|discriminate].
      cbn [bind fst snd] in H. destruct (values l1 h2) as [xs|]; [|discriminate]. cbn [bind] in H. destruct (cat xs) as [x|]; [|discriminate].
      apply move_all_ok in E as (A & _). injection H as <- <-. destruct (fresh_ten_ok x h2) as (A2 & a & E & F & _). cbn [fst snd fresh_ten] in *.
      split; [eapply App_trans; eauto|]. exists a. split; auto. eapply fresh_mono; [exact A|apply App_refl|exact F].
    - destruct (plain_of (SVal x :: l)) as [xs|]; [|discriminate]. cbn [bind] in H. destruct (mk xs) as [y|]; [|discriminate].
      injection H as <- <-. destruct (fresh_ten_ok y h) as (A2 & a & E & F & _). split; auto. exists a. split; auto.
  Qed.
  Lemma make_cat l (h : heap X) r h1 : l <> [] -> make_tensor cat mk dev true (map (@STen X) l) h = Ok (r, h1) ->
    (forall a, In a l -> exists x, show_ten h a = Some x) ->
    exists a xs, r = RTen a /\ Forall2 (fun a x => show_ten h a = Some x) l xs /\ cat xs = show_ten h1 a /\ exists x, cat xs = Some x.
  Proof.
    intros N H S. destruct l as [|i l]; [congruence|]. cbn [map make_tensor] in H. change (STen i :: map (@STen X) l) with (map (@STen X) (i :: l)) in H.
    rewrite tens_of_map in H. cbn [bind] in H. destruct (move_all dev (i :: l) h) as [[l1 h2]|] eqn:E; [|discriminate].
    cbn [bind fst snd] in H. destruct (values l1 h2) as [xs|] eqn:V; [|discriminate]. cbn [bind] in H. destruct (cat xs) as [x|] eqn:C; [|discriminate].
    apply move_all_ok in E as (_ & F). apply values_ok in V. injection H as <- <-. destruct (fresh_ten_ok x h2) as (_ & a & E & _ & S2).
    exists a, xs. split; auto. split; [|split; [rewrite C; symmetry; exact S2|eauto]].
    remember (i :: l) as L eqn:EL. clear - F V S. revert xs V. induction F as [|p q L l1 P F IH]; intros xs V; inversion V as [|q' y l' ys Vq Vs]; subst; constructor.
    - destruct (S p (or_introl eq_refl)) as [z Hz]. rewrite (P _ Hz) in Vq. congruence.
    - apply IH; auto. intros; apply S; right; auto.
  Qed.
  Lemma make_false l (h : heap X) : make_tensor cat mk dev false l h = Ok (RList l, h).
  Proof. reflexivity. Qed.
  Lemma make_app c l (h : heap X) r h1 : make_tensor cat mk dev c l h = Ok (r, h1) -> App h h1.
  Proof.
    destruct c; [|intros H; injection H as _ <-; apply App_refl]. destruct l as [|v l]; [intros H; injection H as _ <-; apply App_refl|].
    intros H. now apply make_true in H.
  Qed.

  (* ---- columns ---- *)
  Lemma wf_entry i d sk b : nth_error (dicts h0) i = Some d -> dget sk d = Some b -> b < length (tens h0).
  Proof.
    intros E G. destruct W as (_ & W2 & _). specialize (W2 _ _ E). rewrite Forall_forall in W2. apply dget_Some_In in G. exact (W2 _ G).
  Qed.
  Lemma wf_attribute t k i : wf_tran h0 t -> attribute t k = Some (SDict i) -> i < length (dicts h0).
  Proof.
    intros (A & B & C) E. unfold attribute in E. apply dget_Some_In in E. unfold wf_slots in *. rewrite !Forall_forall in *.
    rewrite !in_app_iff in E. destruct E as [E|[E|E]]; [apply A in E|apply B in E|apply C in E]; exact E.
  Qed.
  Lemma col_major_ok k sk batch : Forall (wf_tran h0) batch -> forall h l h1, App h0 h -> col_major dev k sk batch h = Ok (l, h1) ->
    App h h1 /\ Forall2 (fun t b => exists a, entry h0 t k sk a /\ moved h0 h1 dev a b) batch l.
  Proof.
    induction 1 as [|t batch Wt F IH]; intros h l h1 A H; cbn [col_major] in H.
    - injection H as <- <-. split; [apply App_refl|constructor].
    - unfold attr_of in H. fold (attribute t k) in H. destruct (attribute t k) as [v|] eqn:Ea; [|discriminate]. cbn [bind] in H.
      destruct v as [i|i|x]; try discriminate. pose proof (wf_attribute _ Wt Ea) as Li.
      assert (Ei : nth_error (dicts h) i = nth_error (dicts h0) i) by (destruct A as (_ & _ & D & _); now apply pre_lt). rewrite Ei in H.
      destruct (nth_error (dicts h0) i) as [d|] eqn:Ed; [|discriminate]. destruct (dget sk d) as [a|] eqn:Eg; [|discriminate].
      pose proof (wf_entry _ _ Ed Eg) as La. destruct (move dev a h) as [[b h2]|] eqn:Em; [|discriminate]. cbn [bind fst snd] in H.
      destruct (col_major dev k sk batch h2) as [[l2 h3]|] eqn:Ec; [|discriminate]. cbn in H. injection H as <- <-.
      apply move_cases in Em as (A1 & On & S & Q1 & Q2). destruct (IH h2 l2 h3 (App_trans A A1) Ec) as (A2 & F2).
      split; [eapply App_trans; eauto|]. constructor; auto. exists a. split; [exists i, d; auto|].
      destruct (show_some La) as [x Sx]. split; [eapply on_mono; eauto|]. split; [|split].
      + rewrite Sx. eapply show_mono; eauto. apply S. eapply show_mono; eauto.
      + intros O. apply Q1. eapply on_mono; eauto.
      + intros O. eapply fresh_mono; [exact A|exact A2|]. apply Q2. intros O'. apply O. eapply on_old; eauto.
  Qed.
  Definition cats (h h1 : heap X) (batch : list (tran X)) (k sk : string) (r : rv X) : Prop :=
    exists a xs, r = RTen a /\ fresh h h1 dev a /\ collected h batch k sk xs /\ cat xs = show_ten h1 a.
  Definition lists (h h1 : heap X) (batch : list (tran X)) (k sk : string) (r : rv X) : Prop :=
    exists l, r = RList (map (@STen X) l) /\ Forall2 (fun t b => exists a, entry h t k sk a /\ moved h h1 dev a b) batch l.
  Lemma moved_mono h h1 a b : App h h1 -> moved h0 h dev a b -> (exists x, show_ten h0 a = Some x) -> moved h0 h1 dev a b.
  Proof.
    intros A (O & S & P & Q) [x Sx]. split; [eapply on_mono; eauto|]. split; [rewrite Sx in *; eapply show_mono; eauto|]. split; auto.
    intros N. eapply fresh_mono; [apply App_refl|exact A|auto].
  Qed.
  Lemma cats_mono batch k sk r h h1 : App h h1 -> (exists x a, r = RTen a /\ show_ten h a = Some x) -> cats h0 h batch k sk r -> cats h0 h1 batch k sk r.
  Proof.
    intros A (x & a' & E & Sx) (a & xs & -> & Fr & C & V). injection E as <-. exists a, xs. split; auto. split; [eapply fresh_mono; [apply App_refl|exact A|auto]|].
    split; auto. rewrite V, Sx. symmetry. eapply show_mono; eauto.
  Qed.
  Lemma do_major_ok k batch : batch <> [] -> Forall (wf_tran h0) batch -> forall sks h d h1, App h0 h ->
    do_major cat mk dev conc k sks batch h = Ok (d, h1) -> App h h1 /\ dkeys d = sks /\
    forall sk r, In (sk, r) d -> if conc then cats h0 h1 batch k sk r /\ (exists x a, r = RTen a /\ show_ten h1 a = Some x) else lists h0 h1 batch k sk r.
  Proof.
    intros N F. induction sks as [|sk sks IH]; intros h d h1 A H; cbn [do_major] in H.
    - injection H as <- <-. split; [apply App_refl|]. split; auto. intros ? ? [].
    - destruct (col_major dev k sk batch h) as [[l h2]|] eqn:Ec; [|discriminate]. cbn [bind fst snd] in H.
      destruct (make_tensor cat mk dev conc (map (@STen X) l) h2) as [[r h3]|] eqn:Em; [|discriminate]. cbn [bind fst snd] in H.
      destruct (do_major cat mk dev conc k sks batch h3) as [[d' h4]|] eqn:Ed; [|discriminate]. cbn in H. injection H as <- <-.
      destruct (col_major_ok _ _ F A Ec) as (A2 & F2). pose proof (make_app _ _ _ Em) as A3.
      destruct (IH h3 d' h4 (App_trans A (App_trans A2 A3)) Ed) as (A4 & K & Q).
      split; [eapply App_trans; [exact A2|eapply App_trans; eauto]|]. split; [unfold dkeys in *; cbn; now rewrite K|].
      intros sk' r' [E|I]; [injection E as <- <-|now apply Q].
      assert (Old : forall t a, In t batch -> entry h0 t k sk a -> exists x, show_ten h0 a = Some x).
      { intros t a It (i & dd & E1 & E2 & E3). apply show_some. eapply wf_entry; eauto. }
      assert (Nl : l <> []) by (destruct F2; congruence). destruct conc.
      + destruct (make_cat h2 Nl Em) as (a & xs & -> & Fx & Cx & (x & Sx)).
        { clear - F2 Old. induction F2 as [|t b batch l (a & Ea & (_ & S & _)) F2 IH]; intros i []; [subst; rewrite S; eapply Old; eauto; now left|].
          apply IH; auto. intros; eapply Old; eauto. now right. }
        assert (Nl' : map (@STen X) l <> []) by (destruct l; [congruence|discriminate]).
        destruct (make_true h2 Nl' Em) as (_ & a' & E & Fr). injection E as <-.
        assert (Sa : show_ten h3 a = Some x) by congruence.
        split; [|exists x, a; split; auto; eapply show_mono; eauto].
        apply (@cats_mono batch k sk (RTen a) h3 h4 A4); [eauto|]. exists a, xs. split; auto.
        split; [eapply fresh_mono; [exact (App_trans A A2)|apply App_refl|exact Fr]|]. split; auto.
        clear - F2 Fx. unfold collected. revert xs Fx. induction F2 as [|t b batch l (a & Ea & (_ & S & _)) F2 IH]; intros xs Fx; inversion Fx; subst; constructor; auto.
        exists a. split; auto. congruence.
      + rewrite make_false in Em. injection Em as <- <-. exists l. split; auto. clear - F2 A4 Old. induction F2 as [|t b batch l (a & Ea & M) F2 IH]; constructor.
        * exists a. split; auto. eapply moved_mono; [exact A4|exact M|]. eapply Old; eauto. now left.
        * apply IH. intros; eapply Old; eauto. now right.
  Qed.
  Lemma col_ok k (batch : list (tran X)) l : col k batch = Ok l -> Forall2 (fun t v => attribute t k = Some v) batch l.
  Proof.
    revert l. induction batch as [|t batch IH]; intros l; cbn [col].
    - intros H. injection H as <-. constructor.
    - unfold attr_of. fold (attribute t k). destruct (attribute t k) as [v|] eqn:E; [|discriminate]. cbn [bind].
      destruct (col k batch) as [q|]; [|discriminate]. cbn. intros H. injection H as <-. constructor; auto.
  Qed.
  Definition plain (batch : list (tran X)) (k : string) (r : rv X) : Prop := exists l, r = RList l /\ Forall2 (fun t v => attribute t k = Some v) batch l.
  Definition newten (h h1 : heap X) (r : rv X) : Prop := exists a, r = RTen a /\ fresh h h1 dev a.
  Lemma do_list_ok c k batch (h : heap X) r h1 : batch <> [] -> do_list cat mk dev c k batch h = Ok (r, h1) -> App h h1 /\
    if c then newten h h1 r else plain batch k r.
  Proof.
    intros N H. unfold do_list in H. destruct (col k batch) as [l|] eqn:E; [|discriminate]. cbn [bind] in H. apply col_ok in E.
    split; [eapply make_app; eauto|]. destruct c.
    - apply make_true in H as (_ & Q); [exact Q|]. destruct E; congruence.
    - rewrite make_false in H. injection H as <- <-. exists l. auto.
  Qed.
  Lemma newten_mono a b c d r : App a b -> App c d -> newten b c r -> newten a d r.
  Proof. intros A B (i & -> & F). exists i. split; auto. eapply fresh_mono; eauto. Qed.
  Lemma do_star_ok used batch : batch <> [] -> forall names h d h1, do_star cat mk dev conc extra names used batch h = Ok (d, h1) -> App h h1 /\
    forall k r, In (k, r) d -> if conc && mem k extra then newten h h1 r else plain batch k r.
  Proof.
    intros N. induction names as [|k names IH]; intros h d h1 H; cbn [do_star] in H.
    - injection H as <- <-. split; [apply App_refl|]. intros ? ? [].
    - destruct (mem k used); [now apply IH|]. destruct (do_list cat mk dev (conc && mem k extra) k batch h) as [[r h2]|] eqn:E; [|discriminate]. cbn [bind fst snd] in H.
      destruct (do_star cat mk dev conc extra names used batch h2) as [[d' h3]|] eqn:E2; [|discriminate]. cbn in H. injection H as <- <-.
      apply do_list_ok in E as (A & Q); auto. apply IH in E2 as (A2 & Q2). split; [eapply App_trans; eauto|].
      intros k' r' [I|I].
      + injection I as <- <-. destruct (conc && mem k extra); auto. eapply newten_mono; [apply App_refl|exact A2|auto].
      + specialize (Q2 _ _ I). destruct (conc && mem k' extra); auto. eapply newten_mono; [exact A|apply App_refl|auto].
  Qed.

  (* ---- the whole batch ---- *)
  Definition item (h1 : heap X) (batch : list (tran X)) (t0 : tran X) (k : string) (o : ro X) : Prop :=
    (is_major t0 k -> exists d, o = RDict d /\ (forall i dd, attribute t0 k = Some (SDict i) -> nth_error (dicts h0) i = Some dd -> dkeys d = dkeys dd) /\
       forall sk r, In (sk, r) d -> if conc then cats h0 h1 batch k sk r else lists h0 h1 batch k sk r) /\
    (is_sub t0 k -> exists r, o = RVal r /\ if conc then newten h0 h1 r else plain batch k r) /\
    (is_custom t0 k -> exists r, o = RVal r /\ if conc && mem k extra then newten h0 h1 r else plain batch k r) /\
    (~ is_major t0 k -> ~ is_sub t0 k -> ~ is_custom t0 k -> k = "*"%string /\ exists d, o = RDict d /\
       forall k' r, In (k', r) d -> if conc && mem k' extra then newten h0 h1 r else plain batch k' r).
  Lemma pp_ok t0 batch : batch <> [] -> Forall (wf_tran h0) batch -> wf_tran h0 t0 -> forall attrs used h out h1, App h0 h ->
    pp cat mk dev conc extra t0 attrs used batch h = Ok (out, h1) -> App h h1 /\ forall k o, In (k, o) out -> item h1 batch t0 k o.
  Proof.
    intros N F W0. assert (Old : forall k sk t a, In t batch -> entry h0 t k sk a -> exists x, show_ten h0 a = Some x).
    { intros k sk t a It (i & dd & E1 & E2 & E3). apply show_some. eapply wf_entry; eauto. }
    induction attrs as [|k attrs IH]; intros used h out h1 A H; cbn [pp] in H.
    - injection H as <- <-. split; [apply App_refl|]. intros ? ? [].
    - destruct (mem k (dkeys (a_maj t0))) eqn:M1.
      { apply mem_in in M1. unfold attr_of in H. fold (attribute t0 k) in H. destruct (attribute t0 k) as [v|] eqn:Ea; [|discriminate]. cbn [bind] in H.
        destruct v as [i|i|x]; try discriminate. pose proof (wf_attribute _ W0 Ea) as Li.
        assert (Ei : nth_error (dicts h) i = nth_error (dicts h0) i) by (destruct A as (_ & _ & D & _); now apply pre_lt). rewrite Ei in H.
        destruct (nth_error (dicts h0) i) as [dd|] eqn:Ed; [|discriminate].
        destruct (do_major cat mk dev conc k (dkeys dd) batch h) as [[d h2]|] eqn:Em; [|discriminate]. cbn [bind fst snd] in H.
        destruct (pp cat mk dev conc extra t0 attrs (k :: used) batch h2) as [[o' h3]|] eqn:Ep; [|discriminate]. cbn in H. injection H as <- <-.
        destruct (do_major_ok _ N F _ A Em) as (A2 & K & Q). destruct (IH _ _ _ _ (App_trans A A2) Ep) as (A3 & Q3).
        split; [eapply App_trans; eauto|]. intros k' o [I|I]; [injection I as <- <-|now apply Q3].
        split; [|split; [|split]]; [|intros; exfalso; unfold is_custom, is_sub, is_major in *; tauto..].
        intros _. exists d. split; auto. split; [intros i' dd' E1 E2; congruence|]. intros sk r I. specialize (Q _ _ I). destruct conc.
        - destruct Q as (Q & x & a & E & Sx). eapply cats_mono; eauto.
        - destruct Q as (l & -> & F2). exists l. split; auto.
          assert (Olds : forall t a, In t batch -> entry h0 t k sk a -> exists x, show_ten h0 a = Some x) by (intros; eapply Old; eauto).
          clear - F2 A3 Olds. induction F2 as [|t b batch l (a & Ea & M) F2 IH]; constructor.
          + exists a. split; auto. eapply moved_mono; [exact A3|exact M|]. eapply Olds; eauto. now left.
          + apply IH. intros; eapply Olds; eauto. now right. }
      apply mem_not in M1. destruct (mem k (dkeys (a_sub t0))) eqn:M2.
      { apply mem_in in M2. destruct (do_list cat mk dev conc k batch h) as [[r h2]|] eqn:Em; [|discriminate]. cbn [bind fst snd] in H.
        destruct (pp cat mk dev conc extra t0 attrs (k :: used) batch h2) as [[o' h3]|] eqn:Ep; [|discriminate]. cbn in H. injection H as <- <-.
        apply do_list_ok in Em as (A2 & Q); auto. destruct (IH _ _ _ _ (App_trans A A2) Ep) as (A3 & Q3).
        split; [eapply App_trans; eauto|]. intros k' o [I|I]; [injection I as <- <-|now apply Q3].
        split; [|split; [|split]]; [intros; exfalso; unfold is_custom, is_sub, is_major in *; tauto| |intros; exfalso; unfold is_custom, is_sub, is_major in *; tauto..].
        intros _. exists r. split; auto. destruct conc; auto. eapply newten_mono; eauto. }
      apply mem_not in M2. destruct (mem k (dkeys (a_cus t0))) eqn:M3.
      { apply mem_in in M3. destruct (do_list cat mk dev (conc && mem k extra) k batch h) as [[r h2]|] eqn:Em; [|discriminate]. cbn [bind fst snd] in H.
        destruct (pp cat mk dev conc extra t0 attrs (k :: used) batch h2) as [[o' h3]|] eqn:Ep; [|discriminate]. cbn in H. injection H as <- <-.
        apply do_list_ok in Em as (A2 & Q); auto. destruct (IH _ _ _ _ (App_trans A A2) Ep) as (A3 & Q3).
        split; [eapply App_trans; eauto|]. intros k' o [I|I]; [injection I as <- <-|now apply Q3].
        split; [|split; [|split]]; [intros; exfalso; unfold is_custom, is_sub, is_major in *; tauto|intros; exfalso; unfold is_custom, is_sub, is_major in *; tauto| |intros; exfalso; unfold is_custom, is_sub, is_major in *; tauto].
        intros _. exists r. split; auto. destruct (conc && mem k extra); auto. eapply newten_mono; eauto. }
      apply mem_not in M3. destruct (String.eqb_spec k "*") as [->|Nk]; [|eapply IH; eauto].
      destruct (do_star cat mk dev conc extra (dkeys (a_cus t0)) used batch h) as [[d h2]|] eqn:Em; [|discriminate]. cbn [bind fst snd] in H.
      destruct (pp cat mk dev conc extra t0 attrs (dkeys (a_cus t0) ++ used) batch h2) as [[o' h3]|] eqn:Ep; [|discriminate]. cbn in H. injection H as <- <-.
      apply do_star_ok in Em as (A2 & Q); auto. destruct (IH _ _ _ _ (App_trans A A2) Ep) as (A3 & Q3).
      split; [eapply App_trans; eauto|]. intros k' o [I|I]; [injection I as <- <-|now apply Q3].
      split; [|split; [|split]]; [intros; exfalso; unfold is_custom, is_sub, is_major in *; tauto..|].
      intros _ _ _. split; auto. exists d. split; auto. intros k' r I. specialize (Q _ _ I). destruct (conc && mem k' extra); auto. eapply newten_mono; eauto.
  Qed.
End Sample.

(* ---------------- what the caller does with the sample ---------------- *)
Section Writes.
  Context {X : Type}.
  (* in-place operations: a memory cell and its new contents *)
  Definition write (ws : list (nat * X)) (h : heap X) : heap X := fold_left (fun h p => ustep h (UCell (fst p) (snd p))) ws h.
  Lemma App_write (h h1 : heap X) c x : App h h1 -> length (cells h) <= c -> App h (ustep h1 (UCell c x)).
  Proof. intros ((r & E) & T & D & R) L. repeat split; auto. cbn. rewrite E. exists (upd (c - length (cells h)) x r). now rewrite upd_app2 by auto. Qed.
  Lemma App_writes (h : heap X) ws : forall h1, App h h1 -> Forall (fun w => length (cells h) <= fst w) ws -> App h (write ws h1).
  Proof. induction ws as [|w ws IH]; intros h1 A F; [exact A|]. inversion F; subst. cbn. apply IH; auto. now apply App_write. Qed.
  Lemma App_show (h h1 : heap X) v : wf h -> App h h1 -> wf_slot h v -> show h1 v = show h v.
  Proof.
    intros W A V. assert (T : forall a, a < length (tens h) -> show_ten h1 a = show_ten h a).
    { intros a L. destruct (@show_some X h W a L) as [x Sx]. rewrite Sx. eapply show_mono; eauto. }
    destruct v as [a|a|x]; cbn in *; auto; [|now rewrite T].
    destruct A as (_ & _ & D & _). rewrite (pre_lt D V). destruct (nth_error (dicts h) a) as [d|] eqn:E; auto. cbn. do 2 f_equal.
    destruct W as (_ & W2 & _). specialize (W2 _ _ E). clear E. induction W2 as [|p d L F IH]; cbn; auto. now rewrite IH, T.
  Qed.
End Writes.

Section Claims.
  Context {X : Type}.
  Variables (cat mk : list X -> option X) (dev : nat) (extra : list string).
  Lemma sample_ok conc (h : heap X) t0 rest attrs out h1 : wf h -> Forall (wf_tran h) (t0 :: rest) ->
    post_process cat mk dev conc extra (t0 :: rest) attrs h = Ok (out, h1) ->
    App h h1 /\ exists l, out = Some l /\ forall k o, In (k, o) l -> item cat dev conc extra h h1 (t0 :: rest) t0 k o.
  Proof.
    intros W F H. unfold post_process in H. destruct (pp _ _ _ _ _ _ _ _ _ _) as [[l h2]|] eqn:E; [|discriminate]. cbn in H. injection H as <- <-.
    assert (N : t0 :: rest <> []) by discriminate. assert (F0 : wf_tran h t0) by now inversion F.
    destruct (@pp_ok X cat mk dev conc extra h W t0 _ N F F0 _ _ _ _ _ (App_refl h) E) as (A & Q). split; auto. exists l. auto.
  Qed.
End Claims.

(* Sampling never changes what is stored. With concatenation every major, sub and listed custom attribute of the sample is
   a tensor of its own: it holds the values of the transitions in the order of the batch, and whatever is written into
   such tensors, everything that was there shows the same as before. *)
Theorem C200_partial : forall X (cat mk : list X -> option X) dev extra (h : heap X) t0 rest attrs out h1,
  wf h -> Forall (wf_tran h) (t0 :: rest) ->
  post_process cat mk dev true extra (t0 :: rest) attrs h = Ok (Some out, h1) ->
  (forall k o, In (k, o) out -> is_major t0 k -> exists d, o = RDict d /\
     (forall i dd, attribute t0 k = Some (SDict i) -> nth_error (dicts h) i = Some dd -> dkeys d = dkeys dd) /\
     forall sk r, In (sk, r) d -> exists a xs, r = RTen a /\ fresh h h1 dev a /\ collected h (t0 :: rest) k sk xs /\ cat xs = show_ten h1 a) /\
  (forall k o, In (k, o) out -> is_sub t0 k \/ is_custom t0 k /\ In k extra -> exists a, o = RVal (RTen a) /\ fresh h h1 dev a) /\
  trs h1 = trs h /\
  forall ws, Forall (fun w => exists a t, fresh h h1 dev a /\ nth_error (tens h1) a = Some t /\ fst w = t_cell t) ws ->
  trs (write ws h1) = trs h /\ forall v, wf_slot h v -> show (write ws h1) v = show h v.
Proof.
  intros X cat mk dev extra h t0 rest attrs out h1 W F H. destruct (sample_ok _ _ _ _ _ _ W F H) as (A & l & E & Q). injection E as <-.
  split; [|split; [|split]].
  - intros k o I M. destruct (proj1 (Q _ _ I) M) as (d & -> & K & D). exists d. auto.
  - intros k o I [M|[M Me]]; destruct (Q _ _ I) as (_ & Q2 & Q3 & _).
    + destruct (Q2 M) as (r & -> & a & -> & Fr). eauto.
    + destruct (Q3 M) as (r & -> & D). apply mem_in in Me. rewrite Me in D. destruct D as (a & -> & Fr). eauto.
  - apply A.
  - intros ws Fw. assert (A' : App h (write ws h1)).
    { apply App_writes; auto. eapply Forall_impl; [|exact Fw]. intros w (a & t & (t' & E' & _ & L & _) & E & ->). congruence. }
    split; [apply A'|]. intros v V. now apply App_show.
Qed.
Print Assumptions C200_partial.

(* Without concatenation the sample consists of the stored tensors themselves as far as they are on the requested device:
   writing into it changes what the transition in the storage shows. Custom attributes which are not listed are the
   stored objects in any case. *)
Theorem C200_refuted : forall X (cat mk : list X -> option X) dev extra (h : heap X) t0 rest attrs out h1,
  wf h -> Forall (wf_tran h) (t0 :: rest) ->
  post_process cat mk dev false extra (t0 :: rest) attrs h = Ok (Some out, h1) ->
  forall k d sk r, In (k, RDict d) out -> is_major t0 k -> In (sk, r) d ->
  exists l, r = RList l /\ length l = length (t0 :: rest) /\
  forall i t a, nth_error (t0 :: rest) i = Some t -> entry h t k sk a -> ten_on dev h a ->
    nth_error l i = Some (STen a) /\
    forall c x, nth_error (tens h1) a = Some c -> show_ten (write [(t_cell c, x)] h1) a = Some x.
Proof.
  intros X cat mk dev extra h t0 rest attrs out h1 W F H k d sk r I M Is. destruct (sample_ok _ _ _ _ _ _ W F H) as (A & l & E & Q). injection E as <-.
  destruct (proj1 (Q _ _ I) M) as (d' & Ed & _ & D). injection Ed as <-. destruct (D _ _ Is) as (m & -> & F2). exists (map (@STen X) m). split; auto.
  split; [rewrite map_length; symmetry; clear - F2; induction F2; cbn; congruence|].
  intros i t a Et Ea On. split.
  - clear - F2 Et Ea On. revert i Et. induction F2 as [|t' b batch m (a' & Ea' & Mv) F2 IH]; intros [|i] Et; try discriminate; cbn in *; auto.
    injection Et as ->. f_equal. f_equal. destruct Mv as (_ & _ & P & _). destruct Ea as (j & dd & E1 & E2 & E3), Ea' as (j' & dd' & E1' & E2' & E3').
    assert (j' = j) by congruence. subst j'. assert (dd' = dd) by congruence. subst dd'. assert (a' = a) by congruence. subst a'. now apply P.
  - intros c x Ec. unfold show_ten. cbn. rewrite Ec. apply upd_same. destruct On as (c' & Ec' & _). destruct A as ((rc & Cc) & T & _).
    assert (c' = c) by (apply (@pre_nth _ _ _ _ _ T) in Ec'; congruence). subst c'. destruct W as (W1 & _). apply W1 in Ec'. rewrite Cc, app_length. lia.
Qed.
Print Assumptions C200_refuted.
Theorem C200_custom_refuted : forall X (cat mk : list X -> option X) dev conc extra (h : heap X) t0 rest attrs out h1,
  wf h -> Forall (wf_tran h) (t0 :: rest) ->
  post_process cat mk dev conc extra (t0 :: rest) attrs h = Ok (Some out, h1) ->
  (forall k o, In (k, o) out -> is_custom t0 k -> ~ In k extra ->
     exists l, o = RVal (RList l) /\ Forall2 (fun t v => attribute t k = Some v) (t0 :: rest) l) /\
  (forall d k r, In ("*"%string, RDict d) out -> ~ is_major t0 "*" -> ~ is_sub t0 "*" -> ~ is_custom t0 "*" -> In (k, r) d -> ~ In k extra ->
     exists l, r = RList l /\ Forall2 (fun t v => attribute t k = Some v) (t0 :: rest) l).
Proof.
  intros X cat mk dev conc extra h t0 rest attrs out h1 W F H. destruct (sample_ok _ _ _ _ _ _ W F H) as (A & l & E & Q). injection E as <-. split.
  - intros k o I M Ne. destruct (Q _ _ I) as (_ & _ & Q3 & _). destruct (Q3 M) as (r & -> & D). apply mem_not in Ne. rewrite Ne, Bool.andb_false_r in D.
    destruct D as (l & -> & F2). eauto.
  - intros d k r I M1 M2 M3 Ir Ne. destruct (Q _ _ I) as (_ & _ & _ & Q4). destruct (Q4 M1 M2 M3) as (_ & d' & Ed & D). injection Ed as <-.
    specialize (D _ _ Ir). apply mem_not in Ne. rewrite Ne, Bool.andb_false_r in D. exact D.
Qed.
Print Assumptions C200_custom_refuted.

(* Device: with concatenation every tensor made from major, sub and listed custom attributes is on the requested device, and
   so are the tensors of major attributes without concatenation. *)
Theorem C201_partial : forall X (cat mk : list X -> option X) dev conc extra (h : heap X) t0 rest attrs out h1,
  wf h -> Forall (wf_tran h) (t0 :: rest) ->
  post_process cat mk dev conc extra (t0 :: rest) attrs h = Ok (Some out, h1) ->
  (forall k d sk r, In (k, RDict d) out -> is_major t0 k -> In (sk, r) d ->
     if conc then exists a, r = RTen a /\ ten_on dev h1 a
     else exists l, r = RList (map (@STen X) l) /\ length l = length (t0 :: rest) /\ Forall (ten_on dev h1) l) /\
  (forall k o, In (k, o) out -> is_sub t0 k \/ is_custom t0 k /\ In k extra -> conc = true -> exists a, o = RVal (RTen a) /\ ten_on dev h1 a).
Proof.
  intros X cat mk dev conc extra h t0 rest attrs out h1 W F H. destruct (sample_ok _ _ _ _ _ _ W F H) as (A & l & E & Q). injection E as <-.
  assert (FO : forall a, fresh h h1 dev a -> ten_on dev h1 a) by (intros a (t & Et & _ & _ & D); exists t; auto). split.
  - intros k d sk r I M Is. destruct (proj1 (Q _ _ I) M) as (d' & Ed & _ & D). injection Ed as <-. specialize (D _ _ Is). destruct conc.
    + destruct D as (a & xs & -> & Fr & _). eauto.
    + destruct D as (m & -> & F2). exists m. split; auto. split; [clear - F2; induction F2; cbn; congruence|].
      clear - F2. induction F2 as [|t b batch m (a & _ & Mv) F2 IH]; constructor; auto. apply Mv.
  - intros k o I M ->. destruct (Q _ _ I) as (_ & Q2 & Q3 & _). destruct M as [M|[M Me]].
    + destruct (Q2 M) as (r & -> & a & -> & Fr). eauto.
    + destruct (Q3 M) as (r & -> & D). apply mem_in in Me. rewrite Me in D. destruct D as (a & -> & Fr). eauto.
Qed.
Print Assumptions C201_partial.
(* Without concatenation sub attributes are left where the storage has them. *)
Theorem C201_refuted : forall X (cat mk : list X -> option X) dev extra (h : heap X) t0 rest attrs out h1,
  wf h -> Forall (wf_tran h) (t0 :: rest) ->
  post_process cat mk dev false extra (t0 :: rest) attrs h = Ok (Some out, h1) ->
  forall k o, In (k, o) out -> is_sub t0 k ->
  exists l, o = RVal (RList l) /\ length l = length (t0 :: rest) /\
  forall i t a, nth_error (t0 :: rest) i = Some t -> attribute t k = Some (STen a) -> ~ ten_on dev h a ->
    nth_error l i = Some (STen a) /\ ~ ten_on dev h1 a.
Proof.
  intros X cat mk dev extra h t0 rest attrs out h1 W F H k o I M. destruct (sample_ok _ _ _ _ _ _ W F H) as (A & l & E & Q). injection E as <-.
  destruct (Q _ _ I) as (_ & Q2 & _). destruct (Q2 M) as (r & -> & l & -> & F2). exists l. split; auto.
  split; [clear - F2; induction F2; cbn; congruence|]. intros i t a Et Ea No. split.
  - clear - F2 Et Ea. revert i Et. induction F2 as [|t' v batch l E F2 IH]; intros [|i] Et; try discriminate; cbn in *; auto. congruence.
  - intros On. apply No. eapply on_old; eauto. rewrite Forall_forall in F. apply nth_error_In in Et. destruct (F _ Et) as (A1 & A2 & A3).
    unfold attribute in Ea. apply dget_Some_In in Ea. unfold wf_slots in *. rewrite Forall_forall in *. rewrite !in_app_iff in Ea.
    destruct Ea as [Ea|[Ea|Ea]]; [apply A1 in Ea|apply A2 in Ea|apply A3 in Ea]; exact Ea.
Qed.
Print Assumptions C201_refuted.

(* two transitions with a tensor reward and a custom note, stored on device 0 *)
Definition two : heap nat :=
  MkH [10; 20; 1; 2] [MkTen 0 true 0; MkTen 1 true 0; MkTen 2 true 0; MkTen 3 true 0] [[("s", 0)]; [("s", 1)]]%string
      [MkTran [("state", SDict 0)] [("reward", STen 2)] [("note", SVal 7)]; MkTran [("state", SDict 1)] [("reward", STen 3)] [("note", SVal 8)]]%string.
Definition sum (l : list nat) : option nat := Some (fold_left Nat.add l 0).
Example C200_nonvacuous :
  (exists h1, post_process sum sum 0 true [] (trs two) None two =
     Ok (Some [("state", RDict [("s", RTen 4)]); ("reward", RVal (RTen 5)); ("note", RVal (RList [SVal 7; SVal 8]))]%string, h1) /\
     show_ten h1 4 = Some 30 /\ shows (write [(4, 99)] h1) [("state", SDict 0)]%string = shows two [("state", SDict 0)]%string) /\
  (exists h1, post_process sum sum 0 false [] (trs two) (Some ["state"; "*"]%string) two =
     Ok (Some [("state", RDict [("s", RList [STen 0; STen 1])]); ("*", RDict [("note", RList [SVal 7; SVal 8])])]%string, h1) /\
     shows (write [(0, 99)] h1) [("state", SDict 0)]%string = [("state", WDict (Some [("s", Some 99)]))]%string).
Proof.
  split.
  - match goal with |- context [post_process ?a ?b ?c ?d ?e ?f ?g ?h] => let r := eval vm_compute in (post_process a b c d e f g h) in
      match r with Ok (_, ?h1) => exists h1 end end. vm_compute. auto.
  - match goal with |- context [post_process ?a ?b ?c ?d ?e ?f ?g ?h] => let r := eval vm_compute in (post_process a b c d e f g h) in
      match r with Ok (_, ?h1) => exists h1 end end. vm_compute. auto.
Qed.
Example C201_nonvacuous :
  exists h1 o, post_process sum sum 1 false [] (trs two) (Some ["state"; "reward"]%string) two = Ok (Some o, h1) /\
    o = [("state", RDict [("s", RList [STen 4; STen 5])]); ("reward", RVal (RList [STen 2; STen 3]))]%string /\
    map (option_map t_dev) (map (nth_error (tens h1)) [4; 5; 2; 3]) = [Some 1; Some 1; Some 0; Some 0].
Proof.
  match goal with |- context [post_process ?a ?b ?c ?d ?e ?f ?g ?h] => let r := eval vm_compute in (post_process a b c d e f g h) in
    match r with Ok (Some ?o, ?h1) => exists h1, o end end. vm_compute. auto.
Qed.
(* the sample consists of the requested attributes which the first transition has, in this order *)
Theorem C200_selected : forall X (cat mk : list X -> option X) dev conc extra (h : heap X) t0 rest attrs out h1,
  post_process cat mk dev conc extra (t0 :: rest) attrs h = Ok (Some out, h1) ->
  let asked := match attrs with Some l => l | None => dkeys (a_maj t0 ++ a_sub t0 ++ a_cus t0) end in
  let known := fun k => mem k (dkeys (a_maj t0)) || mem k (dkeys (a_sub t0)) || mem k (dkeys (a_cus t0)) || String.eqb k "*" in
  dkeys out = filter known asked.
Proof.
  intros X cat mk dev conc extra h t0 rest attrs out h1 H asked known. unfold post_process in H.
  replace (match attrs with Some l => l | None => _ end) with asked in H by (unfold asked; destruct attrs; auto; unfold dkeys; now rewrite !map_app).
  destruct (pp _ _ _ _ _ _ _ _ _ _) as [[l h2]|] eqn:E; [|discriminate]. cbn in H. injection H as <- <-. clearbody asked. clear attrs.
  revert E. generalize (@nil string) as used. generalize (t0 :: rest) as batch. intros batch. revert h l.
  induction asked as [|k asked IH]; intros h l used E; cbn [pp] in E; [injection E as <- <-; reflexivity|]. cbn [filter]. unfold known at 1.
  destruct (mem k (dkeys (a_maj t0))).
  { destruct (attr_of t0 k) as [[i|i|x]|]; try discriminate. cbn [bind] in E. destruct (nth_error (dicts h) i); [|discriminate].
    destruct (do_major _ _ _ _ _ _ _ _) as [[d h3]|]; [|discriminate]. cbn [bind fst snd] in E.
    destruct (pp _ _ _ _ _ _ _ _ _ _) as [[l' h4]|] eqn:E2; [|discriminate]. cbn in E. injection E as <- <-. cbn. f_equal. eapply IH; eauto. }
  destruct (mem k (dkeys (a_sub t0))).
  { destruct (do_list _ _ _ _ _ _ _) as [[d h3]|]; [|discriminate]. cbn [bind fst snd] in E.
    destruct (pp _ _ _ _ _ _ _ _ _ _) as [[l' h4]|] eqn:E2; [|discriminate]. cbn in E. injection E as <- <-. cbn. f_equal. eapply IH; eauto. }
  destruct (mem k (dkeys (a_cus t0))).
  { destruct (do_list _ _ _ _ _ _ _) as [[d h3]|]; [|discriminate]. cbn [bind fst snd] in E.
    destruct (pp _ _ _ _ _ _ _ _ _ _) as [[l' h4]|] eqn:E2; [|discriminate]. cbn in E. injection E as <- <-. cbn. f_equal. eapply IH; eauto. }
  destruct (String.eqb k "*").
  { destruct (do_star _ _ _ _ _ _ _ _ _) as [[d h3]|]; [|discriminate]. cbn [bind fst snd] in E.
    destruct (pp _ _ _ _ _ _ _ _ _ _) as [[l' h4]|] eqn:E2; [|discriminate]. cbn in E. injection E as <- <-. cbn. f_equal. eapply IH; eauto. }
  cbn. eapply IH; eauto.
Qed.
Print Assumptions C200_selected.
