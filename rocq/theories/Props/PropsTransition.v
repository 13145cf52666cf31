(* C06: batch post-processing; C52: validity of transition objects. *)
From Verif Require Import Lib.Base Model.Transition Spec.TransitionSpec Proofs.TransitionProofs.
Open Scope list_scope.

(* Every well-formed batch is processed without error, and the outputs are, in the order
   of the requested attributes and skipping unknown ones, columns whose i-th row comes
   from the i-th transition. *)
Theorem C06_rows_aligned : forall X (first : trans X) rest con attrs addi,
  well_formed first (first :: rest) addi ->
  exists os, post_process (first :: rest) con (Some attrs) (Some addi) = Ok (Some os) /\
             good_outs first (first :: rest) con addi [] attrs os.
Proof. exact (fun X => @post_process_ok X). Qed.
Print Assumptions C06_rows_aligned.

(* defaults: all attributes of the first transition, no extra concatenation *)
Theorem C06_defaults : forall X (first : trans X) rest con,
  well_formed first (first :: rest) [] ->
  exists os, post_process (first :: rest) con None None = Ok (Some os) /\
             good_outs first (first :: rest) con [] [] (tr_keys first) os /\
             length os = length (tr_keys first).
Proof.
  intros X first rest con WF. destruct (post_process_ok first rest con (tr_keys first) [] WF) as (os & E & G).
  exists os. split; [exact E|]. split; [exact G|].
  assert (K : forall a, In a (tr_keys first) -> known first a = true).
  { intros a H. apply mem_In. unfold tr_keys in H. rewrite !in_app_iff in *. tauto. }
  clear E. revert G K. generalize (tr_keys first), (@nil string). intros ks bf G K. induction G; cbn; auto.
  - rewrite (K a (or_introl eq_refl)) in H. discriminate.
  - f_equal. apply IHG. intros z I. apply K. now right.
Qed.
Print Assumptions C06_defaults.

Theorem C06_empty_batch : forall X con attrs addi, post_process (X := X) [] con attrs addi = Ok None.
Proof. reflexivity. Qed.
Print Assumptions C06_empty_batch.

(* batches of valid transitions with the layout of the first one are well formed *)
Theorem C06_valid_transitions : forall X (first : trans X) rest con attrs,
  (forall t, In t (first :: rest) -> valid_tr t /\ tr_maj t = tr_maj first /\ tr_sub t = tr_sub first /\
     (forall a s, In a (tr_maj first) -> In s (subkeys first a) -> In s (subkeys t a)) /\
     (forall a, In a (tr_cus first) -> attr t a <> None)) ->
  (forall a, In a (tr_sub first) -> (forall t v, In t (first :: rest) -> attr t a = Some v -> is_tensor v) \/
                                    (forall t v, In t (first :: rest) -> attr t a = Some v -> is_scalar v)) ->
  exists os, post_process (first :: rest) con (Some attrs) None = Ok (Some os) /\
             good_outs first (first :: rest) con [] [] attrs os.
Proof.
  intros X first rest con attrs V S. apply (post_process_ok first rest con attrs []). split.
  - intros a t Ia It. assert (It' : In t (first :: rest)) by (cbn in *; tauto).
    destruct (V t It') as ((M & _) & EM & ES & SK & _). rewrite EM in M.
    destruct (M a Ia) as (d & Ed & Hd). exists d. split; auto. intros s Is.
    specialize (SK a s Ia Is). unfold subkeys, entry in *. rewrite Ed in *.
    destruct (dget s d) as [v|] eqn:G; [|apply dget_None in G; tauto]. cbn. eexists; split; [reflexivity|].
    apply dget_Some_In in G. destruct (Hd _ _ G) as (x & ->). exists x. reflexivity.
  - intros a Ia. destruct (S a Ia) as [Q|Q]; [left|right]; intros t It;
      destruct (V t It) as ((_ & _ & VS) & _ & ES & _); rewrite ES in VS; destruct (VS a Ia) as (v & Ev & _); eauto.
  - intros a Ia. split; [|intros []]. intros t It. apply (V t It). auto.
Qed.
Print Assumptions C06_valid_transitions.

(* Batches that are not well formed: which exception is raised, and what in the batch causes it. *)
Definition any_tensor {X} (v : aval X) : Prop := (exists r, v = AV (VT r)) \/ (exists x, v = AV (VT0 x)).
Inductive fault {X} (first : trans X) (batch : list (trans X)) (con : bool) (a : string) : err -> Prop :=
| f_missing t : In t batch -> attr t a = None -> fault first batch con a EAttr
| f_first v : In a (tr_maj first) -> attr first a = Some (AV v) -> fault first batch con a EAttr
| f_nodict t v : In a (tr_maj first) -> In t batch -> attr t a = Some (AV v) -> fault first batch con a EType
| f_nokey t d s : In a (tr_maj first) -> In t batch -> attr t a = Some (AD d) -> In s (subkeys first a) ->
    ~ In s (subkeys t a) -> fault first batch con a EKey
| f_subval t s v : In a (tr_maj first) -> In t batch -> entry t a s = Some v -> ~ any_tensor v -> fault first batch con a EAttr
| f_dim0 t x : con = true -> In t batch -> attr t a = Some (AV (VT0 x)) \/ (exists s, entry t a s = Some (AV (VT0 x))) ->
    fault first batch con a ERuntime
| f_mixed t v w : con = true -> attr first a = Some w -> any_tensor w -> In t batch -> attr t a = Some v ->
    ~ any_tensor v -> fault first batch con a EAttr
| f_scalar t v w : con = true -> attr first a = Some w -> ~ any_tensor w -> In t batch -> attr t a = Some v ->
    ~ is_scalar v -> fault first batch con a EValue.

Lemma mapM_err {A B} (f : A -> res B) l e : mapM f l = Err e -> exists a, In a l /\ f a = Err e.
Proof.
  induction l as [|a r IH]; cbn; [discriminate|]. destruct (f a) as [b|e'] eqn:E; cbn.
  - destruct (mapM f r) eqn:Q; cbn; [discriminate|]. intros H. injection H as ->. destruct IH as (x & I & X); auto. eauto.
  - intros H. injection H as ->. eauto.
Qed.
Section Faults.
  Context {X : Type}.
  Variables (first : trans X) (rest : list (trans X)).
  Let batch := first :: rest.
  Lemma cat_tensors_err vs e : cat_tensors vs = Err e ->
    (e = ERuntime /\ exists x, In (AV (VT0 x)) vs) \/ (e = EAttr /\ exists v : aval X, In v vs /\ ~ any_tensor v).
  Proof.
    induction vs as [|v r IH]; cbn; [discriminate|].
    destruct v as [d|[rows|x|x|x]]; try (intros H; injection H as <-).
    - right. split; auto. eexists. split; [now left|]. intros [[? Q]|[? Q]]; discriminate.
    - destruct (cat_tensors r) eqn:E; cbn; [discriminate|]. intros H. injection H as ->.
      destruct IH as [(-> & y & I)|(-> & v & I & N)]; auto; [left|right]; eauto.
    - left. eauto.
    - right. split; auto. eexists. split; [now left|]. intros [[? Q]|[? Q]]; discriminate.
    - right. split; auto. eexists. split; [now left|]. intros [[? Q]|[? Q]]; discriminate.
  Qed.
  Lemma cat_scalars_err vs e : cat_scalars vs = Err e -> e = EValue /\ exists v : aval X, In v vs /\ ~ is_scalar v.
  Proof.
    induction vs as [|v r IH]; cbn; [discriminate|].
    destruct v as [d|[rows|x|x|x]]; try (intros H; injection H as <-; split; auto; eexists; split; [now left|];
      intros [? Q]; discriminate).
    destruct (cat_scalars r) eqn:E; cbn; [discriminate|]. intros H. injection H as ->.
    destruct IH as (-> & v & I & N); eauto.
  Qed.
  Lemma get_col_err a e : get_col a batch = Err e -> exists t, In t batch /\ attr t a = None /\ e = EAttr.
  Proof.
    intros H. apply mapM_err in H as (t & I & E). exists t. split; auto. unfold attr. unfold tr_get in E.
    destruct (dget a (tr_data t)); [discriminate|]. injection E as <-. auto.
  Qed.
  Lemma get_col_In a vs : get_col a batch = Ok vs -> forall v, In v vs -> exists t, In t batch /\ attr t a = Some v.
  Proof.
    intros H v I. destruct (F2_in _ _ _ (mapM_inv _ _ _ H) v I) as (t & It & E). exists t. split; auto.
    unfold attr. unfold tr_get in E. destruct (dget a (tr_data t)); congruence.
  Qed.
  Lemma get_col_hd a vs : get_col a batch = Ok vs -> exists w r, vs = w :: r /\ attr first a = Some w.
  Proof.
    unfold get_col, batch. cbn. unfold tr_get at 1, attr. destruct (dget a (tr_data first)) as [w|]; cbn; [|discriminate].
    destruct (mapM _ rest); cbn; [|discriminate]. intros H. injection H as <-. eauto.
  Qed.
  Lemma column_err a con con' e vs : get_col a batch = Ok vs -> make_tensor vs con = Err e -> (con = true -> con' = true) ->
    fault first batch con' a e.
  Proof.
    intros G M C. destruct (get_col_hd _ _ G) as (w & r & -> & Ew). assert (GI := get_col_In _ _ G).
    destruct con; [|discriminate]. specialize (C eq_refl).
    assert (S : ~ any_tensor w -> bind (cat_scalars (w :: r)) (fun q => Ok (CT q)) = Err e -> fault first batch con' a e).
    { intros N. destruct (cat_scalars (w :: r)) eqn:E; cbn [bind]; [discriminate|]. intros H. injection H as ->.
      apply cat_scalars_err in E as (-> & v & I & S). destruct (GI v I) as (t & It & Et). eapply f_scalar; eauto. }
    assert (T : any_tensor w -> bind (cat_tensors (w :: r)) (fun q => Ok (CT q)) = Err e -> fault first batch con' a e).
    { intros N. destruct (cat_tensors (w :: r)) eqn:E; cbn [bind]; [discriminate|]. intros H. injection H as ->.
      apply cat_tensors_err in E as [(-> & v & I)|(-> & v & I & S0)]; destruct (GI _ I) as (t & It & Et).
      - eapply f_dim0; eauto.
      - eapply f_mixed; eauto. }
    destruct w as [d|[rows|x|x|x]]; cbn in M; (apply S + apply T); auto; try (intros [[? Q]|[? Q]]; discriminate);
      try (left; eauto; fail); right; eauto.
  Qed.
  Lemma get_sub_ok a sk (t : trans X) v : get_sub a sk t = Ok v -> any_tensor v /\ entry t a sk = Some v.
  Proof.
    unfold get_sub, tr_get, entry, attr. destruct (dget a (tr_data t)) as [[d|?]|]; cbn; try discriminate.
    destruct (dget sk d) as [[r|x|x|x]|]; try discriminate; intros H; injection H as <-; split; auto; [left|right]; eauto.
  Qed.
  Lemma major_err a con e : In a (tr_maj first) -> major_out first batch con a = Err e -> fault first batch con a e.
  Proof.
    intros Ia. unfold major_out. unfold tr_get. destruct (dget a (tr_data first)) as [[d|v]|] eqn:D; cbn [bind].
    2:{ intros H. injection H as <-. eapply f_first; eauto. }
    2:{ intros H. injection H as <-. eapply f_missing; [left; reflexivity|auto]. }
    destruct (mapM _ (dkeys d)) eqn:M; [discriminate|]. cbn. intros H. injection H as ->.
    apply mapM_err in M as (sk & Is & E). assert (Is' : In sk (subkeys first a)) by (unfold subkeys, attr; rewrite D; auto).
    destruct (mapM (get_sub a sk) batch) as [vs|e'] eqn:G; cbn [bind] in E.
    - assert (All : forall v, In v vs -> any_tensor v /\ exists t, In t batch /\ entry t a sk = Some v).
      { intros v I. destruct (F2_in _ _ _ (mapM_inv _ _ _ G) v I) as (t & It & Et). apply get_sub_ok in Et as [T Et]. eauto. }
      destruct (make_tensor vs con) eqn:MT; cbn [bind] in E; [discriminate|]. injection E as ->.
      destruct con; [|discriminate]. destruct vs as [|w r]; [discriminate|].
      assert (MT' : bind (cat_tensors (w :: r)) (fun q => Ok (CT q)) = Err e).
      { destruct (All w (or_introl eq_refl)) as [[[? ->]|[? ->]] _]; exact MT. }
      destruct (cat_tensors (w :: r)) eqn:C; cbn [bind] in MT'; [discriminate|]. injection MT' as ->.
      apply cat_tensors_err in C as [(-> & x & I)|(-> & v & I & N)].
      + destruct (All _ I) as (_ & t & It & Et). eapply f_dim0; eauto.
      + destruct (All _ I) as (T & _). contradiction.
    - injection E as ->. apply mapM_err in G as (t & It & Et). unfold get_sub, tr_get in Et.
      destruct (dget a (tr_data t)) as [[d'|v]|] eqn:D'; cbn in Et.
      + destruct (dget sk d') as [[r|x|x|x]|] eqn:K; try discriminate; injection Et as <-.
        * eapply f_subval with (s := sk); eauto; [unfold entry, attr; rewrite D', K; reflexivity|].
          intros [[? Q]|[? Q]]; discriminate.
        * eapply f_subval with (s := sk); eauto; [unfold entry, attr; rewrite D', K; reflexivity|].
          intros [[? Q]|[? Q]]; discriminate.
        * eapply f_nokey; eauto. unfold subkeys, attr. rewrite D'. now apply dget_None.
      + injection Et as <-. eapply f_nodict; eauto.
      + injection Et as <-. eapply f_missing; eauto.
  Qed.
  Lemma star_err con addi cus : forall used e, star_out batch con addi cus used = Err e ->
    exists a, In a cus /\ fault first batch con a e.
  Proof.
    induction cus as [|k r IH]; intros used e; cbn [star_out]; [discriminate|].
    destruct (mem k used). { intros H. destruct (IH _ _ H) as (a & I & F). exists a. split; [now right|auto]. }
    destruct (get_col k batch) as [vs|e'] eqn:G; cbn [bind].
    - destruct (make_tensor vs (con && mem k addi)) eqn:M; cbn [bind].
      + destruct (star_out batch con addi r (used ++ [k])) eqn:E; cbn [bind]; [discriminate|].
        intros H. injection H as ->. destruct (IH _ _ E) as (a' & I & F). exists a'. split; [now right|auto].
      + intros H. injection H as ->. exists k. split; [now left|]. eapply column_err; eauto. intros Q. now apply andb_prop in Q.
    - intros H. injection H as ->. apply get_col_err in G as (t & It & Et & ->). exists k. split; [now left|].
      eapply f_missing; eauto.
  Qed.
  Lemma pp_err con addi attrs : forall used e, pp_loop first batch con addi attrs used = Err e ->
    exists a, (In a attrs \/ (In "*"%string attrs /\ In a (tr_cus first))) /\ fault first batch con a e.
  Proof.
    induction attrs as [|a r IH]; intros used e; cbn [pp_loop]; [discriminate|].
    assert (W : forall used' e', pp_loop first batch con addi r used' = Err e' ->
      exists a', (In a' (a :: r) \/ (In "*"%string (a :: r) /\ In a' (tr_cus first))) /\ fault first batch con a' e').
    { intros u e' H. destruct (IH _ _ H) as (a' & I & F). exists a'. split; auto. cbn. tauto. }
    destruct (mem a (tr_maj first)) eqn:M1.
    { apply mem_In in M1. destruct (major_out first batch con a) eqn:E; cbn [bind].
      - destruct (pp_loop first batch con addi r (used ++ [a])) eqn:E'; cbn [bind]; [discriminate|]. intros H. injection H as ->. eauto.
      - intros H. injection H as ->. exists a. split; [left; now left|]. now apply major_err. }
    assert (Col : forall c, (c = true -> con = true) ->
      bind (get_col a batch) (fun vs => bind (make_tensor vs c) (fun c0 =>
        bind (pp_loop first batch con addi r (used ++ [a])) (fun q => Ok (OCol c0 :: q)))) = Err e ->
      exists a', (In a' (a :: r) \/ (In "*"%string (a :: r) /\ In a' (tr_cus first))) /\ fault first batch con a' e).
    { intros c Hc. destruct (get_col a batch) as [vs|e'] eqn:G; cbn [bind].
      - destruct (make_tensor vs c) eqn:M; cbn [bind].
        + destruct (pp_loop first batch con addi r (used ++ [a])) eqn:E'; cbn [bind]; [discriminate|]. intros H. injection H as ->. eauto.
        + intros H. injection H as ->. exists a. split; [left; now left|]. eapply column_err; eauto.
      - intros H. injection H as ->. apply get_col_err in G as (t & It & Et & ->). exists a. split; [left; now left|].
        eapply f_missing; eauto. }
    destruct (mem a (tr_sub first)). { apply Col; auto. }
    destruct (mem a (tr_cus first)). { apply Col. intros Q. now apply andb_prop in Q. }
    destruct (String.eqb_spec a "*") as [->|N]; [|apply W].
    destruct (star_out batch con addi (tr_cus first) used) as [p|e'] eqn:S; cbn [bind].
    - destruct (pp_loop first batch con addi r (snd p)) eqn:E'; cbn [bind]; [discriminate|]. intros H. injection H as ->. eauto.
    - intros H. injection H as ->. apply star_err in S as (a & I & F). exists a. split; auto. right. split; auto. now left.
  Qed.
End Faults.
Theorem C06_errors : forall X (first : trans X) rest con attrs addi e,
  post_process (first :: rest) con (Some attrs) addi = Err e ->
  exists a, (In a attrs \/ (In "*"%string attrs /\ In a (tr_cus first))) /\ fault first (first :: rest) con a e.
Proof.
  intros X first rest con attrs addi e. unfold post_process. destruct (pp_loop _ _ _ _ _ _) eqn:E; cbn [bind]; [discriminate|].
  intros H. injection H as ->. eapply pp_err; eauto.
Qed.
Print Assumptions C06_errors.

Definition ex_tr (n : nat) : trans nat :=
  MkTr ["state"]%string ["reward"]%string ["a"; "b"]%string
       [("state", AD [("x", VT [n]); ("y", VT [10 + n])]); ("reward", AV (VS (20 + n)));
        ("a", AV (VO (30 + n))); ("b", AV (VS (40 + n)))]%string.
Example C06_nonvacuous :
  post_process [ex_tr 1; ex_tr 2] true (Some ["reward"; "nope"; "b"; "state"; "*"]%string) (Some ["b"]%string)
  = Ok (Some [OCol (CT [21; 22]); OCol (CT [41; 42]);
              ODict [("x", CT [1; 2]); ("y", CT [11; 12])]%string;
              ODict [("a", CL [AV (VO 31); AV (VO 32)])]%string]).
Proof. reflexivity. Qed.
Example C06_well_formed_example : well_formed (ex_tr 1) [ex_tr 1; ex_tr 2] ["b"%string].
Proof.
  split.
  - intros a t [<-|[]] It. assert (t = ex_tr 1 \/ t = ex_tr 2) as [-> | ->] by (cbn in It; intuition congruence);
      (eexists; split; [reflexivity|]; intros s [<-|[<-|[]]]; eexists; (split; [reflexivity|eexists; reflexivity])).
  - intros a [<-|[]]. right. intros t [<-|[<-|[]]]; eexists; (split; [reflexivity|eexists; reflexivity]).
  - intros a [<-|[<-|[]]]; split.
    + intros t [<-|[<-|[]]]; discriminate.
    + intros [Q|[]]. discriminate.
    + intros t [<-|[<-|[]]]; discriminate.
    + intros _. right. intros t [<-|[<-|[]]]; eexists; (split; [reflexivity|eexists; reflexivity]).
Qed.

(* C52: the check performed by Transition is exactly validity with batch size one,
   so construction and accepted assignments give valid objects. *)
Theorem C52_check_is_validity : forall X (t : trans X), chk t = Ok tt <-> valid_tr t.
Proof. exact (fun X => @chk_valid X). Qed.
Print Assumptions C52_check_is_validity.
Theorem C52_constructor_valid : forall X s a n r term kw (t : trans X),
  tr_new s a n r term kw = Ok t -> valid_tr t.
Proof.
  intros X s a n r term kw t. unfold tr_new. set (t0 := MkTr _ _ _ _).
  destruct (chk t0) as [[]|e] eqn:E; [|discriminate]. cbn [bind]. intros Q. injection Q as <-. now apply chk_valid.
Qed.
Print Assumptions C52_constructor_valid.
(* missing: rejected assignments, see below *)
Theorem C52_accepted_assignment_valid_partial : forall X (t : trans X) k v,
  snd (setitem t k v) = Ok tt ->
  valid_tr (fst (setitem t k v)) /\ attr (fst (setitem t k v)) k = Some v /\
  forall k', k' <> k -> attr (fst (setitem t k v)) k' = attr t k'.
Proof.
  intros X t k v. unfold setitem. destruct (mem k (tr_keys t)); [|discriminate]. cbn [fst snd]. intros E.
  split; [now apply chk_valid|]. unfold attr, tr_put. cbn. split; [apply dget_dset_same|].
  intros k' N. apply dget_dset_other; auto.
Qed.
Print Assumptions C52_accepted_assignment_valid_partial.
Theorem C52_unknown_attribute_rejected : forall X (t : trans X) k v, ~ In k (tr_keys t) ->
  setitem t k v = (t, Err ERuntime) /\ setattr t k v = (t, Err ERuntime).
Proof. intros X t k v H. apply mem_nIn in H. unfold setitem, setattr. now rewrite H. Qed.
Print Assumptions C52_unknown_attribute_rejected.

Definition ex_new : res (trans nat) :=
  tr_new [("x", VT [1])]%string [("a", VT [2])]%string [("x", VT [3])]%string (VS 4) (VS 0) [("k", AV (VO 5))]%string.
(* a rejected item assignment stays in the object *)
Theorem C52_rejected_assignment_refuted : exists (t : trans nat) k v,
  valid_tr t /\ snd (setitem t k v) = Err EValue /\ ~ valid_tr (fst (setitem t k v)).
Proof.
  destruct ex_new as [t|e] eqn:E; [|discriminate].
  exists t, "state"%string, (AD [("x", VT [1; 2])]%string).
  split; [exact (C52_constructor_valid _ _ _ _ _ _ _ _ E)|].
  injection E as <-. split; [reflexivity|]. rewrite <- chk_valid. discriminate.
Qed.
Print Assumptions C52_rejected_assignment_refuted.
(* An invalid object is refused with ValueError, or with AttributeError if an attribute is missing or a major
   attribute is not a dictionary. *)
Theorem C52_errors : forall X (t : trans X) e, chk t = Err e ->
  e = EValue \/
  (e = EAttr /\ ((exists a, In a (tr_maj t) /\ forall d, attr t a <> Some (AD d)) \/
                 (exists a, In a (tr_sub t) /\ attr t a = None))).
Proof.
  intros X t.
  assert (D : forall (d : list (string * val X)) bs e, chk_dict d bs = Err e -> e = EValue).
  { induction d as [|[k v] r IH]; cbn; intros bs e; [discriminate|].
    destruct v as [rows|x|x|x]; try (intros H; now injection H). destruct bs as [b|]; [|apply IH].
    destruct (b =? length rows); [apply IH|]. intros H. now injection H. }
  assert (M : forall ks bs e, chk_major t ks bs = Err e ->
    e = EValue \/ (e = EAttr /\ exists a, In a ks /\ forall d, attr t a <> Some (AD d))).
  { induction ks as [|k r IH]; cbn; intros bs e; [discriminate|]. unfold tr_get.
    destruct (dget k (tr_data t)) as [[d|v]|] eqn:G; cbn.
    - destruct (chk_dict d bs) eqn:E; cbn.
      + intros H. destruct (IH _ _ H) as [->|(-> & a' & I & N)]; auto. right. split; auto. exists a'. auto.
      + intros H. injection H as ->. left. eauto.
    - intros H. injection H as <-. right. split; auto. exists k. split; auto. unfold attr. rewrite G. discriminate.
    - intros H. injection H as <-. right. split; auto. exists k. split; auto. unfold attr. rewrite G. discriminate. }
  assert (S : forall ks bs e, chk_sub t ks bs = Err e -> e = EValue \/ (e = EAttr /\ exists a, In a ks /\ attr t a = None)).
  { induction ks as [|k r IH]; cbn; intros bs e; [discriminate|]. unfold tr_get.
    assert (W : forall bs' e', chk_sub t r bs' = Err e' -> e' = EValue \/ (e' = EAttr /\ exists a, (k = a \/ In a r) /\ attr t a = None)).
    { intros bs' e' H. destruct (IH _ _ H) as [->|(-> & a & I & N)]; auto. right. split; auto. exists a. auto. }
    destruct (dget k (tr_data t)) as [[d|[rows|x|x|x]]|] eqn:G; cbn; try (intros H; injection H as <-; now left).
    - destruct bs as [b|]; [destruct (b =? length rows); [apply W|]|]; intros H; injection H as <-; now left.
    - destruct bs as [[|[|b]]|]; try apply W; intros H; injection H as <-; now left.
    - intros H. injection H as <-. right. split; auto. exists k. auto. }
  intros e. unfold chk, chk_base. destruct (chk_major t (tr_maj t) None) as [bs|e'] eqn:E1; cbn [bind].
  - destruct (chk_sub t (tr_sub t) bs) as [[]|e'] eqn:E2; cbn [bind].
    + destruct bs as [[|[|b]]|]; try discriminate; intros H; injection H as <-; now left.
    + intros H. injection H as ->. destruct (S _ _ _ E2) as [->|(-> & Q)]; auto.
  - intros H. injection H as ->. destruct (M _ _ _ E1) as [->|(-> & Q)]; auto.
Qed.
Print Assumptions C52_errors.
(* Every rejected assignment of a known attribute leaves the object with the rejected value, and invalid. *)
Theorem C52_rejected_stored_refuted : forall X (t : trans X) k v, In k (tr_keys t) -> snd (setitem t k v) <> Ok tt ->
  attr (fst (setitem t k v)) k = Some v /\ ~ valid_tr (fst (setitem t k v)).
Proof.
  intros X t k v I. apply mem_In in I. unfold setitem. rewrite I. cbn. intros N. split.
  - unfold attr, tr_put. cbn. apply dget_dset_same.
  - rewrite <- chk_valid. auto.
Qed.
Print Assumptions C52_rejected_stored_refuted.
(* attribute assignment of a known attribute is silently ignored, for every transition and value *)
Theorem C52_setattr_ignored_refuted : forall X (t : trans X) k v,
  fst (setattr t k v) = t /\ (valid_tr t -> In k (tr_keys t) -> snd (setattr t k v) = Ok tt).
Proof.
  intros X t k v. unfold setattr. split; [destruct (mem k (tr_keys t)); auto|].
  intros V I. apply mem_In in I. rewrite I. cbn. now apply chk_valid.
Qed.
Print Assumptions C52_setattr_ignored_refuted.
Example C52_nonvacuous : exists t, ex_new = Ok t /\ valid_tr t /\
  attr (fst (setitem t "reward" (AV (VS 9)))) "reward" = Some (AV (VS 9)).
Proof. eexists. split; [reflexivity|]. split; [apply chk_valid; reflexivity|reflexivity]. Qed.
