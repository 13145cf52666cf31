(* C47 safe_call binds arguments by name. *)
From Verif Require Import Lib.Base Lib.Str Model.SafeCall Spec.SafeCallSpec.

(* signatures Python accepts *)
Definition wf (s : sig) : Prop :=
  NoDup (pos s ++ kwonly s) /\ defaults s <= length (pos s) /\ incl (kwdefaults s) (kwonly s).
Definition param (s : sig) (k : string) : Prop := In k (pos s) \/ In k (kwonly s).
(* parameters without a default value *)
Definition mandatory (s : sig) (k : string) : Prop :=
  (exists i, nth_error (pos s) i = Some k /\ i + defaults s < length (pos s)) \/
  (In k (kwonly s) /\ ~ In k (kwdefaults s)).

Lemma inb_In k l : inb k l = true <-> In k l.
Proof.
  unfold inb. rewrite existsb_exists. split; [intros (x & I & E); destruct (eqb_spec k x); [now subst|discriminate]|].
  intros I. exists k. split; auto. apply eqb_refl.
Qed.
Lemma inb_false k l : inb k l = false <-> ~ In k l.
Proof. rewrite <- inb_In. destruct (inb k l); split; congruence. Qed.
Lemma nth_firstn_In {A} n (l : list A) x : In x (firstn n l) <-> exists i, nth_error l i = Some x /\ i < n.
Proof.
  revert n. induction l as [|a l IH]; intros [|n]; cbn.
  - split; [intros []|intros (i & E & L); lia].
  - split; [intros []|intros (i & E & L); destruct i; discriminate].
  - split; [intros []|intros (i & E & L); lia].
  - split.
    + intros [->|I]; [exists 0; split; auto; lia|]. apply IH in I as (i & E & L). exists (S i). split; auto. lia.
    + intros ([|i] & E & L); [injection E as ->; auto|]. right. apply IH. exists i. split; auto. lia.
Qed.
Lemma without_default_spec s k : wf s -> In k (without_default s) <-> mandatory s k.
Proof.
  intros (ND & D & Inc). unfold without_default, mandatory. rewrite in_app_iff, nth_firstn_In, filter_In.
  rewrite negb_true_iff, inb_false. split; intros [H|H]; auto; left; destruct H as (i & E & L); exists i; (split; [auto|lia]).
Qed.

Section Fill.
  Context {V : Type} (s : sig).
  Definition takes (k : string) : bool := (inb k (args s) || varargs s || varkw s)%bool.
  Lemma fill_one_other (acc na : list (string * V)) k : takes k = false \/ (forall v, ~ has k v na) -> dget k (fill_one s acc na) = dget k acc.
  Proof.
    unfold fill_one. revert acc. induction na as [|[k' v'] na IH]; intros acc H; cbn; auto.
    rewrite IH.
    - fold (takes k'). destruct (takes k') eqn:T; auto. apply dget_dset_other. intros ->.
      destruct H as [H|H]; [congruence|]. apply (H v'). left; auto.
    - destruct H as [H|H]; auto. right. intros v I. apply (H v). right; auto.
  Qed.
  Lemma fill_one_same (acc na : list (string * V)) k v : takes k = true -> NoDup (map fst na) -> has k v na -> dget k (fill_one s acc na) = Some v.
  Proof.
    intros T. unfold fill_one. revert acc. induction na as [|[k' v'] na IH]; intros acc ND H; cbn; [destruct H|].
    inversion ND as [|? ? N1 N2]; subst. destruct H as [[= -> ->]|H]; [|now apply IH].
    fold (takes k). rewrite T. fold (fill_one s (dset k v acc) na). rewrite fill_one_other.
    - apply dget_dset_same.
    - right. intros w I. apply N1. apply (in_map fst) in I. exact I.
  Qed.
  Lemma args_dict_spec (named : list (list (string * V))) : Forall (fun d => NoDup (map fst d)) named -> forall k v,
    dget k (args_dict s named) = Some v <-> takes k = true /\ supplied k v named.
  Proof.
    intros F k v. unfold args_dict.
    assert (G : forall acc, dget k (fold_left (fill_one s) named acc) = Some v <->
       (takes k = true /\ supplied k v named) \/ ((takes k = false \/ missing k named) /\ dget k acc = Some v)).
    { induction F as [|d named ND F IH]; intros acc; cbn [fold_left].
      - split; [intros H; right; split; auto; right; intros ? ? []|]. intros [[_ H]|[_ H]]; [inversion H|auto].
      - rewrite IH. destruct (takes k) eqn:T.
        + assert (Dd : (exists w, has k w d) \/ (forall w, ~ has k w d)).
          { destruct (dget k d) as [w|] eqn:E; [left; exists w; now apply dget_Some_In|]. right. intros w I.
            apply dget_None in E. apply E. apply (in_map fst) in I. exact I. }
          assert (Uni : forall w w', has k w d -> has k w' d -> w = w').
          { intros w w' I I'. apply dget_In in I; auto. apply dget_In in I'; auto. congruence. }
          split.
          * intros [[_ H]|[[H|H] E]]; [left; split; auto; now apply sup_later|discriminate|].
            destruct Dd as [(w & Hw)|Nd].
            -- rewrite (fill_one_same acc d k w T ND Hw) in E. injection E as ->. left. split; auto. now apply sup_here.
            -- rewrite fill_one_other in E by auto. right. split; auto. right. intros d' v' [<-|I]; auto.
          * intros [[_ H]|[[H|H] E]]; [|discriminate|].
            -- inversion H as [? ? Hd Hn|? ? Hs]; subst; [|left; auto]. right. split; [right; intros d' v' I'; eapply Hn; eauto|].
               now apply fill_one_same.
            -- right. split; [right; intros d' v' I; apply (H d' v'); right; auto|]. rewrite fill_one_other; auto.
               right. intros w. apply (H d w). left; auto.
        + rewrite fill_one_other by auto. split; (intros [[H _]|[_ H]]; [discriminate|right; auto]). }
    rewrite G. split; [intros [H|[_ H]]; [auto|discriminate]|auto].
  Qed.
  Lemma dict_keys_taken (named : list (list (string * V))) k v : In (k, v) (args_dict s named) -> takes k = true.
  Proof.
    unfold args_dict. assert (G : forall (named : list (list (string * V))) (acc : list (string * V)), (forall k v, In (k, v) acc -> takes k = true) -> forall k v, In (k, v) (fold_left (fill_one s) named acc) -> takes k = true).
    { clear. induction named as [|d named IH]; intros acc H; cbn; auto. apply IH. clear IH.
      unfold fill_one. revert acc H. induction d as [|[k' v'] d IH]; intros acc H; cbn; auto. apply IH.
      fold (takes k'). destruct (takes k') eqn:T; auto. intros k v I. apply (in_map fst) in I. cbn in I.
      apply (proj1 (In_dkeys_dset k' k v' acc)) in I as [->|I]; auto. apply in_map_iff in I as ([a b] & E & I). cbn in E. subst. eauto. }
    apply G. intros ? ? [].
  Qed.
End Fill.

Lemma mem_supplied {V} s (named : list (list (string * V))) k : Forall (fun d => NoDup (map fst d)) named -> takes s k = true ->
  dmem k (args_dict s named) = true <-> ~ missing k named.
Proof.
  intros F T. unfold dmem. split.
  - destruct (dget k (args_dict s named)) as [v|] eqn:E; [|discriminate]. intros _ M. apply args_dict_spec in E as [_ H]; auto.
    clear -H M. induction H as [d ds Hd _|d ds _ IH]; [apply (M d v); [left; auto|auto]|]. apply IH. intros d' v' I. apply M. right; auto.
  - intros N. destruct (dget k (args_dict s named)) as [v|] eqn:E; auto. exfalso. apply N.
    assert (A : forall v, ~ supplied k v named). { intros v Hs. assert (X : dget k (args_dict s named) = Some v) by (apply args_dict_spec; auto). congruence. }
    clear -A F. induction F as [|d ds ND F IH]; intros d' v' I; [destruct I|]. destruct I as [<-|I].
    + intros H. destruct (dget k d) eqn:E.
      * apply (A v'). apply sup_here; auto. intros d2 v2 I2. apply IH; auto. intros w Hw. apply (A w). now apply sup_later.
      * apply dget_None in E. apply E. apply (in_map fst) in H. exact H.
    + apply IH; auto. intros w Hw. apply (A w). now apply sup_later.
Qed.
Lemma params_taken s k : In k (args s) -> takes s k = true.
Proof. intros I. unfold takes. apply inb_In in I. now rewrite I. Qed.
Lemma required_spec s k : wf s -> (kwonly s = [] \/ defaults s = 0) -> In k (required s) <-> mandatory s k.
Proof.
  intros W Hs. rewrite <- (without_default_spec s k W). destruct W as (ND & D & Inc). unfold required, without_default, args_with_defaults, args, last_n.
  rewrite filter_In, andb_true_iff, !negb_true_iff, !inb_false, !in_app_iff, filter_In, negb_true_iff, inb_false.
  destruct Hs as [Hk|Hd].
  - rewrite Hk, app_nil_r in *. assert (Kd : kwdefaults s = []) by (destruct (kwdefaults s) as [|a l]; auto; exfalso; apply (Inc a); left; auto).
    rewrite Kd. destruct (Nat.eqb_spec (defaults s) 0) as [E|E].
    + rewrite E, Nat.sub_0_r, firstn_all. cbn. tauto.
    + rewrite <- (firstn_skipn (length (pos s) - defaults s) (pos s)) in ND.
      assert (Dj : forall x, In x (firstn (length (pos s) - defaults s) (pos s)) -> ~ In x (skipn (length (pos s) - defaults s) (pos s))).
      { intros x I J. revert ND I J. generalize (firstn (length (pos s) - defaults s) (pos s)) (skipn (length (pos s) - defaults s) (pos s)).
        induction l as [|a l IH]; cbn; intros l0 ND I J; [destruct I|]. inversion ND; subst. destruct I as [->|I]; [apply H1, in_or_app; auto|eauto]. }
      split.
      * intros [[I|[]] [N _]]. left. rewrite <- (firstn_skipn (length (pos s) - defaults s) (pos s)) in I. apply in_app_or in I as [I|I]; [auto|contradiction].
      * intros [I|[[] _]]. split; [left; rewrite <- (firstn_skipn (length (pos s) - defaults s) (pos s)); apply in_or_app; auto|]. split; [now apply Dj|auto].
  - rewrite Hd. cbn [Nat.eqb]. rewrite Nat.sub_0_r, firstn_all. split.
    + intros [[I|I] [_ N]]; auto.
    + intros [I|[I N]]; split; auto; (split; [auto|]); auto. intros J. apply Inc in J.
      clear -ND I J. induction (pos s) as [|a l IH]; [destruct I|]. cbn in ND. inversion ND; subst. destruct I as [->|I]; [apply H1, in_or_app; auto|auto].
Qed.
Lemma mandatory_param s k : mandatory s k -> In k (args s).
Proof. unfold args. rewrite in_app_iff. intros [(i & E & _)|[I _]]; [left; eapply nth_error_In; eauto|auto]. Qed.

(* Signatures that do not combine positional defaults with keyword-only parameters, and with *args
   only together with **kwargs. Missing: the other signatures, see below. *)
Theorem C47_partial : forall V s (named : list (list (string * V))),
  wf s -> Forall (fun d => NoDup (map fst d)) named ->
  (kwonly s = [] \/ defaults s = 0) -> (varargs s = true -> varkw s = true) ->
  ((exists k, mandatory s k /\ missing k named) -> safe_call s named = Err ERuntime) /\
  ((forall k, mandatory s k -> ~ missing k named) ->
     exists d, safe_call s named = Ok d /\
       (forall k v, param s k \/ varkw s = true -> (dget k d = Some v <-> supplied k v named)) /\
       (forall k, ~ param s k -> varkw s = false -> dget k d = None)).
Proof.
  intros V s named W F Hs Hv.
  assert (Rq : forall k, In k (required s) <-> mandatory s k) by (intros; now apply required_spec).
  assert (Mem : forall k, mandatory s k -> dmem k (args_dict s named) = true <-> ~ missing k named).
  { intros k M. apply mem_supplied; auto. apply params_taken, mandatory_param, M. }
  unfold safe_call, check. split.
  - intros (k & M & Ms). destruct (forallb _ (required s)) eqn:E; [|reflexivity]. exfalso.
    rewrite forallb_forall in E. apply (Mem k M); auto. apply E, Rq, M.
  - intros N. assert (E : forallb (fun k => dmem k (args_dict s named)) (required s) = true).
    { apply forallb_forall. intros k I. apply Mem; [now apply Rq|]. apply N, Rq, I. }
    rewrite E. cbn [bind]. unfold bind_call.
    assert (E1 : forallb (fun kv => inb (fst kv) (args s) || varkw s)%bool (args_dict s named) = true).
    { apply forallb_forall. intros [k v] I. cbn. pose proof (dict_keys_taken s named k v I) as T. unfold takes in T.
      destruct (inb k (args s)), (varargs s), (varkw s); auto; try (specialize (Hv eq_refl)); cbn in *; congruence. }
    assert (E2 : forallb (fun k => dmem k (args_dict s named)) (without_default s) = true).
    { apply forallb_forall. intros k I. apply (without_default_spec s k W) in I. apply Mem; auto. }
    rewrite E1, E2. eexists. split; [reflexivity|]. split.
    + intros k v P. rewrite args_dict_spec by auto. split; [tauto|]. intros H. split; auto. unfold takes.
      destruct P as [P| ->]; [|now rewrite orb_true_r]. apply params_taken. unfold args. apply in_or_app. exact P.
    + intros k NP Kw. destruct (dget k (args_dict s named)) as [v|] eqn:Eg; auto. exfalso.
      apply args_dict_spec in Eg as [T _]; auto. unfold takes in T. rewrite Kw in *. destruct (varargs s); [specialize (Hv eq_refl); discriminate|].
      rewrite !orb_false_r in T. apply inb_In in T. unfold args in T. apply in_app_or in T. apply NP. exact T.
Qed.
Print Assumptions C47_partial.

(* With keyword-only parameters the defaults of the positional parameters are credited to the
   wrong parameters: the first positional parameter that has a default is demanded. *)
Theorem C47_default_demanded_refuted : forall V s (named : list (list (string * V))) k,
  wf s -> Forall (fun d => NoDup (map fst d)) named ->
  0 < defaults s -> kwonly s <> [] ->
  nth_error (pos s) (length (pos s) - defaults s) = Some k -> missing k named ->
  ~ mandatory s k /\ safe_call s named = Err ERuntime.
Proof.
  intros V s named k W F Hd Hk Ek Ms. pose proof W as (ND & D & Inc). split.
  - intros [(i & E & L)|[I _]].
    + assert (NP : NoDup (pos s)) by (clear -ND; induction (pos s) as [|a l IH]; [constructor|]; cbn in ND; inversion ND; subst; constructor; [intros I; apply H1, in_or_app; auto|auto]).
      assert (i = length (pos s) - defaults s); [|lia]. apply (proj1 (NoDup_nth_error (pos s)) NP); [apply nth_error_Some; congruence|congruence].
    + apply nth_error_In in Ek. clear -ND Ek I. induction (pos s) as [|a l IH]; [destruct Ek|]. cbn in ND. inversion ND; subst.
      destruct Ek as [->|Ek]; [apply H1, in_or_app; auto|auto].
  - unfold safe_call, check. destruct (forallb _ (required s)) eqn:E; [|reflexivity]. exfalso.
    rewrite forallb_forall in E. assert (Ip : In k (args s)) by (unfold args; apply in_or_app; left; eapply nth_error_In; eauto).
    assert (R : In k (required s)).
    { unfold required. apply filter_In. split; auto. rewrite andb_true_iff, !negb_true_iff, !inb_false. split.
      - unfold args_with_defaults. destruct (Nat.eqb_spec (defaults s) 0); [lia|]. unfold last_n, args. intros I.
        apply In_nth_error in I as (j & Ej).
        assert (Ej' : nth_error (pos s ++ kwonly s) (length (pos s ++ kwonly s) - defaults s + j) = Some k).
        { revert Ej. generalize (length (pos s ++ kwonly s) - defaults s). generalize (pos s ++ kwonly s). clear.
          intros l n. revert l. induction n as [|n IH]; intros [|a l] H; cbn in *; auto. destruct j; discriminate. }
        assert (Ek' : nth_error (pos s ++ kwonly s) (length (pos s) - defaults s) = Some k) by (rewrite nth_error_app1; auto; lia).
        assert (length (pos s) - defaults s = length (pos s ++ kwonly s) - defaults s + j).
        { apply (proj1 (NoDup_nth_error _) ND); [apply nth_error_Some; congruence|congruence]. }
        rewrite app_length in H. destruct (kwonly s); [congruence|]. cbn in H. lia.
      - intros I. apply Inc in I. apply nth_error_In in Ek. clear -ND Ek I. induction (pos s) as [|a l IH]; [destruct Ek|]. cbn in ND. inversion ND; subst.
        destruct Ek as [->|Ek]; [apply H1, in_or_app; auto|auto]. }
    apply E in R. apply mem_supplied in R; auto. now apply params_taken.
Qed.
Print Assumptions C47_default_demanded_refuted.
(* ... and a keyword-only parameter without default is not demanded: the check passes and the call
   itself fails with TypeError *)
Theorem C47_required_missed_refuted :
  let s := Sig ["x"%string] 1 false ["k"%string] [] false in
  wf s /\ mandatory s "k" /\ @safe_call nat s [[("x"%string, 1)]] = Err EType.
Proof.
  split; [|split; [|reflexivity]].
  - split; [repeat constructor; cbn; intros H; repeat (destruct H as [H|H]; [discriminate|]); auto|]. split; [cbn; lia|intros a []].
  - right. split; [left; auto|intros []].
Qed.
Print Assumptions C47_required_missed_refuted.
(* with *args and no **kwargs every further key of the dictionaries is passed on and the call fails *)
Theorem C47_varargs_refuted : forall V s (named : list (list (string * V))) k v,
  Forall (fun d => NoDup (map fst d)) named ->
  varargs s = true -> varkw s = false -> ~ param s k -> supplied k v named ->
  safe_call s named = Err EType \/ safe_call s named = Err ERuntime.
Proof.
  intros V s named k v F Va Kw NP Sp. unfold safe_call, check. destruct (forallb _ (required s)); [left|right; reflexivity]. cbn [bind].
  unfold bind_call. destruct (forallb _ (args_dict s named)) eqn:E; [|reflexivity]. exfalso.
  assert (X : dget k (args_dict s named) = Some v) by (apply args_dict_spec; auto; split; auto; unfold takes; rewrite Va; now rewrite orb_true_r).
  apply dget_Some_In in X. rewrite forallb_forall in E. apply E in X. cbn in X. rewrite Kw, orb_false_r in X. apply inb_In in X.
  apply NP. unfold args in X. now apply in_app_or in X.
Qed.
Print Assumptions C47_varargs_refuted.
Example C47_nonvacuous :
  let s := Sig ["a"; "b"; "c"]%string 1 false [] [] false in
  (safe_call s [[("a", 1); ("z", 9)]; [("b", 2)]; [("a", 3)]]%string, safe_call s [[("a", 1); ("c", 2)]]%string) =
  (Ok [("a", 3); ("b", 2)]%string, Err ERuntime).
Proof. reflexivity. Qed.

(* in general: one of the last [defaults] names of args is a keyword-only parameter without default *)
Theorem C47_required_not_demanded_refuted : forall V s (named : list (list (string * V))) k i,
  wf s -> Forall (fun d => NoDup (map fst d)) named ->
  0 < defaults s -> nth_error (kwonly s) i = Some k -> length (kwonly s) <= defaults s + i -> ~ In k (kwdefaults s) ->
  missing k named -> (forall k', param s k' -> k' <> k -> ~ missing k' named) ->
  mandatory s k /\ safe_call s named = Err EType.
Proof.
  intros V s named k i W F D Ek Li Nk Ms Oth. pose proof W as (ND & Dl & Inc).
  assert (Ik : In k (kwonly s)) by (eapply nth_error_In; eauto).
  assert (M : mandatory s k) by (right; auto).
  split; auto.
  assert (Sp : forall k', In k' (args s) -> k' <> k -> dmem k' (args_dict s named) = true).
  { intros k' I N. apply mem_supplied; auto; [now apply params_taken|]. apply Oth; auto. unfold args in I. now apply in_app_or in I. }
  unfold safe_call, check.
  assert (R : forallb (fun k0 => dmem k0 (args_dict s named)) (required s) = true).
  { apply forallb_forall. intros k' I. unfold required in I. apply filter_In in I as [I Q]. apply Sp; auto. intros ->.
    apply andb_true_iff in Q as [Q _]. apply negb_true_iff, inb_false in Q. apply Q.
    unfold args_with_defaults. destruct (Nat.eqb_spec (defaults s) 0); [lia|]. unfold last_n.
    assert (E : nth_error (args s) (length (pos s) + i) = Some k) by (unfold args; rewrite nth_error_app2 by lia; rewrite <- Ek; f_equal; lia).
    rewrite <- (firstn_skipn (length (args s) - defaults s) (args s)) in E.
    assert (LA : length (args s) = length (pos s) + length (kwonly s)) by (unfold args; apply app_length).
    rewrite nth_error_app2 in E by (rewrite firstn_length; lia). eapply nth_error_In; eauto. }
  rewrite R. cbn [bind]. unfold bind_call. destruct (forallb _ (args_dict s named)); auto.
  destruct (forallb _ (without_default s)) eqn:Q; auto. exfalso. rewrite forallb_forall in Q.
  assert (X : dmem k (args_dict s named) = true) by (apply Q, without_default_spec; auto).
  apply mem_supplied in X; auto. apply params_taken, mandatory_param, M.
Qed.
Print Assumptions C47_required_not_demanded_refuted.
