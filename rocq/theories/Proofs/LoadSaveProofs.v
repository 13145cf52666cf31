From Coq Require Import Ascii Decimal DecimalFacts DecimalNat Nnat.
From Verif Require Import Lib.Base Model.LoadSave Spec.LoadSaveSpec.
Set Implicit Arguments.

Definition val (c : ascii) : nat := N.to_nat (N_of_ascii c) - 48.
Lemma digit_val_digit c : is_digit c = true <-> digit_val c = Some (val c).
Proof.
  destruct c as [[] [] [] [] [] [] [] []]; vm_compute; split; intros H; try reflexivity; try discriminate.
Qed.
Lemma digit_val_val c d : digit_val c = Some d -> is_digit c = true /\ val c = d /\ d < 10.
Proof.
  destruct c as [[] [] [] [] [] [] [] []]; vm_compute; intros H; try discriminate; injection H as <-;
    repeat split; lia.
Qed.
Lemma word_char c : is_word c = true <-> name_char c.
Proof.
  unfold name_char, is_word, is_digit, between. rewrite !orb_true_iff, !andb_true_iff, !N.leb_le, !Ascii.eqb_eq.
  assert (E : forall x, N_of_ascii x = N.of_nat (nat_of_ascii x)) by (intros; unfold nat_of_ascii; now rewrite Nnat.N2Nat.id).
  rewrite !E. set (n := nat_of_ascii c).
  replace (nat_of_ascii "a") with 97 by reflexivity. replace (nat_of_ascii "z") with 122 by reflexivity.
  replace (nat_of_ascii "A") with 65 by reflexivity. replace (nat_of_ascii "Z") with 90 by reflexivity.
  replace (nat_of_ascii "0") with 48 by reflexivity. replace (nat_of_ascii "9") with 57 by reflexivity.
  cbv zeta.
  assert (L : forall x y, (N.of_nat x <= N.of_nat y)%N <-> x <= y) by (intros; lia). rewrite !L. tauto.
Qed.
Lemma is_digit_word c : is_digit c = true -> is_word c = true.
Proof. unfold is_word. intros ->. now rewrite !orb_true_r. Qed.

Lemma to_dec_acc ds acc : Forall (fun c => is_digit c = true) ds ->
  Nat.of_uint_acc (to_dec ds) acc = fold_left (fun a c => 10 * a + val c) ds acc.
Proof.
  intros F. revert acc. induction F as [|c ds Hc F IH]; intros acc; [reflexivity|].
  cbn [to_dec fold_left]. fold (val c). rewrite <- IH.
  apply digit_val_digit in Hc. apply digit_val_val in Hc as (_ & _ & B).
  destruct (val c) as [|[|[|[|[|[|[|[|[|[|k]]]]]]]]]]; try lia;
    cbn [Nat.of_uint_acc]; rewrite Nat.tail_mul_spec; f_equal; lia.
Qed.
Lemma int_of_fold ds : Forall (fun c => is_digit c = true) ds -> int_of ds = fold_left (fun a c => 10 * a + val c) ds 0.
Proof. apply to_dec_acc. Qed.

Lemma reads_digits ds v : reads ds v -> ds <> [] /\ Forall (fun c => is_digit c = true) ds /\ int_of ds = v.
Proof.
  induction 1 as [c d H|ds v c d H IH Hc].
  - apply digit_val_val in H as (H1 & H2 & _). split; [discriminate|]. split; [auto|].
    rewrite int_of_fold by auto. cbn. lia.
  - destruct IH as (_ & F & E). apply digit_val_val in Hc as (H1 & H2 & _).
    split; [destruct ds; discriminate|]. assert (F' : Forall (fun c => is_digit c = true) (ds ++ [c])) by (apply Forall_app; auto).
    split; auto. rewrite int_of_fold in * by auto. rewrite fold_left_app. cbn [fold_left]. congruence.
Qed.
Lemma digits_reads ds : ds <> [] -> Forall (fun c => is_digit c = true) ds -> reads ds (int_of ds).
Proof.
  intros Hn F. rewrite int_of_fold by auto. revert Hn F. induction ds as [|c ds IH] using rev_ind; [congruence|].
  intros _ F. apply Forall_app in F as [F1 F2]. inversion F2 as [|? ? Hc _]; subst.
  rewrite fold_left_app. cbn [fold_left]. apply digit_val_digit in Hc.
  destruct ds as [|c' ds].
  - cbn. replace (val c + 0 * 10) with (val c) by lia. now constructor.
  - apply reads_snoc; auto. apply IH; auto. discriminate.
Qed.
Lemma reads_int ds v : reads ds v <-> ds <> [] /\ Forall (fun c => is_digit c = true) ds /\ v = int_of ds.
Proof.
  split; [intros H; apply reads_digits in H as (? & ? & <-); auto|]. intros (H1 & H2 & ->). now apply digits_reads.
Qed.

Lemma of_dec_digits d : Forall (fun c => is_digit c = true) (of_dec d).
Proof. induction d; cbn; constructor; auto. Qed.
Lemma to_of_dec d : to_dec (of_dec d) = d.
Proof. induction d; cbn; auto; now rewrite IHd. Qed.
Lemma of_to_dec ds : Forall (fun c => is_digit c = true) ds -> of_dec (to_dec ds) = ds.
Proof.
  induction 1 as [|c ds Hc F IH]; [reflexivity|]. cbn [to_dec].
  destruct c as [[] [] [] [] [] [] [] []]; vm_compute in Hc; try discriminate;
    match goal with |- context [N.to_nat ?x - 48] =>
      let v := eval vm_compute in (N.to_nat x - 48) in change (N.to_nat x - 48) with v end;
    cbv zeta iota; cbn [of_dec]; f_equal; exact IH.
Qed.
Lemma int_show v : int_of (show v) = v.
Proof. unfold int_of, show. rewrite to_of_dec. apply Unsigned.of_to. Qed.
Lemma unorm_show v : unorm (Nat.to_uint v) = Nat.to_uint v.
Proof. now rewrite <- Unsigned.to_of, Unsigned.of_to. Qed.
Lemma show_nonempty v : show v <> [].
Proof.
  unfold show. pose proof (unorm_show v) as H. destruct (Nat.to_uint v); cbn; try discriminate.
Qed.
Lemma reads_show v : reads (show v) v.
Proof. rewrite reads_int. split; [apply show_nonempty|]. split; [apply of_dec_digits|]. now rewrite int_show. Qed.
Lemma unorm_plain ds : ds <> [] -> Forall (fun c => is_digit c = true) ds -> plain ds -> unorm (to_dec ds) = to_dec ds.
Proof.
  intros Hn F P. destruct ds as [|c ds]; [congruence|]. inversion F as [|? ? Hc F']; subst.
  destruct c as [[] [] [] [] [] [] [] []]; vm_compute in Hc; try discriminate; try reflexivity.
  destruct ds as [|c' ds]; [reflexivity|destruct P].
Qed.
Lemma show_reads ds v : reads ds v -> plain ds -> show v = ds.
Proof.
  rewrite reads_int. intros (Hn & F & ->) P. unfold show, int_of.
  rewrite Unsigned.to_of, unorm_plain by auto. now apply of_to_dec.
Qed.
Lemma plain_show v : plain (show v).
Proof.
  unfold show. pose proof (unorm_show v) as H. destruct (Nat.to_uint v) as [|d|d|d|d|d|d|d|d|d|d]; cbn; auto.
  unfold unorm in H. cbn [nzhead] in H. destruct (nzhead d) eqn:Ed; try discriminate.
  - injection H as <-. exact I.
  - exfalso. exact (nzhead_nonzero _ _ Ed).
Qed.

(* ---- the regular expression ---- *)
Lemma span_spec l : let (a, b) := span_digits l in
  l = a ++ b /\ Forall (fun c => is_digit c = true) a /\ (forall c r, b = c :: r -> is_digit c = false).
Proof.
  induction l as [|c l IH]; cbn; [repeat split; auto; discriminate|].
  destruct (is_digit c) eqn:E.
  - destruct (span_digits l) as [a b]. destruct IH as (-> & F & G). cbn. auto.
  - repeat split; auto. intros c' r [= <- <-]. auto.
Qed.
Lemma span_unique a c r : Forall (fun c => is_digit c = true) a -> is_digit c = false ->
  span_digits (a ++ c :: r) = (a, c :: r).
Proof. intros F H. induction F as [|x a Hx F IH]; cbn; [now rewrite H|]. now rewrite Hx, IH. Qed.
Lemma strip_spec l r : strip_rev_suffix l = Some r <-> l = rev dot_pt ++ r.
Proof.
  cbn [dot_pt rev app]. split.
  - destruct l as [|t [|p [|d l]]]; cbn; try discriminate.
    destruct (Ascii.eqb_spec d "."), (Ascii.eqb_spec p "p"), (Ascii.eqb_spec t "t"); cbn; try discriminate.
    intros [= ->]. now subst.
  - intros ->. reflexivity.
Qed.
Lemma Forall_forallb {A} (p : A -> bool) l : Forall (fun c => p c = true) l <-> forallb p l = true.
Proof. rewrite forallb_forall, Forall_forall. reflexivity. Qed.

Lemma good_words n : good_name n <-> n <> [] /\ forallb is_word n = true.
Proof.
  unfold good_name. rewrite <- Forall_forallb. split; intros [H F]; split; auto;
    (eapply Forall_impl; [|exact F]); intros; now apply word_char.
Qed.
Lemma forallb_rev {A} (p : A -> bool) l : forallb p (rev l) = forallb p l.
Proof. induction l as [|x l IH]; cbn; auto. rewrite forallb_app. cbn. rewrite IH. destruct (p x), (forallb p l); reflexivity. Qed.

Lemma fullmatch_spec m n v : fullmatch m = Some (n, v) <->
  good_name n /\ exists ds, m = model_file n ds /\ reads ds v.
Proof.
  rewrite good_words. unfold fullmatch, model_file. split.
  - destruct (strip_rev_suffix (rev m)) as [r|] eqn:E; [|discriminate]. apply strip_spec in E.
    pose proof (span_spec r) as S. destruct (span_digits r) as [ds b]. destruct S as (-> & F & G).
    destruct ds as [|d ds]; [discriminate|]. destruct b as [|c b]; [discriminate|].
    destruct (Ascii.eqb_spec c "_"); [|discriminate]. subst c. cbn [andb].
    destruct (forallb is_word b) eqn:W; [|discriminate]. destruct (length b =? 0) eqn:L; [discriminate|].
    intros [= <- <-]. split; [split|].
    + intros H. apply (f_equal (@length _)) in H. rewrite rev_length in H. cbn in H. apply Nat.eqb_neq in L. auto.
    + now rewrite forallb_rev.
    + exists (rev (d :: ds)). split.
      * rewrite <- (rev_involutive m), E. rewrite !rev_app_distr. cbn [rev]. rewrite <- !app_assoc. reflexivity.
      * apply digits_reads; [|exact (Forall_rev F)]. cbn. destruct (rev ds); discriminate.
  - intros ([Hn W] & ds & -> & R). apply reads_int in R as (Hd & F & ->).
    rewrite !rev_app_distr, <- !app_assoc. cbn [rev app].
    replace (strip_rev_suffix _) with (Some (rev ds ++ "_"%char :: rev n)) by (symmetry; apply strip_spec; reflexivity).
    rewrite span_unique by (try apply Forall_rev; auto).
    destruct (rev ds) as [|d ds'] eqn:E. { apply (f_equal (@rev _)) in E. rewrite rev_involutive in E. contradiction. }
    rewrite forallb_rev, W, rev_length. cbn [Ascii.eqb Bool.eqb andb].
    destruct (length n =? 0) eqn:L. { apply Nat.eqb_eq in L. destruct n; [congruence|discriminate]. }
    cbn. rewrite rev_involutive. repeat f_equal. change (rev ds' ++ [d]) with (rev (d :: ds')). rewrite <- E. now rewrite rev_involutive.
Qed.
Lemma file_model n ds : file n ds = model_file n ds.
Proof. reflexivity. Qed.
Lemma fullmatch_file n v : good_name n -> fullmatch (model_file n (show v)) = Some (n, v).
Proof. intros H. apply fullmatch_spec. split; auto. exists (show v). split; auto. apply reads_show. Qed.

Section C.
  Context {C : Type}.
  Implicit Types (d : dir C) (st : store C).

  Lemma versions_spec d n v : In v (versions d n) <->
    good_name n /\ exists ds, In (model_file n ds) (dkeys d) /\ reads ds v.
  Proof.
    unfold versions. rewrite in_flat_map. split.
    - intros (m & I & H). destruct (fullmatch m) as [[n' v']|] eqn:E; [|destruct H].
      destruct (eqb_spec n' n); [|destruct H]. subst. destruct H as [<-|[]].
      apply fullmatch_spec in E as (G & ds & -> & R). split; auto. exists ds. auto.
    - intros (G & ds & I & R). exists (model_file n ds). split; auto.
      replace (fullmatch (model_file n ds)) with (Some (n, v)) by (symmetry; apply fullmatch_spec; eauto).
      rewrite eqb_refl. left; auto.
  Qed.
  Lemma memn_true v l : memn v l = true <-> In v l.
  Proof.
    unfold memn. rewrite existsb_exists. split; [intros (x & I & E); apply Nat.eqb_eq in E as ->; auto|].
    intros I. exists v. split; auto. apply Nat.eqb_refl.
  Qed.
  (* all networks have version v *)
  Definition have d (mm : list (name * name)) v := forall n r, In (n, r) mm -> In v (versions d n).
  Lemma have_forallb d mm v : forallb (fun nr => memn v (versions d (fst nr))) mm = true <-> have d mm v.
  Proof.
    rewrite forallb_forall. unfold have. split.
    - intros H n r I. apply memn_true. exact (H (n, r) I).
    - intros H [n r] I. apply memn_true. eapply H; eauto.
  Qed.
  Lemma common_spec d mm vs v : common d mm = Ok vs -> In v vs <-> have d mm v.
  Proof.
    destruct mm as [|[n r] mm]; [discriminate|]. cbn [common]. intros [= <-]. rewrite filter_In, have_forallb.
    unfold have. split.
    - intros [I H] n' r' [[= <- <-]|I']; eauto.
    - intros H. split; [apply (H n r); left; auto|]. intros n' r' I. eapply H; right; eauto.
  Qed.
  Lemma fold_max vs v : (fold_left Nat.max vs v = v \/ In (fold_left Nat.max vs v) vs) /\
    v <= fold_left Nat.max vs v /\ (forall x, In x vs -> x <= fold_left Nat.max vs v).
  Proof.
    revert v. induction vs as [|a vs IH]; intros v; cbn [fold_left].
    - split; auto. split; auto. intros x [].
    - destruct (IH (Nat.max v a)) as (H1 & H2 & H3). split; [|split].
      + destruct H1 as [->|H1]; [|right; right; auto]. destruct (Nat.max_spec v a) as [[_ ->]|[_ ->]]; [right; left|left]; auto.
      + lia.
      + intros x [->|I]; [lia|auto].
  Qed.

  (* restoring one version *)
  Lemma load_all_ok d v mm st :
    (forall n r, In (n, r) mm -> exists c, dget (file n v) d = Some (Some c)) ->
    NoDup (map snd mm) ->
    exists st', load_all d v mm st = (st', Ok tt) /\
      (forall n r c, In (n, r) mm -> dget (file n v) d = Some (Some c) -> dget r st' = Some c) /\
      (forall r, ~ In r (map snd mm) -> dget r st' = dget r st).
  Proof.
    intros H ND. revert st. induction mm as [|[n r] mm IH]; intros st; cbn [load_all].
    - exists st. repeat split; auto. intros n r c [].
    - destruct (H n r) as (c & E); [left; auto|]. rewrite E. inversion ND as [|? ? N1 N2]; subst.
      destruct (IH (fun n r I => H n r (or_intror I)) N2 (dset r c st)) as (st' & E1 & E2 & E3).
      exists st'. split; auto. split.
      + intros n' r' c' [[= <- <-]|I] Hc; [|eauto]. rewrite E3 by auto. rewrite dget_dset_same. congruence.
      + intros r' N. cbn in N. rewrite E3 by tauto. apply dget_dset_other. tauto.
  Qed.
  Lemma load_all_sound d v mm st st' :
    load_all d v mm st = (st', Ok tt) -> forall n r, In (n, r) mm -> exists c, dget (file n v) d = Some (Some c).
  Proof.
    revert st. induction mm as [|[n r] mm IH]; intros st; cbn [load_all]; [intros _ ? ? []|].
    destruct (dget (file n v) d) as [[c|]|] eqn:E; try discriminate. intros H n' r' [[= <- <-]|I]; eauto.
  Qed.

  Lemma dget_In_keys (K V : Type) `{Eqb K} (k : K) (d : list (K * V)) : In k (dkeys d) -> exists v, dget k d = Some v.
  Proof. intros I. destruct (dget k d) eqn:E; eauto. apply dget_None in E. contradiction. Qed.

  Lemma prep_cases d mm version quiet st : mm <> [] ->
    let ask := match version with Some z => if (0 <=? z)%Z then Some (Z.to_nat z) else None | None => None end in
    (forall v, ask = Some v -> have d mm v ->
       prep_load_model (Some d) mm version quiet st = load_all d (show v) mm st) /\
    ((forall v, ask = Some v -> ~ have d mm v) ->
       (forall v, have d mm v -> (forall v', have d mm v' -> v' <= v) ->
          prep_load_model (Some d) mm version quiet st = load_all d (show v) mm st) /\
       ((forall v, ~ have d mm v) ->
          prep_load_model (Some d) mm version quiet st = (st, if quiet then Ok tt else Err ERuntime))).
  Proof.
    intros Hm ask.
    assert (A : (forall v, have d mm v -> (forall v', have d mm v' -> v' <= v) -> auto_find d mm quiet st = load_all d (show v) mm st) /\
       ((forall v, ~ have d mm v) -> auto_find d mm quiet st = (st, if quiet then Ok tt else Err ERuntime))).
    { unfold auto_find. destruct (common d mm) as [vs|] eqn:E; [|destruct mm as [|[]]; [congruence|discriminate]].
      pose proof (fun v => @common_spec d mm vs v E) as S. split.
      - intros v Hv Mx. apply S in Hv. destruct vs as [|w vs]; [destruct Hv|].
        destruct (fold_max vs w) as (M1 & M2 & M3).
        replace (fold_left Nat.max vs w) with v; auto. apply Nat.le_antisymm.
        + destruct Hv as [<-|Hv]; auto.
        + apply Mx, S. destruct M1 as [->|M1]; [left|right]; auto.
      - intros N. destruct vs as [|w vs]; [destruct quiet; auto|]. exfalso. apply (N w), S. left; auto. }
    destruct A as [A1 A2]. unfold prep_load_model.
    destruct version as [z|].
    - unfold ask in *. destruct (Z.leb_spec 0 z) as [Hz|Hz].
      + assert (B : forallb (fun nr : name * name => (true && memn (Z.to_nat z) (versions d (fst nr)))%bool) mm = true <-> have d mm (Z.to_nat z)).
        { rewrite <- have_forallb. reflexivity. }
        assert (Sz : show_z z = show (Z.to_nat z)) by (unfold show_z; destruct (Z.ltb_spec z 0); [lia|auto]).
        split.
        * intros v [= <-] Hv. apply B in Hv. rewrite Hv, Sz. reflexivity.
        * intros N. destruct (forallb _ mm) eqn:Ef; [exfalso; apply (N _ eq_refl), B; auto|]. auto.
      + split; [discriminate|]. intros _. destruct (forallb _ mm) eqn:Ef; auto.
        destruct mm as [|nr mm]; [congruence|]. cbn in Ef. destruct (Z.leb_spec 0 z); [lia|]. discriminate.
    - split; [discriminate|]. intros _. auto.
  Qed.
End C.
