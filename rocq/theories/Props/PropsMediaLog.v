(* C133-C134: the local media logger. *)
From Coq Require Import Lia Ascii.
From Verif Require Import Lib.Base Model.LoadSave Model.MediaLog Proofs.LoadSaveProofs.
Open Scope nat_scope.
Set Implicit Arguments.

(* ---- splitext and the candidates ---- *)
Lemma last_dot_split r acc t ext : last_dot r acc = Some (t, ext) -> rev t ++ dot :: ext = rev r ++ acc.
Proof.
  revert acc. induction r as [|c r IH]; intros acc E; cbn [last_dot] in E; [discriminate|].
  destruct (Ascii.eqb_spec c dot) as [Q|Q].
  - injection E as <- <-. subst c. cbn [rev]. now rewrite <- app_assoc.
  - destruct (Ascii.eqb c slash); [discriminate|]. rewrite (IH _ E). cbn [rev]. now rewrite <- app_assoc.
Qed.
Lemma splitext_app p : fst (splitext p) ++ snd (splitext p) = p.
Proof.
  unfold splitext. destruct (last_dot (rev p) []) as [[t ext]|] eqn:E; [|apply app_nil_r].
  destruct (existsb _ _); [|apply app_nil_r].
  apply last_dot_split in E. cbn [fst snd]. rewrite E, rev_involutive. apply app_nil_r.
Qed.
Lemma ml_show_inj a b : show a = show b -> a = b.
Proof. intros H. rewrite <- (int_show a), <- (int_show b). now rewrite H. Qed.

(* the specification of the name given to the k-th candidate: the path, or the path with _k before its extension *)
Definition candidate (p : name) (k : nat) : name :=
  match k with 0 => p | S _ => fst (splitext p) ++ under :: show k ++ snd (splitext p) end.
Lemma numbered_candidate p k : k <> 0 -> numbered p k = candidate p k.
Proof.
  intros N. unfold numbered, candidate. destruct (splitext p) as [r e]. destruct k; [congruence|]. cbn [fst snd].
  now rewrite <- app_assoc.
Qed.
Lemma candidate_inj p j k : candidate p j = candidate p k -> j = k.
Proof.
  assert (L : forall m, candidate p (S m) <> p).
  { intros m E. assert (Q := f_equal (@length ascii) E). rewrite <- (splitext_app p) in Q at 2. cbn [candidate] in Q.
    rewrite !app_length in Q. cbn [length] in Q. rewrite app_length in Q. lia. }
  intros E. destruct j, k; auto.
  - change (p = candidate p (S k)) in E. symmetry in E. now apply L in E.
  - now apply L in E.
  - cbn [candidate] in E. apply app_inv_head in E. injection E as E. apply app_inv_tail in E. now apply ml_show_inj.
Qed.

(* what splitext means: directory / stem . extension, the stem not made of dots only *)
Lemma last_dot_ext ext rest acc : (forall c, In c ext -> c <> dot /\ c <> slash) ->
  last_dot (rev ext ++ dot :: rest) acc = Some (rest, ext ++ acc).
Proof.
  revert rest acc. induction ext as [|c ext IH]; intros rest acc H; [reflexivity|].
  cbn [rev]. rewrite <- app_assoc. cbn [app]. 
  assert (G : forall r a, (forall c, In c r -> c <> dot /\ c <> slash) -> last_dot (r ++ dot :: rest) a = Some (rest, rev r ++ a)).
  { clear. induction r as [|c r IH]; intros a H; [reflexivity|]. cbn [app last_dot].
    destruct (H c (or_introl eq_refl)) as [A B]. destruct (Ascii.eqb_spec c dot); [congruence|].
    destruct (Ascii.eqb_spec c slash); [congruence|]. rewrite IH by (intros; apply H; now right). cbn [rev].
    now rewrite <- app_assoc. }
  change (rev ext ++ c :: dot :: rest) with (rev ext ++ [c] ++ dot :: rest). rewrite app_assoc.
  rewrite G. { now rewrite rev_app_distr, rev_involutive. }
  intros x I. apply H. apply in_app_or in I as [I|[<-|[]]]; [right; now apply in_rev|now left].
Qed.
Theorem C133_splitext dir stem ext : (forall c, In c ext -> c <> dot /\ c <> slash) -> ~ In slash stem ->
  (exists c, In c stem /\ c <> dot) ->
  splitext (dir ++ slash :: stem ++ dot :: ext) = (dir ++ slash :: stem, dot :: ext) /\
  splitext (stem ++ dot :: ext) = (stem, dot :: ext) /\
  basename (dir ++ slash :: stem ++ dot :: ext) = stem ++ dot :: ext.
Proof.
  intros E S (c & I & N).
  assert (CA : forall (a b : name), ~ In slash a -> component (a ++ b) = a ++ component b).
  { induction a as [|x a IH]; intros b H; [reflexivity|]. cbn [app component]. destruct (Ascii.eqb_spec x slash).
    - exfalso. apply H. now left.
    - rewrite IH; auto. intros X. apply H. now right. }
  assert (RS : ~ In slash (rev stem)) by (intros X; apply S; now apply in_rev).
  assert (Z : forall b : name, existsb (fun x => negb (Ascii.eqb x dot)) (component (rev stem ++ b)) = true).
  { intros b. apply existsb_exists. exists c. split.
    - rewrite CA by auto. apply in_or_app. left. now apply in_rev in I.
    - destruct (Ascii.eqb_spec c dot); [congruence|reflexivity]. }
  split; [|split].
  - unfold splitext. replace (rev (dir ++ slash :: stem ++ dot :: ext)) with (rev ext ++ dot :: rev stem ++ slash :: rev dir).
    2:{ rewrite rev_app_distr. cbn [rev]. rewrite rev_app_distr. cbn [rev]. now rewrite <- !app_assoc. }
    rewrite last_dot_ext by auto. rewrite Z. rewrite rev_app_distr. cbn [rev]. rewrite !rev_involutive, app_nil_r, <- app_assoc. reflexivity.
  - unfold splitext. replace (rev (stem ++ dot :: ext)) with (rev ext ++ dot :: rev stem ++ []).
    2:{ rewrite rev_app_distr. cbn [rev]. now rewrite <- !app_assoc, app_nil_r. }
    rewrite last_dot_ext by auto. rewrite Z. now rewrite rev_app_distr, rev_involutive, app_nil_r.
  - unfold basename. rewrite rev_app_distr. cbn [rev]. rewrite <- app_assoc. rewrite CA.
    + cbn [component app]. rewrite Ascii.eqb_refl, app_nil_r. apply rev_involutive.
    + intros X. apply in_rev in X. apply in_app_or in X as [X|[X|X]]; [auto|discriminate|]. now destruct (E _ X).
Qed.
Print Assumptions C133_splitext.

Section Artifacts.
  Context {C : Type}.
  Notation files := (@files C).
  Implicit Types (fs : files).

  Lemma search_spec p fs : forall fuel k cur, cur = candidate p k -> (forall j, j < k -> dmem (candidate p j) fs = true) ->
    match search fuel fs p k cur with
    | Some q => exists m, q = candidate p m /\ dmem q fs = false /\ forall j, j < m -> dmem (candidate p j) fs = true
    | None => forall j, j < k + fuel -> dmem (candidate p j) fs = true
    end.
  Proof.
    induction fuel as [|fuel IH]; intros k cur -> Hk; cbn [search].
    - intros j Hj. apply Hk. lia.
    - destruct (dmem (candidate p k) fs) eqn:E.
      + specialize (IH (k + 1) (numbered p (k + 1))).
        rewrite numbered_candidate in IH by lia. specialize (IH eq_refl).
        assert (A : forall j, j < k + 1 -> dmem (candidate p j) fs = true).
        { intros j Hj. destruct (Nat.eq_dec j k) as [Q|Q]; [now rewrite Q|]. apply Hk. lia. }
        specialize (IH A). rewrite numbered_candidate by lia.
        destruct (search fuel fs p (k + 1) (candidate p (k + 1))); [exact IH|].
        intros j Hj. apply IH. lia.
      + exists k. auto.
  Qed.
  Lemma pigeon p fs n : (forall j, j < n -> dmem (candidate p j) fs = true) -> n <= length fs.
  Proof.
    intros H.
    assert (I : incl (map (candidate p) (seq 0 n)) (dkeys fs)).
    { intros x Hx. apply in_map_iff in Hx. destruct Hx as [j [<- Hj]]. apply in_seq in Hj.
      apply (proj1 (dmem_true _ _)), H. lia. }
    assert (ND : NoDup (map (candidate p) (seq 0 n))).
    { generalize (seq_NoDup n 0). generalize (seq 0 n). induction l as [|a l IH]; intros D; cbn; constructor.
      - inversion D as [|? ? N1 N2]; subst. intros X. apply in_map_iff in X. destruct X as [b [Q Hb]].
        apply candidate_inj in Q. congruence.
      - inversion D; subst; auto. }
    pose proof (NoDup_incl_length ND I) as L. unfold dkeys in L. rewrite !map_length, seq_length in L. exact L.
  Qed.

  (* more rounds than there are files are never needed, and the first free candidate is taken *)
  Theorem C133_search fuel fs p : length fs < fuel ->
    exists m, enumerate_till_valid fuel fs p = Some (candidate p m) /\ m <= length fs /\
              dmem (candidate p m) fs = false /\ (forall j, j < m -> dmem (candidate p j) fs = true).
  Proof.
    intros L. unfold enumerate_till_valid.
    assert (S := @search_spec p fs fuel 0 p eq_refl). specialize (S ltac:(lia)).
    destruct (search fuel fs p 0 p) as [q|].
    - destruct S as [m [-> [F A]]]. exists m. repeat split; auto. eapply pigeon; eauto.
    - exfalso. assert (Q := @pigeon p fs fuel S). lia.
  Qed.

  (* the specification: the wanted path of an artifact *)
  Definition wanted (dir artifact : name) (destination : option name) : name :=
    dir ++ slash :: match destination with Some (c :: d) => c :: d | _ => basename artifact end.
  Theorem C133_artifact fuel dir artifact destination fs c : length fs < fuel -> dget artifact fs = Some c ->
    exists m, let p := candidate (wanted dir artifact destination) m in
      log_artifact fuel dir artifact destination fs = Some (Ok (fs ++ [(p, c)])) /\ ~ In p (dkeys fs) /\
      (forall j, j < m -> In (candidate (wanted dir artifact destination) j) (dkeys fs)).
  Proof.
    intros L A. destruct (@C133_search fuel fs (wanted dir artifact destination) L) as [m [E [_ [F Hm]]]].
    exists m. cbn zeta.
    assert (N : ~ In (candidate (wanted dir artifact destination) m) (dkeys fs)).
    { intros I. apply (proj2 (dmem_true _ _)) in I. congruence. }
    split; [|split; [exact N|intros j Hj; apply (proj1 (dmem_true _ _)), Hm, Hj]].
    unfold log_artifact.
    replace (match destination with Some (c0 :: d) => dir ++ slash :: c0 :: d | _ => dir ++ slash :: basename artifact end)
      with (wanted dir artifact destination) by (unfold wanted; destruct destination as [[|]|]; reflexivity).
    rewrite E. cbn [option_map]. unfold copy. rewrite A. now rewrite dset_new.
  Qed.
  (* a missing artifact changes nothing *)
  Theorem C133_missing fuel dir artifact destination fs : length fs < fuel -> dget artifact fs = None ->
    log_artifact fuel dir artifact destination fs = Some (Err EOther).
  Proof.
    intros L A. unfold log_artifact.
    set (t := match destination with Some (c0 :: d) => _ | _ => _ end).
    destruct (@C133_search fuel fs t L) as [m [E _]]. rewrite E. cbn [option_map]. unfold copy. now rewrite A.
  Qed.

  (* any sequence of calls that do not fail keeps every file there was and every artifact *)
  Fixpoint log_artifacts (dir : name) (l : list (name * option name)) fs : option (res files) :=
    match l with
    | [] => Some (Ok fs)
    | (a, d) :: r => match log_artifact (S (length fs)) dir a d fs with
                     | Some (Ok fs) => log_artifacts dir r fs
                     | x => x
                     end
    end.
  Theorem C133_all_kept dir : forall l fs fs', log_artifacts dir l fs = Some (Ok fs') ->
    exists news, fs' = fs ++ news /\
      Forall2 (fun (x : name * option name) (y : name * C) =>
                 (exists m, fst y = candidate (wanted dir (fst x) (snd x)) m)) l news /\
      (forall x, In x (dkeys news) -> ~ In x (dkeys fs)) /\ NoDup (dkeys news) /\
      (forall k a d, nth_error l k = Some (a, d) -> exists c, option_map snd (nth_error news k) = Some c /\
                     dget a (fs ++ firstn k news) = Some c).
  Proof.
    induction l as [|[a d] l IH]; intros fs fs' E; cbn [log_artifacts] in E.
    - injection E as <-. exists []. rewrite app_nil_r. repeat split; try constructor; cbn; try tauto.
      intros [|k] a d Hk; discriminate.
    - destruct (dget a fs) as [c|] eqn:A.
      2:{ rewrite (@C133_missing (S (length fs)) dir a d fs) in E by (auto; lia). discriminate. }
      destruct (@C133_artifact (S (length fs)) dir a d fs c ltac:(lia) A) as [m [F [N _]]].
      set (p := candidate (wanted dir a d) m) in *. rewrite F in E. destruct (IH _ _ E) as [news [-> [W [D [ND S]]]]].
      exists ((p, c) :: news). rewrite <- app_assoc. cbn [app]. split; [reflexivity|].
      assert (KK : forall x, In x (dkeys (fs ++ [(p, c)])) <-> In x (dkeys fs) \/ x = p).
      { intros x. unfold dkeys. rewrite map_app, in_app_iff. cbn. intuition. }
      split; [constructor; [exists m; reflexivity|exact W]|]. split; [|split].
      + intros x Hx. unfold dkeys in Hx. cbn [map fst In] in Hx. destruct Hx as [Q|Hx]; [subst x; exact N|].
        intros B. apply (D x Hx). apply KK. auto.
      + unfold dkeys. cbn [map fst]. constructor; [|exact ND]. intros Hx. apply (D p Hx), KK. auto.
      + intros [|k] a0 d0 Hk; cbn [nth_error firstn] in *.
        * injection Hk as <- <-. exists c. split; [reflexivity|]. now rewrite app_nil_r.
        * destruct (S k a0 d0 Hk) as [c0 [X Y]]. exists c0. split; [exact X|]. now rewrite <- app_assoc in Y.
  Qed.
End Artifacts.
Print Assumptions C133_search.
Print Assumptions C133_artifact.
Print Assumptions C133_missing.
Print Assumptions C133_all_kept.

(* ---- C134 ---- *)
Section Images.
  Context {C : Type}.
  Variable dir : name.
  Notation call := (name * option nat * C)%type.
  Definition fresh_logger : @logger C := MkL [] [].
  Definition do_call (l : @logger C) (x : call) : @logger C := fst (log_image dir (fst (fst x)) (Pil (snd x)) (snd (fst x)) l).
  Definition log_images (cs : list call) : @logger C := fold_left do_call cs fresh_logger.

  (* the specification: how many earlier images a name had, and the number an image gets *)
  Definition rank (cs : list call) (n : name) : nat := length (filter (fun x => eqb (fst (fst x)) n) cs).
  Definition used (cs : list call) (i : nat) : option (name * nat) :=
    match nth_error cs i with
    | Some (n, s, _) => Some (n, match s with Some (S k) => S k | _ => rank (firstn i cs) n end)
    | None => None
    end.

  Lemma no_under_show k c : In c (show k) -> c <> under.
  Proof.
    intros H E. subst c. pose proof (of_dec_digits (Nat.to_uint k)) as F. rewrite Forall_forall in F.
    apply F in H. vm_compute in H. discriminate.
  Qed.
  Lemma split_last (a b x y : name) : ~ In under x -> ~ In under y -> a ++ under :: x = b ++ under :: y -> a = b /\ x = y.
  Proof.
    intros Hx Hy. revert b. induction a as [|c a IH]; intros [|d b] E; cbn in E.
    - injection E as E. auto.
    - exfalso. injection E as _ E. apply Hx. rewrite E. apply in_or_app. right. left. reflexivity.
    - exfalso. injection E as _ E. apply Hy. rewrite <- E. apply in_or_app. right. left. reflexivity.
    - injection E as -> E. destruct (IH b E) as [-> ->]. auto.
  Qed.
  Lemma path_inj n k n' k' : image_path dir n k png = image_path dir n' k' png -> (n, k) = (n', k').
  Proof.
    unfold image_path. intros E. apply app_inv_head in E. injection E as E.
    apply split_last in E.
    - destruct E as [-> E]. apply app_inv_tail in E. apply ml_show_inj in E. now rewrite E.
    - intros X. apply in_app_or in X. destruct X as [X|X]; [now apply no_under_show in X|].
      cbn in X. repeat destruct X as [X|X]; discriminate || tauto.
    - intros X. apply in_app_or in X. destruct X as [X|X]; [now apply no_under_show in X|].
      cbn in X. repeat destruct X as [X|X]; discriminate || tauto.
  Qed.

  Lemma counter_dset n n' k (d : list (name * nat)) fs : counter_of (@MkL C (dset n k d) fs) n' = if eqb n n' then k else counter_of (MkL d fs) n'.
  Proof.
    unfold counter_of. cbn [counters]. destruct (eqb_spec n n') as [E|E].
    - subst n'. now rewrite dget_dset_same.
    - now rewrite dget_dset_other by exact E.
  Qed.
  Lemma rank_snoc cs x n : rank (cs ++ [x]) n = rank cs n + if eqb (fst (fst x)) n then 1 else 0.
  Proof.
    unfold rank. rewrite filter_app, app_length. cbn [filter]. destruct (eqb (fst (fst x)) n); reflexivity.
  Qed.
  Lemma log_images_snoc cs x : log_images (cs ++ [x]) = do_call (log_images cs) x.
  Proof. unfold log_images. now rewrite fold_left_app. Qed.
  Lemma counter_rank cs n : counter_of (log_images cs) n = rank cs n.
  Proof.
    induction cs as [|[[m s] c] cs IH] using rev_ind; [reflexivity|].
    rewrite log_images_snoc, rank_snoc. unfold do_call, log_image. cbn [fst snd counters].
    rewrite counter_dset. cbn [fst]. destruct (eqb_spec m n) as [E|E].
    - subst m. rewrite IH. reflexivity.
    - rewrite Nat.add_0_r. rewrite <- IH. reflexivity.
  Qed.
  Lemma used_old cs x i : i < length cs -> used (cs ++ [x]) i = used cs i.
  Proof.
    intros L. unfold used. rewrite nth_error_app1 by exact L. rewrite firstn_app.
    replace (i - length cs) with 0 by lia. cbn [firstn]. now rewrite app_nil_r.
  Qed.
  Lemma used_new cs n s c : used (cs ++ [(n, s, c)]) (length cs) =
    Some (n, match s with Some (S k) => S k | _ => rank cs n end).
  Proof.
    unfold used. rewrite nth_error_app2 by lia. rewrite Nat.sub_diag. cbn [nth_error].
    now rewrite firstn_app, Nat.sub_diag, firstn_all, app_nil_r.
  Qed.

  Lemma used_lt cs j x : used cs j = Some x -> j < length cs.
  Proof.
    intros Q. destruct (Nat.lt_ge_cases j (length cs)) as [L|G]; [exact L|].
    unfold used in Q. rewrite (proj2 (nth_error_None cs j) G) in Q. discriminate.
  Qed.

  (* whatever the calls: the image written last under a name and number is the one found there, and there is no other file *)
  Theorem C134_last_wins cs i n s c k : nth_error cs i = Some (n, s, c) -> used cs i = Some (n, k) ->
    (forall j, i < j -> used cs j <> Some (n, k)) -> dget (image_path dir n k png) (disk (log_images cs)) = Some c.
  Proof.
    induction cs as [|[[n0 s0] c0] cs IH] using rev_ind; [destruct i; discriminate|]. intros Hi U Later.
    assert (D : disk (log_images (cs ++ [(n0, s0, c0)])) =
                dset (image_path dir n0 (match s0 with Some (S k) => S k | _ => rank cs n0 end) png) c0 (disk (log_images cs))).
    { rewrite log_images_snoc. unfold do_call, log_image, number. cbn [fst snd disk]. now rewrite counter_rank. }
    rewrite D. destruct (Nat.lt_ge_cases i (length cs)) as [L|G].
    - rewrite dget_dset_other.
      + rewrite nth_error_app1 in Hi by exact L. rewrite used_old in U by exact L. apply IH; auto.
        intros j Hj Q. apply (Later j Hj). rewrite used_old; [exact Q|]. exact (used_lt _ _ Q).
      + intros Q. apply path_inj in Q. apply (Later (length cs) L). rewrite used_new. now rewrite Q.
    - assert (i = length cs).
      { assert (B : i < length (cs ++ [(n0, s0, c0)])) by (apply nth_error_Some; congruence).
        rewrite app_length in B. cbn in B. lia. }
      subst i. rewrite used_new in U. injection U as -> <-.
      rewrite nth_error_app2, Nat.sub_diag in Hi by lia. injection Hi as <- <-. apply dget_dset_same.
  Qed.

  Lemma rank_grows cs n i j s c : i < j -> nth_error cs i = Some (n, s, c) -> rank (firstn i cs) n < rank (firstn j cs) n.
  Proof.
    revert i j. induction cs as [|x cs IH]; intros [|i] [|j] L H; try discriminate; try lia; cbn [nth_error firstn] in *.
    - injection H as ->. unfold rank. cbn [filter fst]. rewrite eqb_refl. cbn. lia.
    - assert (Q := IH i j ltac:(lia) H). unfold rank in *. cbn [filter]. destruct (eqb _ n); cbn [length]; lia.
  Qed.

  (* no step is given: the images of a name are numbered from 0 and all kept *)
  Theorem C134_counted_partial cs i n c : (forall j m s d, nth_error cs j = Some (m, s, d) -> s = None) ->
    nth_error cs i = Some (n, None, c) -> dget (image_path dir n (rank (firstn i cs) n) png) (disk (log_images cs)) = Some c.
  Proof.
    intros No H. apply (@C134_last_wins cs i n None c); auto.
    - unfold used. now rewrite H.
    - intros j Hj. unfold used. destruct (nth_error cs j) as [[[m s] d]|] eqn:E; [|discriminate].
      rewrite (No _ _ _ _ E). intros Q. injection Q as -> Q.
      assert (R := @rank_grows cs n i j None c Hj H). lia.
  Qed.
  (* every call gives a step, strictly increasing per name: the images are found under their steps *)
  Theorem C134_steps_partial cs i n k c :
    (forall j m s d, nth_error cs j = Some (m, s, d) -> s <> None) ->
    (forall j j' m a b d d', j < j' -> nth_error cs j = Some (m, Some a, d) -> nth_error cs j' = Some (m, Some b, d') -> a < b) ->
    nth_error cs i = Some (n, Some k, c) -> dget (image_path dir n k png) (disk (log_images cs)) = Some c.
  Proof.
    intros All Inc H.
    assert (U : forall j m a d, nth_error cs j = Some (m, Some a, d) -> used cs j = Some (m, a)).
    { intros j m a d E. unfold used. rewrite E. destruct a as [|a]; [|reflexivity].
      f_equal. f_equal. unfold rank. destruct (filter _ (firstn j cs)) as [|[[m' s'] d'] r] eqn:F; [reflexivity|]. exfalso.
      assert (I : In (m', s', d') (filter (fun x : call => eqb (fst (fst x)) m) (firstn j cs))) by (rewrite F; left; reflexivity).
      apply filter_In in I. destruct I as [I Q]. cbn [fst] in Q. destruct (eqb_spec m' m) as [Q'|]; [|discriminate]. subst m'.
      apply In_nth_error in I. destruct I as [j' Hj'].
      assert (B : j' < length (firstn j cs)) by (apply nth_error_Some; congruence).
      assert (j' < j) by (pose proof (firstn_le_length j cs); rewrite firstn_length in B; lia).
      assert (N : nth_error cs j' = Some (m, s', d')).
      { rewrite <- (firstn_skipn j cs). rewrite nth_error_app1 by exact B. exact Hj'. }
      destruct s' as [a'|]; [|now apply (All _ _ _ _ N)].
      assert (a' < 0) by (eapply Inc; eauto). lia. }
    eapply C134_last_wins; eauto. intros j Hj Q.
    destruct (nth_error cs j) as [[[m s] d]|] eqn:E; [|unfold used in Q; rewrite E in Q; discriminate].
    destruct s as [a|]; [|now apply (All _ _ _ _ E)].
    rewrite (U _ _ _ _ E) in Q. injection Q as -> ->. assert (k < k) by (eapply Inc; eauto). lia.
  Qed.

  (* step 0 is taken for no step: the image goes under the counter *)
  Theorem C134_refuted_zero (l : @logger C) n k c : counter_of l n = S k ->
    let l' := fst (log_image dir n (Pil c) (Some 0) l) in
    dget (image_path dir n (S k) png) (disk l') = Some c /\
    dget (image_path dir n 0 png) (disk l') = dget (image_path dir n 0 png) (disk l).
  Proof.
    intros E. unfold log_image, number. rewrite E. cbn [fst disk]. split; [apply dget_dset_same|].
    apply dget_dset_other. intros Q. apply path_inj in Q. discriminate.
  Qed.
  (* a given step and the counter meet: the second image replaces the first *)
  Theorem C134_refuted_collision (l : @logger C) n c d :
    let k := S (counter_of l n) in
    let l1 := fst (log_image dir n (Pil c) (Some k) l) in
    let l2 := fst (log_image dir n (Pil d) None l1) in
    dget (image_path dir n k png) (disk l1) = Some c /\ dget (image_path dir n k png) (disk l2) = Some d /\
    dkeys (disk l2) = dkeys (disk l1).
  Proof.
    cbn zeta. unfold log_image, number. cbn [fst disk counters]. rewrite !counter_dset, eqb_refl.
    rewrite Nat.add_1_r. split; [apply dget_dset_same|]. split; [apply dget_dset_same|].
    apply dkeys_dset. apply (proj2 (In_dkeys_dset _ _ _ _)). auto.
  Qed.
  (* an unsupported image raises, writes nothing, and still uses up a number *)
  Theorem C134_unsupported (l : @logger C) n s :
    let (l', r) := log_image dir n (@Unsupported C) s l in
    r = Err EValue /\ disk l' = disk l /\ counter_of l' n = S (counter_of l n).
  Proof.
    cbn [log_image]. repeat split. unfold counter_of at 1. cbn [counters]. rewrite dget_dset_same. lia.
  Qed.
  (* figures are kept like images; a file is copied under its own extension, a missing file raises but uses up a number *)
  Theorem C134_kinds (l : @logger C) n s :
    let k := match s with Some (S j) => S j | _ => counter_of l n end in
    (forall c, log_image dir n (Figure c) s l = log_image dir n (Pil c) s l) /\
    (forall c, dget (image_path dir n k png) (disk (fst (log_image dir n (Figure c) s l))) = Some c) /\
    (forall p c, dget p (disk l) = Some c ->
       exists l', log_image dir n (FilePath p) s l = (l', Ok tt) /\
         disk l' = dset (image_path dir n k (snd (splitext p))) c (disk l) /\ counter_of l' n = S (counter_of l n)) /\
    (forall p, dget p (disk l) = None ->
       exists l', log_image dir n (FilePath p) s l = (l', Err EOther) /\ disk l' = disk l /\ counter_of l' n = S (counter_of l n)).
  Proof.
    cbn zeta. split; [reflexivity|]. split; [|split].
    - intros c. unfold log_image. cbn [fst disk]. apply dget_dset_same.
    - intros p c H. unfold log_image, copy. cbn [disk]. rewrite H. eexists. split; [reflexivity|]. split; [reflexivity|].
      unfold counter_of at 1. cbn [counters]. rewrite dget_dset_same. lia.
    - intros p H. unfold log_image, copy. cbn [disk]. rewrite H. eexists. split; [reflexivity|]. split; [reflexivity|].
      unfold counter_of at 1. cbn [counters]. rewrite dget_dset_same. lia.
  Qed.
End Images.
Print Assumptions C134_kinds.
Print Assumptions C134_last_wins.
Print Assumptions C134_counted_partial.
Print Assumptions C134_steps_partial.
Print Assumptions C134_refuted_zero.
Print Assumptions C134_refuted_collision.
Print Assumptions C134_unsupported.

(* two models of the same name, one without extension, and a dotted directory *)
Example C133_nonvacuous :
  let d := ["a"; dot; "b"]%char in let f := ["x"; slash; "m"; dot; "t"; dot; "p"]%char in
  splitext f = (["x"; slash; "m"; dot; "t"], [dot; "p"])%char /\ splitext (d ++ [slash; "m"]%char) = (d ++ [slash; "m"]%char, []) /\
  splitext [dot; dot; "m"]%char = ([dot; dot; "m"]%char, []) /\
  log_artifacts d [(f, None); (f, Some []); (f, Some ["z"]%char); (f, Some ["z"]%char)] [(f, 7)] =
    Some (Ok [(f, 7); (d ++ [slash; "m"; dot; "t"; dot; "p"]%char, 7); (d ++ [slash; "m"; dot; "t"; under; "1"; dot; "p"]%char, 7);
              (d ++ [slash; "z"]%char, 7); (d ++ [slash; "z"; under; "1"]%char, 7)]).
Proof. repeat split; reflexivity. Qed.
Example C134_nonvacuous :
  let a := ["a"]%char in let b := ["a"; under; "1"]%char in
  map snd (disk (log_images [] [(a, None, 10); (b, None, 11); (a, None, 12); (b, None, 13)])) = [10; 11; 12; 13] /\
  map snd (disk (log_images [] [(a, Some 0, 10); (a, Some 5, 11); (a, Some 6, 12)])) = [10; 11; 12] /\
  map snd (disk (log_images [] [(a, Some 1, 10); (a, None, 11)])) = [11].
Proof. repeat split; reflexivity. Qed.
