(* C135-C137: removing old trials, clearing and creating directories. *)
From Coq Require Import Lia ZArith.
From Verif Require Import Lib.Base Model.SaveEnv.
Open Scope nat_scope.
Set Implicit Arguments.

(* ---- C135 ---- *)
Section Trials.
  Context {N : Type}.
  Variable parse : N -> option Z.
  Implicit Types (l : list (N * entry)).
  (* the specification: a name is that of a trial older than the given difference *)
  Definition Old (now days hours minutes secs : Z) (n : N) : Prop :=
    exists t, parse n = Some t /\ (t + 86400 * days + 3600 * hours + 60 * minutes + secs < now)%Z.
  Inductive Kept (P : N -> Prop) : list (N * entry) -> list (N * entry) -> Prop :=
  | K_nil : Kept P [] []
  | K_drop n l r : P n -> Kept P l r -> Kept P ((n, Dir) :: l) r
  | K_keep n e l r : ~ P n -> Kept P l r -> Kept P ((n, e) :: l) ((n, e) :: r).

  Lemma remove_cons now d h m s n e l :
    remove_trials_older_than parse now d h m s ((n, e) :: l) =
    match parse n with
    | None => let (r, x) := remove_trials_older_than parse now d h m s l in ((n, e) :: r, x)
    | Some t => if (seconds d h m s <? now - t)%Z then
                  match e with Dir => remove_trials_older_than parse now d h m s l | _ => ((n, e) :: l, Err EOther) end
                else let (r, x) := remove_trials_older_than parse now d h m s l in ((n, e) :: r, x)
    end.
  Proof. reflexivity. Qed.
  Lemma old_cases now d h m s n :
    (Old now d h m s n /\ exists t, parse n = Some t /\ (seconds d h m s <? now - t)%Z = true) \/
    (~ Old now d h m s n /\ (parse n = None \/ exists t, parse n = Some t /\ (seconds d h m s <? now - t)%Z = false)).
  Proof.
    unfold Old. destruct (parse n) as [t|] eqn:P.
    - destruct (Z.ltb_spec (seconds d h m s) (now - t)) as [L|L]; [left|right]; unfold seconds in L.
      + split; [exists t; split; auto; lia|]. exists t. split; auto. apply Z.ltb_lt. exact L.
      + split; [intros [t' [E A]]; injection E as <-; lia|]. right. exists t. split; auto. apply Z.ltb_ge. exact L.
    - right. split; [intros [t [E _]]; discriminate|]. auto.
  Qed.

  (* when every old trial is a directory, exactly the old trials go *)
  Theorem C135_partial now d h m s l : (forall n e, In (n, e) l -> Old now d h m s n -> e = Dir) ->
    exists r, remove_trials_older_than parse now d h m s l = (r, Ok tt) /\ Kept (Old now d h m s) l r.
  Proof.
    induction l as [|[n e] l IH]; intros All; [exists []; split; [reflexivity|constructor]|].
    destruct IH as [r [E K]]; [intros n' e' I; apply All; right; exact I|].
    rewrite remove_cons, E. destruct (old_cases now d h m s n) as [[O [t [P L]]]|[O [P|[t [P L]]]]]; rewrite P.
    - rewrite L. assert (Q : e = Dir) by (apply (All n e); [left; reflexivity|exact O]). subst e.
      exists r. split; [reflexivity|now constructor].
    - exists ((n, e) :: r). split; [reflexivity|now constructor].
    - rewrite L. exists ((n, e) :: r). split; [reflexivity|now constructor].
  Qed.
  (* nothing else is ever removed, whether or not the call raises *)
  Theorem C135_others_stay now d h m s l n e : In (n, e) l -> ~ Old now d h m s n ->
    In (n, e) (fst (remove_trials_older_than parse now d h m s l)).
  Proof.
    induction l as [|[n' e'] l IH]; intros I NO; [destruct I|].
    rewrite remove_cons. destruct (remove_trials_older_than parse now d h m s l) as [r x] eqn:E. cbn [fst] in IH.
    destruct (old_cases now d h m s n') as [[O [t [P L]]]|[O [P|[t [P L]]]]]; rewrite P; try rewrite L; cbn [fst].
    - destruct I as [I|I]; [injection I as -> ->; tauto|]. destruct e'; cbn [fst]; [apply IH|right|right]; auto.
    - destruct I as [I|I]; [left|right]; auto.
    - destruct I as [I|I]; [left|right]; auto.
  Qed.
  (* a plain file or a link with the name of an old trial: the call raises and the old trials behind it all stay *)
  Theorem C135_refuted now d h m s l1 n e l2 r :
    remove_trials_older_than parse now d h m s l1 = (r, Ok tt) -> Old now d h m s n -> e <> Dir ->
    remove_trials_older_than parse now d h m s (l1 ++ (n, e) :: l2) = (r ++ (n, e) :: l2, Err EOther).
  Proof.
    intros E O NE. revert r E. induction l1 as [|[n' e'] l1 IH]; intros r E.
    - injection E as <-. cbn [app]. rewrite remove_cons.
      destruct (old_cases now d h m s n) as [[_ [t [P L]]]|[X _]]; [|tauto]. rewrite P, L. destruct e; [tauto|reflexivity..].
    - cbn [app]. rewrite remove_cons in E |- *. destruct (parse n') as [t|].
      + destruct (_ <? _)%Z.
        * destruct e'; [apply IH, E|discriminate..].
        * destruct (remove_trials_older_than parse now d h m s l1) as [r1 x]. injection E as <- ->.
          now rewrite (IH _ eq_refl).
      + destruct (remove_trials_older_than parse now d h m s l1) as [r1 x]. injection E as <- ->.
        now rewrite (IH _ eq_refl).
  Qed.
End Trials.
Print Assumptions C135_partial.
Print Assumptions C135_others_stay.
Print Assumptions C135_refuted.

(* an hour-old trial, a new one, another directory; then a file named like an old trial *)
Example C135_nonvacuous :
  let parse n := if n <? 100 then None else Some (Z.of_nat n) in
  remove_trials_older_than parse 5000 0 1 0 0 [(1000, Dir); (7, Dir); (4000, Dir); (1399, Dir); (1400, Dir)] =
    ([(7, Dir); (4000, Dir); (1400, Dir)], Ok tt) /\
  remove_trials_older_than parse 5000 0 1 0 0 [(1000, Dir); (1001, File); (1002, Dir)] = ([(1001, File); (1002, Dir)], Err EOther).
Proof. split; reflexivity. Qed.

(* ---- trees ---- *)
Section Tree.
  Context {K : Type} `{Eqb K}.
  Implicit Types (p q d : path K) (fs : tree K).

  Lemma path_eqb_spec p q : reflect (p = q) (path_eqb p q).
  Proof.
    revert q. induction p as [|x p IH]; intros [|y q]; cbn; try (constructor; congruence).
    destruct (eqb_spec x y) as [E|E]; cbn; [|constructor; congruence].
    destruct (IH q) as [E'|E']; constructor; congruence.
  Qed.
  (* the specification: everything lies in a directory; being below *)
  Definition WF fs : Prop := forall k p, kind_at fs (k :: p) <> None -> kind_at fs p = Some NDir.
  Lemma below_spec q p : below q p = true <-> exists s, p = s ++ q.
  Proof.
    induction p as [|x p IH]; cbn [below].
    - destruct (path_eqb_spec [] q) as [E|E]; cbn.
      + split; auto. exists []. exact E.
      + split; [discriminate|]. intros [s Q]. symmetry in Q. apply app_eq_nil in Q. destruct Q. congruence.
    - destruct (path_eqb_spec (x :: p) q) as [E|E]; cbn [orb].
      + split; auto. intros _. exists []. exact E.
      + rewrite IH. split; intros [s Q].
        * exists (x :: s). now rewrite Q.
        * destruct s as [|y s]; cbn in Q; [congruence|]. injection Q as -> ->. exists s. reflexivity.
  Qed.

  Lemma lookup_filter (f : path K -> bool) p fs :
    lookup p (filter (fun x => f (fst x)) fs) = if f p then lookup p fs else None.
  Proof.
    induction fs as [|[q n] fs IH]; cbn [filter lookup]; [destruct (f p); reflexivity|]. cbn [fst].
    destruct (path_eqb_spec p q) as [E|E].
    - subst q. destruct (f p) eqn:F; cbn [lookup]; [|exact IH]. destruct (path_eqb_spec p p); [reflexivity|congruence].
    - destruct (f q); cbn [lookup]; [|exact IH]. destruct (path_eqb_spec p q); [congruence|exact IH].
  Qed.
  Lemma lookup_app p fs q n : lookup p (fs ++ [(q, n)]) =
    match lookup p fs with Some x => Some x | None => if path_eqb p q then Some n else None end.
  Proof.
    induction fs as [|[q' n'] fs IH]; cbn [app lookup]; [reflexivity|]. destruct (path_eqb p q'); [reflexivity|exact IH].
  Qed.
  Lemma lookup_in p fs : lookup p fs <> None -> In p (map fst fs).
  Proof.
    induction fs as [|[q n] fs IH]; cbn [lookup]; [congruence|]. intros X. cbn [map fst In].
    destruct (path_eqb_spec p q) as [E|E]; [left; congruence|right; auto].
  Qed.
  Lemma kind_unlink q p fs : q <> [] -> kind_at (unlink q fs) p = if path_eqb p q then None else kind_at fs p.
  Proof.
    intros NQ. unfold unlink. destruct p as [|x p]; cbn [kind_at]; [destruct q; [congruence|reflexivity]|].
    rewrite (lookup_filter (fun x => negb (path_eqb x q))). destruct (path_eqb (x :: p) q); reflexivity.
  Qed.
  Lemma kind_rmtree q p fs : q <> [] -> kind_at (rmtree q fs) p = if below q p then None else kind_at fs p.
  Proof.
    intros NQ. unfold rmtree. destruct p as [|x p]; [destruct q; [congruence|reflexivity]|]. unfold kind_at.
    rewrite (lookup_filter (fun x => negb (below q x))). destruct (below q (x :: p)); reflexivity.
  Qed.
  Lemma wf_below fs q s : WF fs -> s <> [] -> kind_at fs (s ++ q) <> None -> kind_at fs q = Some NDir.
  Proof.
    intros W. induction s as [|k s IH]; intros NS X; [congruence|]. cbn [app] in X. apply W in X.
    destruct s as [|k' s]; [exact X|]. apply IH; congruence.
  Qed.

  Definition special (o : option node) : bool := match o with Some NSpecial => true | _ => false end.
  Lemma remove_child_kind fs q p : WF fs -> q <> [] ->
    kind_at (remove_child fs q) p = if below q p && negb (special (kind_at fs q)) then None else kind_at fs p.
  Proof.
    intros W NQ. unfold remove_child.
    assert (B : kind_at fs q <> Some NDir -> below q p = true -> p <> q -> kind_at fs p = None).
    { intros ND Bp NE. destruct (kind_at fs p) as [n|] eqn:E; [|reflexivity]. exfalso. apply ND.
      apply (proj1 (below_spec q p)) in Bp. destruct Bp as [s Q]. apply (@wf_below fs q s W); [|congruence].
      intros ->. cbn in Q. congruence. }
    destruct (kind_at fs q) as [[| |b|]|] eqn:E; cbn [special negb].
    - rewrite kind_rmtree by exact NQ. now rewrite andb_true_r.
    - rewrite kind_unlink by exact NQ. rewrite andb_true_r. destruct (path_eqb_spec p q) as [Q|Q].
      + subst p. rewrite (proj2 (below_spec q q)) by (exists []; reflexivity). reflexivity.
      + destruct (below q p); [apply B; auto; discriminate|reflexivity].
    - rewrite kind_unlink by exact NQ. rewrite andb_true_r. destruct (path_eqb_spec p q) as [Q|Q].
      + subst p. rewrite (proj2 (below_spec q q)) by (exists []; reflexivity). reflexivity.
      + destruct (below q p); [apply B; auto; discriminate|reflexivity].
    - now rewrite andb_false_r.
    - rewrite andb_true_r. destruct (below q p) eqn:Bp; [|reflexivity].
      destruct (path_eqb_spec p q) as [Q|Q]; [subst p; exact E|]. apply B; auto. discriminate.
  Qed.
  Lemma below_cons q k p : below q p = true -> below q (k :: p) = true.
  Proof. intros B. cbn [below]. rewrite B. apply orb_true_r. Qed.
  Lemma below_trans q q' p : below q q' = true -> below q' p = true -> below q p = true.
  Proof.
    intros A B. apply below_spec in A. apply below_spec in B. destruct A as [s ->], B as [s' ->].
    apply below_spec. exists (s' ++ s). apply app_assoc.
  Qed.
  Lemma remove_child_wf fs q : WF fs -> q <> [] -> WF (remove_child fs q).
  Proof.
    intros W NQ k p X. rewrite remove_child_kind in X |- * by auto.
    destruct (below q p && _) eqn:B.
    - apply andb_true_iff in B. destruct B as [B1 B2]. rewrite (below_cons _ _ _ B1), B2 in X. cbn in X. congruence.
    - destruct (below q (k :: p) && _); [congruence|]. now apply W in X.
  Qed.
  Lemma remove_children cs : forall fs, WF fs -> (forall q, In q cs -> q <> []) ->
    WF (fold_left remove_child cs fs) /\
    forall p, kind_at (fold_left remove_child cs fs) p =
              if existsb (fun q => below q p && negb (special (kind_at fs q))) cs then None else kind_at fs p.
  Proof.
    induction cs as [|q cs IH]; intros fs W NE; cbn [fold_left existsb]; [auto|].
    assert (NQ : q <> []) by (apply NE; left; reflexivity).
    destruct (IH (remove_child fs q)) as [W' IH']; [now apply remove_child_wf|intros; apply NE; right; auto|].
    split; [exact W'|]. intros p. rewrite IH'.
    assert (KQ := @remove_child_kind fs q p W NQ).
    destruct (below q p && negb (special (kind_at fs q))) eqn:B; cbn [orb].
    - rewrite KQ. destruct (existsb _ cs); reflexivity.
    - rewrite KQ.
      replace (existsb (fun q0 => below q0 p && negb (special (kind_at (remove_child fs q) q0))) cs)
        with (existsb (fun q0 => below q0 p && negb (special (kind_at fs q0))) cs); [reflexivity|].
      clear IH IH' W' NE KQ. induction cs as [|q' cs IHc]; [reflexivity|]. cbn [existsb]. rewrite <- IHc. f_equal.
      destruct (below q' p) eqn:B'; [|reflexivity]. cbn [andb]. f_equal. f_equal.
      rewrite remove_child_kind by auto.
      destruct (below q q' && negb (special (kind_at fs q))) eqn:B2; [|reflexivity]. exfalso.
      apply andb_true_iff in B2. destruct B2 as [B2 B3]. rewrite (below_trans _ _ _ B2 B'), B3 in B. discriminate.
  Qed.

  Lemma children_spec d fs q : In q (children d fs) <-> (exists k, q = k :: d) /\ In q (map fst fs).
  Proof.
    unfold children. rewrite filter_In. destruct q as [|k q].
    - split; [intros [_ X]; discriminate|intros [[k X] _]; discriminate].
    - destruct (path_eqb_spec q d) as [E|E].
      + subst q. split; [intros [X _]; split; [exists k|]; auto|intros [_ X]; auto].
      + split; [intros [_ X]; discriminate|intros [[k' X] _]; injection X as _ X; congruence].
  Qed.

  (* ---- C136 ---- *)
  Lemma clear_one fs d : WF fs ->
    let fs' := fold_left remove_child (children d fs) fs in
    WF fs' /\
    (forall p, (forall s k, p <> s ++ k :: d) -> kind_at fs' p = kind_at fs p) /\
    (forall s k, s <> [] -> kind_at fs' (s ++ k :: d) = None) /\
    (forall k, kind_at fs' (k :: d) = match kind_at fs (k :: d) with Some NSpecial => Some NSpecial | _ => None end).
  Proof.
    intros W. cbn zeta. destruct (@remove_children (children d fs) fs W) as [W' R].
    { intros q Q. apply children_spec in Q. destruct Q as [[k ->] _]. discriminate. }
    split; [exact W'|]. split; [|split].
    - intros p NB. rewrite R. destruct (existsb _ _) eqn:E; [|reflexivity]. exfalso.
      apply existsb_exists in E. destruct E as [q [Q B]]. apply children_spec in Q. destruct Q as [[k ->] _].
      apply andb_true_iff in B. destruct B as [B _]. apply below_spec in B. destruct B as [s Q]. exact (NB s k Q).
    - intros s k NS. rewrite R. destruct (existsb _ _) eqn:E; [reflexivity|].
      destruct (kind_at fs (s ++ k :: d)) as [n|] eqn:X; [|reflexivity]. exfalso.
      assert (D : kind_at fs (k :: d) = Some NDir) by (apply (@wf_below fs (k :: d) s W NS); congruence).
      assert (T : existsb (fun q => below q (s ++ k :: d) && negb (special (kind_at fs q))) (children d fs) = true).
      { apply existsb_exists. exists (k :: d). split.
        - apply children_spec. split; [exists k; reflexivity|]. apply lookup_in. cbn [kind_at] in D. congruence.
        - rewrite D. rewrite (proj2 (below_spec _ _)); [reflexivity|]. exists s. reflexivity. }
      congruence.
    - intros k. rewrite R. destruct (kind_at fs (k :: d)) as [n|] eqn:X.
      2:{ destruct (existsb _ _); reflexivity. }
      destruct (special (Some n)) eqn:S.
      + destruct n; try discriminate. replace (existsb _ _) with false; [reflexivity|]. symmetry.
        destruct (existsb _ _) eqn:E; [|reflexivity]. exfalso. apply existsb_exists in E. destruct E as [q [Q B]].
        apply children_spec in Q. destruct Q as [[k' ->] _]. apply andb_true_iff in B. destruct B as [B B'].
        apply below_spec in B. destruct B as [s Q].
        assert (s = []).
        { assert (L := f_equal (@length K) Q). rewrite app_length in L. cbn in L. destruct s; [reflexivity|cbn in L; lia]. }
        subst s. cbn in Q. injection Q as <-. rewrite X in B'. discriminate.
      + replace (existsb _ _) with true; [destruct n; reflexivity || discriminate|]. symmetry. apply existsb_exists.
        exists (k :: d). split.
        * apply children_spec. split; [exists k; reflexivity|]. apply lookup_in. cbn [kind_at] in X. congruence.
        * rewrite X, S. rewrite (proj2 (below_spec _ _)); [reflexivity|]. exists []. reflexivity.
  Qed.

  (* the specification: p is in the directory d, at any depth *)
  Definition Inside d p : Prop := exists s k, p = s ++ k :: d.
  Theorem C136_clear ds : forall fs fs', WF fs -> prep_clear_dirs ds fs = (fs', Ok tt) ->
    WF fs' /\
    (forall d p, In d ds -> Inside d p -> kind_at fs' p = None \/ kind_at fs' p = Some NSpecial) /\
    (forall d s k, In d ds -> s <> [] -> kind_at fs' (s ++ k :: d) = None) /\
    (forall p, (forall d, In d ds -> ~ Inside d p) -> kind_at fs' p = kind_at fs p) /\
    (forall p, kind_at fs' p <> None -> kind_at fs' p = kind_at fs p).
  Proof.
    induction ds as [|d ds IH]; intros fs fs' W E; cbn [prep_clear_dirs] in E.
    - injection E as <-. repeat split; auto; intros; try contradiction.
    - destruct (kind_at fs d) as [[| | |]|]; try discriminate.
      destruct (clear_one d W) as [W1 [O1 [D1 S1]]].
      destruct (IH _ _ W1 E) as [W2 [I2 [D2 [O2 U2]]]].
      assert (U1 : forall p, kind_at (fold_left remove_child (children d fs) fs) p <> None ->
                             kind_at (fold_left remove_child (children d fs) fs) p = kind_at fs p).
      { intros p X. destruct (below d p) eqn:B.
        - apply below_spec in B. destruct B as [s Q]. destruct s as [|k s] using rev_ind.
          + apply O1. intros s k Q'. cbn in Q. rewrite Q in Q'. assert (L := f_equal (@length K) Q').
            rewrite app_length in L. cbn in L. lia.
          + rewrite <- app_assoc in Q. cbn in Q. clear IHs. destruct s as [|x s].
            * cbn in Q. subst p. rewrite S1 in *. destruct (kind_at fs (k :: d)) as [[| | |]|]; congruence.
            * subst p. rewrite D1 in X by discriminate. congruence.
        - apply O1. intros s k Q. rewrite (proj2 (below_spec d p)) in B; [discriminate|]. exists (s ++ [k]).
          now rewrite <- app_assoc. }
      split; [exact W2|]. split; [|split; [|split]].
      + intros d' p [Q|Q] Ins; [subst d'|now apply (I2 d')].
        destruct (kind_at fs' p) as [n|] eqn:X; [|auto]. right.
        assert (Y : kind_at fs' p <> None) by congruence. apply U2 in Y. rewrite X in Y.
        destruct Ins as [s [k Q]]. subst p. destruct s as [|x s].
        * cbn [app] in Y. rewrite S1 in Y. destruct (kind_at fs (k :: d)) as [[| | |]|]; congruence.
        * rewrite D1 in Y by discriminate. congruence.
      + intros d' s k [Q|Q] NS; [subst d'|now apply D2].
        destruct (kind_at fs' (s ++ k :: d)) as [n|] eqn:X; [|reflexivity].
        assert (Y : kind_at fs' (s ++ k :: d) <> None) by congruence. apply U2 in Y. rewrite D1 in Y by exact NS. congruence.
      + intros p NI. rewrite O2 by (intros d' I; apply NI; right; exact I). apply O1.
        intros s k Q. apply (NI d); [left; reflexivity|]. exists s, k. exact Q.
      + intros p X. rewrite (U2 p X). apply U1. rewrite <- (U2 p X). exact X.
  Qed.
  (* one directory: special files stay *)
  Theorem C136_special fs d k : WF fs -> kind_at fs d = Some NDir -> kind_at fs (k :: d) = Some NSpecial ->
    kind_at (fst (prep_clear_dirs [d] fs)) (k :: d) = Some NSpecial.
  Proof.
    intros W D S. cbn [prep_clear_dirs]. rewrite D. cbn [fst]. destruct (clear_one d W) as [_ [_ [_ S1]]]. now rewrite S1, S.
  Qed.
  (* it succeeds when the directories are there and none is inside an earlier one *)
  Fixpoint Apart ds : Prop := match ds with [] => True | d :: r => (forall d', In d' r -> ~ Inside d d') /\ Apart r end.
  Theorem C136_succeeds ds : forall fs, WF fs -> (forall d, In d ds -> kind_at fs d = Some NDir) -> Apart ds ->
    exists fs', prep_clear_dirs ds fs = (fs', Ok tt).
  Proof.
    induction ds as [|d ds IH]; intros fs W D A; cbn [prep_clear_dirs]; [eauto|].
    rewrite (D d (or_introl eq_refl)). destruct (clear_one d W) as [W1 [O1 _]]. destruct A as [A1 A2].
    apply IH; auto. intros d' I. rewrite O1; [apply D; right; exact I|].
    intros s k Q. apply (A1 d' I). exists s, k. exact Q.
  Qed.
  (* and fails when a directory is listed after one that contains it *)
  Theorem C136_nested fs d p : WF fs -> kind_at fs d = Some NDir -> Inside d p -> kind_at fs p = Some NDir ->
    snd (prep_clear_dirs [d; p] fs) = Err EOther.
  Proof.
    intros W D [s [k Q]] E. subst p. cbn [prep_clear_dirs]. rewrite D. destruct (clear_one d W) as [_ [_ [D1 S1]]].
    destruct s as [|x s]; [cbn [app] in *; rewrite S1, E; reflexivity|]. rewrite D1 by discriminate. reflexivity.
  Qed.

  (* ---- C137 ---- *)
  Lemma kind_app fs q p : q <> [] -> kind_at (fs ++ [(q, NDir)]) p =
    match kind_at fs p with Some x => Some x | None => if path_eqb p q then Some NDir else None end.
  Proof. intros NQ. destruct p as [|k p]; [reflexivity|]. cbn [kind_at]. apply lookup_app. Qed.
  (* the specification of a step: nothing there changes; what is new is a directory on the way to a wanted one *)
  Definition Grows fs fs' (ws : list (path K)) : Prop :=
    WF fs' /\ (forall p n, kind_at fs p = Some n -> kind_at fs' p = Some n) /\
    (forall p n, kind_at fs p = None -> kind_at fs' p = Some n -> n = NDir /\ exists s w, In w ws /\ w = s ++ p).
  Lemma grows_refl fs ws : WF fs -> Grows fs fs ws.
  Proof. intros W. split; [exact W|]. split; auto. intros; congruence. Qed.
  Lemma grows_trans fs fs1 fs2 ws : Grows fs fs1 ws -> Grows fs1 fs2 ws -> Grows fs fs2 ws.
  Proof.
    intros [W1 [K1 N1]] [W2 [K2 N2]]. split; [exact W2|]. split; auto. intros p n A B.
    destruct (kind_at fs1 p) as [m|] eqn:E; [|eauto].
    assert (m = n) by (apply K2 in E; congruence). subst m. eauto.
  Qed.
  Lemma grows_mono fs fs' ws ws' : (forall w, In w ws -> exists s w', In w' ws' /\ w' = s ++ w) -> Grows fs fs' ws -> Grows fs fs' ws'.
  Proof.
    intros I [W [A B]]. split; [exact W|]. split; auto. intros p n C D. destruct (B p n C D) as [Q [s [w [Iw E]]]].
    split; auto. destruct (I w Iw) as [s' [w' [Iw' E']]]. exists (s' ++ s), w'. split; auto. now rewrite E', E, app_assoc.
  Qed.
  Lemma mkdir_grows fs p fs' r : WF fs -> mkdir p fs = (fs', r) ->
    Grows fs fs' [p] /\ (r = Ok tt -> kind_at fs' p = Some NDir).
  Proof.
    intros W E. unfold mkdir in E.
    destruct (kind_at fs (tl p)) as [n1|] eqn:T; [|injection E as <- <-; split; [now apply grows_refl|discriminate]].
    destruct n1; try (injection E as <- <-; split; [now apply grows_refl|discriminate]).
    destruct (kind_at fs p) as [n|] eqn:X; injection E as <- <-; [split; [now apply grows_refl|discriminate]|].
    assert (NP : p <> []) by (intros ->; discriminate).
    split.
    - split; [|split].
      + intros k q Y. rewrite kind_app in Y |- * by exact NP.
        destruct (kind_at fs (k :: q)) eqn:Z.
        * assert (A : kind_at fs q = Some NDir) by (apply (W k); congruence). now rewrite A.
        * destruct (path_eqb_spec (k :: q) p) as [Q|Q]; [|congruence]. subst p. cbn [tl] in T. now rewrite T.
      + intros q n Y. rewrite kind_app by exact NP. now rewrite Y.
      + intros q n Y Z. rewrite kind_app in Z by exact NP. rewrite Y in Z.
        destruct (path_eqb_spec q p) as [Q|Q]; [|discriminate]. injection Z as <-. split; auto.
        exists [], p. split; [left; reflexivity|]. cbn. congruence.
    - intros _. rewrite kind_app by exact NP. rewrite X. destruct (path_eqb_spec p p); congruence.
  Qed.
  Lemma makedirs_grows p : forall fs fs' r, WF fs -> makedirs p fs = (fs', r) ->
    Grows fs fs' [p] /\ (r = Ok tt -> kind_at fs' p = Some NDir).
  Proof.
    induction p as [|k q IH]; intros fs fs' r W E; cbn [makedirs] in E.
    - injection E as <- <-. split; [now apply grows_refl|discriminate].
    - destruct (path_exists fs q); [now apply mkdir_grows|].
      destruct (makedirs q fs) as [fs1 r1] eqn:M. destruct (IH _ _ _ W M) as [G1 _].
      assert (G1' : Grows fs fs1 [k :: q]).
      { revert G1. apply grows_mono. intros w [<-|[]]. exists [k], (k :: q). split; [left|]; reflexivity. }
      destruct r1 as [u|e]; [|injection E as <- <-; split; [exact G1'|discriminate]].
      destruct (mkdir_grows _ (proj1 G1) E) as [G2 O]. split; [|exact O]. eapply grows_trans; eauto.
  Qed.
  (* whatever happens: nothing that was there changes, and only directories leading to the wanted ones are new *)
  Theorem C137_only_adds ps : forall fs fs' r, WF fs -> prep_create_dirs ps fs = (fs', r) ->
    Grows fs fs' ps /\ (r = Ok tt -> forall p, In p ps -> path_exists fs' p = true).
  Proof.
    induction ps as [|p ps IH]; intros fs fs' r W E; cbn [prep_create_dirs] in E.
    - injection E as <- <-. split; [now apply grows_refl|intros _ p []].
    - assert (M : forall a b, Grows a b ps -> Grows a b (p :: ps)).
      { intros a b. apply grows_mono. intros w I. exists [], w. split; [right; exact I|reflexivity]. }
      destruct (path_exists fs p) eqn:X.
      + destruct (IH _ _ _ W E) as [G O]. split; [now apply M|]. intros R q [Q|Q]; [subst q|auto].
        unfold path_exists in X |- *. destruct G as [_ [K1 _]]. destruct (kind_at fs p) as [n|] eqn:Z; [|discriminate].
        rewrite (K1 _ _ Z). exact X.
      + destruct (makedirs p fs) as [fs1 r1] eqn:MD. destruct (makedirs_grows _ W MD) as [G1 O1].
        assert (G1' : Grows fs fs1 (p :: ps)).
        { revert G1. apply grows_mono. intros w [<-|[]]. exists [], p. split; [left|]; reflexivity. }
        destruct r1 as [u|e]; [|injection E as <- <-; split; [exact G1'|discriminate]]. destruct u.
        destruct (IH _ _ _ (proj1 G1) E) as [G2 O2]. split; [eapply grows_trans; eauto|].
        intros R q [Q|Q]; [subst q|auto]. unfold path_exists. destruct G2 as [_ [K2 _]].
        now rewrite (K2 _ _ (O1 eq_refl)).
  Qed.
  Lemma makedirs_ok p : forall fs, WF fs -> kind_at fs p = None ->
    (forall s q, p = s ++ q -> kind_at fs q = None \/ kind_at fs q = Some NDir) -> exists fs', makedirs p fs = (fs', Ok tt).
  Proof.
    induction p as [|k q IH]; intros fs W N A; [discriminate|]. cbn [makedirs].
    assert (Aq : kind_at fs q = None \/ kind_at fs q = Some NDir) by (apply (A [k]); reflexivity).
    unfold path_exists. destruct Aq as [Aq|Aq]; rewrite Aq.
    - destruct (IH fs W Aq) as [fs1 M]. { intros s q' E. apply (A (k :: s)). now rewrite E. }
      rewrite M. destruct (makedirs_grows _ W M) as [[W1 [K1 N1]] O]. specialize (O eq_refl).
      unfold mkdir. cbn [tl]. rewrite O.
      destruct (kind_at fs1 (k :: q)) as [n|] eqn:X; [|eauto]. exfalso.
      destruct (N1 _ _ N X) as [_ [s [w [[<-|[]] E]]]]. assert (L := f_equal (@length K) E).
      rewrite app_length in L. cbn in L. lia.
    - unfold mkdir. cbn [tl]. rewrite Aq, N. eauto.
  Qed.
  (* when nothing but directories lies on the way, the wanted directories are there afterwards *)
  Theorem C137_partial ps : forall fs, WF fs ->
    (forall p s q, In p ps -> p = s ++ q -> kind_at fs q = None \/ kind_at fs q = Some NDir) ->
    exists fs', prep_create_dirs ps fs = (fs', Ok tt) /\ forall p, In p ps -> kind_at fs' p = Some NDir.
  Proof.
    induction ps as [|p ps IH]; intros fs W A; cbn [prep_create_dirs]; [eexists; split; [reflexivity|intros p []]|].
    assert (Ap : kind_at fs p = None \/ kind_at fs p = Some NDir) by (apply (A p []); [left|]; reflexivity).
    unfold path_exists. destruct Ap as [Ap|Ap]; rewrite Ap.
    - destruct (@makedirs_ok p fs W Ap) as [fs1 M]. { intros s q E. apply (A p s); [left; reflexivity|exact E]. }
      rewrite M. destruct (makedirs_grows _ W M) as [[W1 [K1 N1]] O]. specialize (O eq_refl).
      destruct (IH fs1 W1) as [fs' [E D]].
      { intros p' s q I Q. destruct (A p' s q (or_intror I) Q) as [X|X].
        - destruct (kind_at fs1 q) as [n|] eqn:Y; [|auto]. right. destruct (N1 _ _ X Y) as [Z _]. now rewrite Z.
        - right. now apply K1. }
      exists fs'. split; [exact E|]. intros q [Q|Q]; [subst q|auto].
      destruct (@C137_only_adds ps fs1 fs' _ W1 E) as [[_ [K2 _]] _]. now apply K2.
    - destruct (IH fs W) as [fs' [E D]]. { intros p' s q I. apply A. right. exact I. }
      exists fs'. split; [exact E|]. intros q [Q|Q]; [subst q|auto].
      destruct (@C137_only_adds ps fs fs' _ W E) as [[_ [K2 _]] _]. now apply K2.
  Qed.
  (* a plain file, a fifo or a link to something of that name is taken for the directory *)
  Theorem C137_refuted p fs : In (kind_at fs p) [Some NFile; Some NSpecial; Some (NLink true)] ->
    prep_create_dirs [p] fs = (fs, Ok tt).
  Proof. intros [E|[E|[E|[]]]]; cbn [prep_create_dirs]; unfold path_exists; now rewrite <- E. Qed.
  (* a dangling link is not, and no directory can be made there *)
  Theorem C137_dangling p fs : kind_at fs p = Some (NLink false) -> kind_at fs (tl p) = Some NDir ->
    prep_create_dirs [p] fs = (fs, Err EOther).
  Proof.
    intros E D. cbn [prep_create_dirs]. unfold path_exists. rewrite E. destruct p as [|x p]; [discriminate|].
    cbn [tl] in D. cbn [makedirs]. unfold path_exists. rewrite D. unfold mkdir. cbn [tl]. rewrite D, E. reflexivity.
  Qed.
End Tree.
Print Assumptions C136_clear.
Print Assumptions C136_special.
Print Assumptions C136_succeeds.
Print Assumptions C136_nested.
Print Assumptions C137_only_adds.
Print Assumptions C137_partial.
Print Assumptions C137_refuted.
Print Assumptions C137_dangling.

Definition sample : tree nat :=
  [([1], NDir); ([2; 1], NFile); ([3; 1], NLink false); ([4; 1], NDir); ([5; 4; 1], NSpecial); ([6; 1], NSpecial); ([7], NFile)].
Example C136_nonvacuous :
  prep_clear_dirs [[4; 1]; [1]] sample = ([([1], NDir); ([6; 1], NSpecial); ([7], NFile)], Ok tt) /\
  snd (prep_clear_dirs [[1]; [4; 1]] sample) = Err EOther.
Proof. split; reflexivity. Qed.
Example C137_nonvacuous :
  prep_create_dirs [[9; 8; 1]; [8; 1]; [1]] sample = (sample ++ [([8; 1], NDir); ([9; 8; 1], NDir)], Ok tt) /\
  snd (prep_create_dirs [[9; 7]] sample) = Err EOther /\ prep_create_dirs [[7]] sample = (sample, Ok tt).
Proof. repeat split; reflexivity. Qed.
