(* Pool invariants: every chunk of every submitted job is in exactly one place,
   and every result object is the function of the reports that reached it. *)
From Verif Require Import Lib.Base Model.Pool Spec.PoolSpec.
Set Implicit Arguments.

Definition kdec : forall p q : nat * nat, {p = q} + {p <> q}.
Proof. decide equality; apply Nat.eq_dec. Defined.
Definition cnt (p : nat * nat) (l : list (nat * nat)) := count_occ kdec l p.
Lemma cnt_app p l1 l2 : cnt p (l1 ++ l2) = cnt p l1 + cnt p l2.
Proof. apply count_occ_app. Qed.
Lemma cnt_in p l : In p l <-> 0 < cnt p l.
Proof. unfold cnt. rewrite (count_occ_In kdec). lia. Qed.
Lemma cnt_cons p q l : cnt p (q :: l) = (if kdec q p then 1 else 0) + cnt p l.
Proof. unfold cnt; cbn. destruct (kdec q p); reflexivity. Qed.
Lemma cnt_nil p : cnt p [] = 0.
Proof. reflexivity. Qed.

(* ---- splitting ---- *)
Section Split.
  Variable A : Type.
  Lemma skipn_skipn' (n m : nat) (l : list A) : skipn n (skipn m l) = skipn (m + n) l.
  Proof. revert l; induction m as [|m IH]; intros [|x l]; cbn; auto; now rewrite ?skipn_nil. Qed.

  Lemma split_go_nth c fuel : forall (it : list A), 0 < c -> length it < fuel ->
    forall k, nth_error (split_go fuel c it) k =
      if k * c <? length it then Some (chunk_of it c k) else None.
  Proof.
    induction fuel as [|fuel IH]; intros it Hc Hl k; [lia|]. cbn [split_go].
    destruct it as [|x it].
    - rewrite firstn_nil. cbn. destruct k; reflexivity.
    - destruct c as [|c]; [lia|]. set (n := S c) in *.
      assert (F : firstn n (x :: it) = x :: firstn c it) by reflexivity.
      rewrite F, <- F. destruct k as [|k].
      + cbn [nth_error]. rewrite F. cbn. reflexivity.
      + rewrite F. cbn [nth_error]. rewrite IH; [|lia|].
        * rewrite skipn_length. unfold chunk_of. rewrite skipn_skipn'.
          replace (n + k * n) with (S k * n) by (cbn; lia).
          cbn [length]. destruct (Nat.ltb_spec (k * n) (S (length it) - n)), (Nat.ltb_spec (S k * n) (S (length it))); cbn in *; auto; lia.
        * rewrite skipn_length. cbn [length] in *. lia.
  Qed.

  Lemma split_nth c (xs : list A) k : 0 < c ->
    nth_error (split_tasks xs c) k = if k * c <? length xs then Some (chunk_of xs c k) else None.
  Proof. intro. apply split_go_nth; auto. Qed.

  Lemma split_zero (xs : list A) : split_tasks xs 0 = [].
  Proof. unfold split_tasks. cbn. reflexivity. Qed.

  Lemma split_len c (xs : list A) : 0 < c ->
    length (split_tasks xs c) = length xs / c + (if length xs mod c =? 0 then 0 else 1).
  Proof.
    intro Hc.
    assert (H : forall k, k < length (split_tasks xs c) <-> k * c < length xs).
    { intro k. rewrite <- nth_error_Some, split_nth by auto. destruct (Nat.ltb_spec (k * c) (length xs)); split; intros; try congruence; lia. }
    pose proof (Nat.div_mod (length xs) c ltac:(lia)) as D.
    pose proof (Nat.mod_upper_bound (length xs) c ltac:(lia)) as M.
    set (q := length xs / c) in *. set (m := length xs mod c) in *. set (L := length (split_tasks xs c)) in *.
    assert (HL : L * c >= length xs). { destruct (Nat.le_gt_cases (length xs) (L * c)); auto. apply H in H0. lia. }
    destruct (Nat.eqb_spec m 0) as [E|N].
    - assert (~ q < L). { intro G. apply H in G. nia. }
      nia.
    - assert (~ S q < L). { intro G. apply H in G. nia. }
      assert (q < L). { apply H. nia. }
      lia.
  Qed.

  Lemma chunk_nth c (xs : list A) k i : i < c -> nth_error (chunk_of xs c k) i = nth_error xs (k * c + i).
  Proof.
    intro H. unfold chunk_of.
    assert (G : forall n (l : list A) j, j < n -> nth_error (firstn n l) j = nth_error l j).
    { induction n as [|n IH]; intros [|y l] [|j] Hj; cbn; auto; try lia. apply IH; lia. }
    rewrite G by auto. clear. generalize (k * c) as m. intro m. revert xs.
    induction m as [|m IH]; intros [|x xs]; cbn; auto. now destruct i.
  Qed.

  Lemma slice_nth (l r : list A) a b i : a <= length l ->
    length r = Nat.min b (length l) - a -> a <= b ->
    nth_error (slice_set l a b r) i = if (a <=? i) && (i <? b) then nth_error r (i - a) else nth_error l i.
  Proof.
    intros Ha Hr Hab. unfold slice_set.
    assert (FL : length (firstn a l) = a) by (rewrite firstn_length; lia).
    assert (G : forall n (q : list A) j, j < n -> nth_error (firstn n q) j = nth_error q j).
    { induction n as [|n IH]; intros [|y q] [|j] Hj; cbn; auto; try lia. apply IH; lia. }
    assert (K : forall m (q : list A) j, nth_error (skipn m q) j = nth_error q (m + j)).
    { induction m as [|m IH]; intros [|y q] j; cbn; auto. now destruct j. }
    destruct (Nat.leb_spec a i) as [H1|H1]; cbn [andb].
    - rewrite nth_error_app2 by lia. rewrite FL.
      destruct (Nat.ltb_spec i b) as [H2|H2].
      + destruct (Nat.lt_ge_cases (i - a) (length r)) as [H3|H3].
        * now rewrite nth_error_app1 by lia.
        * rewrite nth_error_app2 by lia. rewrite K.
          rewrite (proj2 (nth_error_None r (i - a))) by lia.
          apply nth_error_None. lia.
      + rewrite nth_error_app2 by lia. rewrite K.
        destruct (Nat.lt_ge_cases i (length l)).
        * f_equal. lia.
        * rewrite (proj2 (nth_error_None l i)) by lia. apply nth_error_None. lia.
    - rewrite nth_error_app1 by lia. apply G. lia.
  Qed.
  Lemma slice_len (l r : list A) a b : a <= length l ->
    length r = Nat.min b (length l) - a -> a <= b -> length (slice_set l a b r) = length l.
  Proof. intros. unfold slice_set. rewrite !app_length, firstn_length, skipn_length. lia. Qed.
End Split.

Section PoolProofs.
  Variables A V E : Type.
  Notation st := (st A V E).
  Notation event := (event A V E).
  Notation job := (job A V E).
  Notation outc := (outcome E (payload V)).

  Lemma map_caller_good (f : A -> outcome E V) xs vs :
    map_caller f xs = Good vs -> Forall2 (fun x v => f x = Good v) xs vs.
  Proof.
    revert vs; induction xs as [|x xs IH]; intros vs H; cbn in H.
    - injection H as <-. constructor.
    - destruct (f x) eqn:F; [|discriminate]. destruct (map_caller f xs); [|discriminate].
      injection H as <-. constructor; auto.
  Qed.
  Lemma map_caller_bad (f : A -> outcome E V) xs e :
    map_caller f xs = Bad e ->
    exists pre x post, xs = pre ++ x :: post /\ Forall (fun y => exists v, f y = Good v) pre /\ f x = Bad e.
  Proof.
    induction xs as [|x xs IH]; intros H; cbn in H; [discriminate|].
    destruct (f x) eqn:F.
    - destruct (map_caller f xs); [discriminate|]. injection H as ->.
      destruct (IH eq_refl) as (pre & y & post & -> & P & Q).
      exists (x :: pre), y, post. repeat split; auto. constructor; eauto.
    - injection H as ->. exists [], x, xs. repeat split; auto.
  Qed.

  (* the outcome reported for a chunk *)
  Definition out_of (jb : job) (pf : nat -> option E) (k : nat) (o : outc) : Prop :=
    exists w, nth_error (works jb) k = Some w /\ o = match pf k with Some e => Bad e | None => exec w end.

  Lemma out_of_fun jb pf k o o' : out_of jb pf k o -> out_of jb pf k o' -> o = o'.
  Proof. intros (w & H & ->) (w' & H' & ->). assert (w' = w) by congruence. now subst. Qed.

  Definition njobs (jb : job) := length (works jb).
  Definition valid (jb : job) (pf : nat -> option E) (reps : list (nat * outc)) : Prop :=
    NoDup (map fst reps) /\ Forall (fun p => out_of jb pf (fst p) (snd p)) reps.

  Lemma out_of_lt jb pf k o : out_of jb pf k o -> k < njobs jb.
  Proof. intros (w & H & _). apply nth_error_Some. congruence. Qed.

  Lemma valid_len jb pf reps : valid jb pf reps -> length reps <= njobs jb.
  Proof.
    intros [N F]. rewrite <- (map_length fst reps). rewrite <- (seq_length (njobs jb) 0).
    apply NoDup_incl_length; auto. intros k Hk. apply in_map_iff in Hk as ([k' o] & <- & I).
    rewrite Forall_forall in F. apply F in I. apply out_of_lt in I. apply in_seq. cbn in *. lia.
  Qed.
  Lemma valid_all jb pf reps : valid jb pf reps -> length reps = njobs jb ->
    forall k, k < njobs jb -> exists o, In (k, o) reps.
  Proof.
    intros [N F] L k Hk.
    assert (I : In k (map fst reps)).
    { assert (H : incl (seq 0 (njobs jb)) (map fst reps)).
      { apply NoDup_length_incl; auto.
        - rewrite map_length, seq_length. lia.
        - intros i Hi. apply in_map_iff in Hi as ([k' o] & <- & I).
          rewrite Forall_forall in F. apply F in I. apply out_of_lt in I. apply in_seq. cbn in *. lia. }
      apply H. apply in_seq. lia. }
    apply in_map_iff in I as ([k' o] & <- & I). eauto.
  Qed.
  Lemma valid_full jb pf reps : valid jb pf reps ->
    (forall k, k < njobs jb -> exists o, In (k, o) reps) -> length reps = njobs jb.
  Proof.
    intros Vd H. pose proof (valid_len Vd). destruct Vd as [N F].
    enough (njobs jb <= length reps) by lia.
    rewrite <- (map_length fst reps). rewrite <- (seq_length (njobs jb) 0) at 1.
    apply NoDup_incl_length; [apply seq_NoDup|]. intros k Hk. apply in_seq in Hk.
    destruct (H k) as (o & I); [lia|]. apply in_map_iff. exists (k, o); auto.
  Qed.

  Fixpoint first_bad (reps : list (nat * outc)) : option E :=
    match reps with
    | [] => None
    | (_, Bad e) :: _ => Some e
    | (_, Good _) :: r => first_bad r
    end.
  Lemma first_bad_app r1 r2 : first_bad (r1 ++ r2) = match first_bad r1 with Some e => Some e | None => first_bad r2 end.
  Proof. induction r1 as [|[k [p|e]] r1 IH]; cbn; auto. Qed.

  (* the state of a result object as a function of the reports and yields *)
  Definition obj_ok (jb : job) (pf : nat -> option E) (reps : list (nat * outc)) (ys : list outc)
             (r : robj V E) : Prop :=
    match jb with
    | JApply f x =>
        r = match reps with [] => RApply false None [] | (k, o) :: _ => RApply true (Some o) [o] end
    | JMap f xs c =>
        if c =? 0 then r = RMap 0 0 (MVals _ (repeat None (length xs))) true []
        else exists val,
          let rdy := length reps =? njobs jb in
          r = RMap (Z.of_nat c) (Z.of_nat (njobs jb) - Z.of_nat (length reps)) val rdy (if rdy then [val] else []) /\
          match first_bad reps with
          | Some e => val = MExc _ e
          | None => exists l, val = MVals _ l /\ length l = length xs /\
              forall k o i x, In (k, o) reps -> nth_error xs i = Some x -> i / c = k ->
                 exists v, nth_error l i = Some (Some v) /\ f x = Good v
          end
    | JIter true f xs c =>
        exists idx items uns,
          r = RIter true (njobs jb) idx items uns /\
          NoDup (dkeys uns) /\
          Forall (fun k => exists o, In (k, o) reps) (seq 0 idx) /\
          (forall k o, dget k uns = Some o <-> (In (k, o) reps /\ idx <= k)) /\
          dget idx uns = None /\
          Forall2 (out_of jb pf) (seq 0 idx) (ys ++ items)
    | JIter false f xs c =>
        exists items, r = RIter false (njobs jb) (length reps) items [] /\
          ys ++ items = map snd reps
    end.

  Definition jsize_ok (jb : job) : Prop :=
    match jb with JMap _ xs c => xs = [] -> c = 0 | JIter _ _ _ c => 0 < c | _ => True end.

  Lemma new_obj_ok jb pf : jsize_ok jb ->
    obj_ok jb pf [] [] (fst (new_obj jb)) /\
    snd (new_obj jb) = match jb with JMap _ _ c => negb (c =? 0) | _ => true end.
  Proof.
    intro Hs. destruct jb as [f x|f xs c|[] f xs c]; cbn -[njobs works Nat.eqb].
    - auto.
    - destruct (Nat.eqb_spec c 0) as [H|N]; cbn -[njobs Nat.eqb]; auto. split; auto.
      exists (MVals _ (repeat None (length xs))).
      assert (NJ : njobs (JMap f xs c) = length xs / c + (if length xs mod c =? 0 then 0 else 1)).
      { unfold njobs; cbn [works]. rewrite map_length. apply split_len. lia. }
      assert (P : 0 < njobs (JMap f xs c)).
      { cbn in Hs. destruct xs as [|x xs]; [now specialize (Hs eq_refl)|].
        unfold njobs; cbn [works]. rewrite map_length. apply nth_error_Some. rewrite split_nth by lia. cbn. congruence. }
      cbv zeta. cbn [length]. rewrite NJ in *. destruct (Nat.eqb_spec 0 (length xs / c + (if length xs mod c =? 0 then 0 else 1))); [lia|].
      split.
      + f_equal. lia.
      + eexists; split; [reflexivity|]. split; [now rewrite repeat_length|]. intros ? ? ? ? [].
    - split; auto. exists 0, [], []. cbn.
      split; [reflexivity|]. split; [constructor|]. split; [constructor|].
      split; [|split; [reflexivity|constructor]]. intros k o. split; [discriminate|intros [[] _]].
    - split; auto. exists []. cbn. auto.
  Qed.

  Lemma drain_ok jb pf reps ys fuel : forall idx items uns,
    valid jb pf reps -> length uns <= fuel ->
    NoDup (dkeys uns) ->
    Forall (fun k => exists o, In (k, o) reps) (seq 0 idx) ->
    (forall k o, dget k uns = Some o <-> (In (k, o) reps /\ idx <= k)) ->
    Forall2 (out_of jb pf) (seq 0 idx) (ys ++ items) ->
    let '(idx', items', uns') := drain fuel idx items uns in
    NoDup (dkeys uns') /\
    Forall (fun k => exists o, In (k, o) reps) (seq 0 idx') /\
    (forall k o, dget k uns' = Some o <-> (In (k, o) reps /\ idx' <= k)) /\
    dget idx' uns' = None /\
    Forall2 (out_of jb pf) (seq 0 idx') (ys ++ items').
  Proof.
    induction fuel as [|fuel IH]; intros idx items uns Vd L N F D F2.
    - destruct uns; [|cbn in L; lia]. cbn. auto 10.
    - cbn [drain]. destruct (dget idx uns) as [o|] eqn:G.
      + assert (IR : In (idx, o) reps) by (apply D in G; tauto).
        assert (LD : length (ddel idx uns) < length uns).
        { clear - G. induction uns as [|[k v] u IHu]; cbn [dget ddel] in *; [discriminate|].
          match goal with |- context [if ?c then _ else _] => destruct c end; cbn [length]; [lia|].
          specialize (IHu G). lia. }
        apply IH; auto.
        * lia.
        * now apply NoDup_ddel.
        * rewrite seq_S. apply Forall_app. split; auto. constructor; eauto.
        * intros k o'. destruct (Nat.eq_dec k idx) as [->|Nk].
          -- rewrite dget_ddel_same by auto. split; [discriminate|lia].
          -- rewrite dget_ddel_other by auto. rewrite D. split; intros [? ?]; split; auto; lia.
        * rewrite seq_S, app_assoc. apply Forall2_app; auto. constructor; [|constructor].
          destruct Vd as [_ Fv]. rewrite Forall_forall in Fv. apply (Fv _ IR).
      + auto 10.
  Qed.

  Lemma nth_map_works f xs c k w : 0 < c -> nth_error (works (@JMap A V E f xs c)) k = Some w ->
    w = WMap f (chunk_of xs c k) /\ k * c < length xs.
  Proof.
    intros Hc H. cbn [works] in H. rewrite nth_error_map, split_nth in H by auto.
    destruct (Nat.ltb_spec (k * c) (length xs)); cbn in H; [|discriminate]. injection H as <-. auto.
  Qed.

  Lemma NoDup_snoc_inv {T} (l : list T) x : NoDup (l ++ [x]) -> NoDup l /\ ~ In x l.
  Proof. intro H. apply NoDup_remove in H. now rewrite app_nil_r in H. Qed.

  Lemma In_snoc {T} (l : list T) x y : In y (l ++ [x]) <-> In y l \/ y = x.
  Proof. rewrite in_app_iff. cbn. intuition. Qed.

  Lemma obj_set_ok jb pf reps ys r k o :
    jsize_ok jb -> obj_ok jb pf reps ys r ->
    valid jb pf reps -> valid jb pf (reps ++ [(k, o)]) ->
    obj_ok jb pf (reps ++ [(k, o)]) ys (fst (obj_set k o r)) /\
    snd (obj_set k o r) = (S (length reps) =? njobs jb).
  Proof.
    intros Hs Ok V1 V2.
    pose proof V2 as [N F]. rewrite map_app in N. cbn in N. apply NoDup_snoc_inv in N as [_ NI].
    assert (OO : out_of jb pf k o). { rewrite Forall_forall in F. apply (F (k, o)). apply In_snoc; auto. }
    pose proof (valid_len V2) as LL. rewrite app_length in LL. cbn in LL.
    destruct jb as [f x|f xs c|[] f xs c]; unfold obj_ok in Ok |- *.
    - unfold njobs in LL; cbn in LL. destruct reps; cbn in LL; [|lia]. subst r. cbn. auto.
    - destruct (Nat.eqb_spec c 0) as [C0|C0].
      { subst c. unfold njobs in LL. cbn [works] in LL. rewrite split_zero in LL. cbn in LL. lia. }
      destruct Ok as (val & -> & Hv). set (n := njobs (JMap f xs c)) in *.
      assert (RN : (length reps =? n) = false) by (apply Nat.eqb_neq; lia). rewrite RN.
      rewrite app_length. cbn [length]. rewrite Nat.add_1_r.
      set (val' := match o, val with
          | Good p, MVals _ l => MVals _ (slice_set l (k * Z.to_nat (Z.of_nat c)) (S k * Z.to_nat (Z.of_nat c)) (map Some (plist p)))
          | Bad e, MVals _ _ => MExc _ e
          | _, MExc _ e => MExc _ e
          end).
      assert (Z1 : (Z.of_nat n - Z.of_nat (length reps) - 1 =? 0)%Z = (S (length reps) =? n)).
      { destruct (Nat.eqb_spec (S (length reps)) n); [apply Z.eqb_eq|apply Z.eqb_neq]; lia. }
      assert (HV : match first_bad (reps ++ [(k, o)]) with
          | Some e => val' = MExc _ e
          | None => exists l, val' = MVals _ l /\ length l = length xs /\
              forall k0 o0 i x, In (k0, o0) (reps ++ [(k, o)]) -> nth_error xs i = Some x -> i / c = k0 ->
                 exists v, nth_error l i = Some (Some v) /\ f x = Good v
          end).
      { rewrite first_bad_app. destruct (first_bad reps) as [e|].
        - subst val. unfold val'. now destruct o.
        - destruct Hv as (l & -> & Ll & Hl). destruct o as [p|e]; cbn [first_bad]; [|reflexivity].
          unfold val'. rewrite Nat2Z.id. eexists; split; [reflexivity|].
          destruct OO as (w & Hw & Eo). apply nth_map_works in Hw as [-> Kb]; [|lia].
          destruct (pf k); [discriminate|]. cbn in Eo.
          destruct (map_caller f (chunk_of xs c k)) as [vs|] eqn:MC; [|discriminate]. injection Eo as ->.
          apply map_caller_good in MC. cbn [plist].
          assert (Lv : length vs = Nat.min (S k * c) (length xs) - k * c).
          { assert (Q : length (chunk_of xs c k) = length vs) by (clear - MC; induction MC; cbn; auto).
            rewrite <- Q. unfold chunk_of. rewrite firstn_length, skipn_length. cbn. lia. }
          rewrite slice_len; rewrite ?map_length, ?Ll; auto; try lia; try (cbn; lia).
          split; auto. intros k0 o0 i x I Hx Ek.
          rewrite slice_nth; rewrite ?map_length, ?Ll; auto; try lia; try (cbn; lia).
          pose proof (Nat.div_mod i c C0) as DM. pose proof (Nat.mod_upper_bound i c C0) as MB.
          destruct ((k * c <=? i) && (i <? S k * c)) eqn:B.
          + apply andb_prop in B as [B1 B2]. apply Nat.leb_le in B1. apply Nat.ltb_lt in B2.
            assert (Hc : nth_error (chunk_of xs c k) (i - k * c) = Some x).
            { rewrite chunk_nth by (cbn in B2; lia). rewrite <- Hx. f_equal. lia. }
            clear - MC Hc. rewrite nth_error_map. revert MC Hc. generalize (i - k * c) as m. generalize (chunk_of xs c k) as ch.
            intros ch m MC. revert m. induction MC as [|y v ch vs Hy MC IH]; intros [|m] Hm; cbn in *; try discriminate.
            * injection Hm as ->. eauto.
            * apply IH; auto.
          + apply In_snoc in I as [I|I].
            * eapply Hl; eauto.
            * injection I as -> ->. exfalso. apply andb_false_iff in B as [B|B]; [apply Nat.leb_gt in B|apply Nat.ltb_ge in B]; subst k; cbn in *; nia. }
      cbn [obj_set]. fold val'. rewrite Z1.
      destruct (S (length reps) =? n) eqn:Q; cbn [fst snd]; (split; [|reflexivity]); exists val'; (split; [|exact HV]); cbn [app]; f_equal; lia.
    - destruct Ok as (idx & items & uns & -> & Nu & Fi & D & G & F2). cbn [obj_set].
      set (n := njobs (JIter true f xs c)) in *.
      assert (Gi : ~ In idx (map fst reps)).
      { intro I. apply in_map_iff in I as ([k' o'] & Ek & I). cbn in Ek. subst k'.
        assert (dget idx uns = Some o') by (apply D; auto). congruence. }
      assert (NK : forall o', ~ In (k, o') reps).
      { intros o' I. apply NI. apply in_map_iff. exists (k, o'). auto. }
      destruct (Nat.eqb_spec idx k) as [->|Nk].
      + pose proof (@drain_ok (JIter true f xs c) pf (reps ++ [(k, o)]) ys (length uns) (S k) (items ++ [o]) uns V2 (Nat.le_refl _) Nu) as DR.
        destruct (drain (length uns) (S k) (items ++ [o]) uns) as [[idx' items'] uns'].
        destruct DR as (D1 & D2 & D3 & D4 & D5).
        * rewrite seq_S. apply Forall_app. split.
          -- eapply Forall_impl; [|exact Fi]. cbn. intros a (o' & I). exists o'. apply In_snoc; auto.
          -- constructor; [|constructor]. exists o. apply In_snoc; auto.
        * intros k0 o0. rewrite D, In_snoc. split.
          -- intros [I Le]. split; auto. destruct (Nat.eq_dec k0 k) as [->|]; [|lia]. now apply NK in I.
          -- intros [[I|I] Le]; [split; auto; lia|]. injection I as -> _. lia.
        * rewrite seq_S, app_assoc. apply Forall2_app; auto.
        * cbn [fst snd]. split; [exists idx', items', uns'; auto 10|].
          assert (Li : idx' <= n).
          { destruct (Nat.le_gt_cases idx' n); auto. rewrite Forall_forall in D2.
            destruct (D2 n) as (o' & I); [apply in_seq; lia|].
            destruct V2 as [_ Fv]. rewrite Forall_forall in Fv. apply Fv in I. apply out_of_lt in I. cbn in I. fold n in I. lia. }
          destruct (Nat.eqb_spec (S (length reps)) n) as [En|Nn].
          -- apply Nat.eqb_eq. destruct (Nat.eq_dec idx' n) as [|Ni]; auto. exfalso.
             destruct (valid_all V2) with (k := idx') as (o' & I); [rewrite app_length; cbn [length]; fold n; lia|fold n; lia|].
             assert (dget idx' uns' = Some o') by (apply D3; auto). congruence.
          -- apply Nat.eqb_neq. intros ->. apply Nn.
             assert (Q : length (reps ++ [(k, o)]) = n).
             { apply (valid_full V2). intros i Hi. rewrite Forall_forall in D2. apply D2. apply in_seq. fold n in Hi. lia. }
             rewrite app_length in Q. cbn [length] in Q. lia.
      + cbn [fst snd]. split.
        * exists idx, items, (dset k o uns). split; [reflexivity|].
          split; [now apply NoDup_dset|]. split.
          { eapply Forall_impl; [|exact Fi]. cbn. intros a (o' & I). exists o'. apply In_snoc; auto. }
          split.
          { intros k0 o0. rewrite In_snoc. destruct (Nat.eq_dec k0 k) as [->|N0].
            - rewrite dget_dset_same. split.
              + intro Q. injection Q as ->. split; auto.
                destruct (Nat.le_gt_cases idx k); auto. rewrite Forall_forall in Fi.
                destruct (Fi k) as (o' & I); [apply in_seq; lia|]. now apply NK in I.
              + intros [[I|I] _]; [now apply NK in I|]. congruence.
            - rewrite dget_dset_other by auto. rewrite D. split.
              + intros [I Le]. auto.
              + intros [[I|I] Le]; auto. injection I as -> _. congruence. }
          split; [rewrite dget_dset_other by auto; exact G|exact F2].
        * assert (idx <> n). 
          { intros ->. assert (k < n) by (apply out_of_lt in OO; exact OO).
            rewrite Forall_forall in Fi. destruct (Fi k) as (o' & I); [apply in_seq; lia|]. now apply NK in I. }
          assert (S (length reps) <> n).
          { intro Q. destruct (valid_all V2) with (k := idx) as (o' & I); [rewrite app_length; cbn [length]; fold n; lia| |].
            - fold n. destruct (Nat.lt_ge_cases idx n); auto. exfalso.
              assert (k < n) by (apply out_of_lt in OO; exact OO).
              rewrite Forall_forall in Fi. destruct (Fi k) as (o' & I); [apply in_seq; lia|]. now apply NK in I.
            - apply In_snoc in I as [I|I]; [|injection I as ? _; congruence].
              apply Gi. apply in_map_iff. exists (idx, o'). auto. }
          transitivity false; [now apply Nat.eqb_neq|symmetry; now apply Nat.eqb_neq].
    - destruct Ok as (items & -> & Q). cbn [obj_set fst snd]. split; [|reflexivity].
      exists (items ++ [o]). rewrite app_length. cbn [length]. rewrite Nat.add_1_r. split; [reflexivity|].
      rewrite map_app, app_assoc, Q. reflexivity.
  Qed.

  Lemma obj_next_ok jb pf reps ys r : obj_ok jb pf reps ys r ->
    match snd (obj_next r) with
    | AItem o => obj_ok jb pf reps (ys ++ [o]) (fst (obj_next r))
    | _ => fst (obj_next r) = r
    end.
  Proof.
    intro Ok. destruct jb as [f x|f xs c|[] f xs c]; unfold obj_ok in Ok |- *.
    - subst r. now destruct reps as [|[k o] reps].
    - destruct (c =? 0); [subst r; reflexivity|]. destruct Ok as (val & -> & _). reflexivity.
    - destruct Ok as (idx & items & uns & -> & N & Fi & D & G & F2). destruct items as [|o items]; cbn -[njobs Nat.eqb].
      + match goal with |- context [if ?b then _ else _] => now destruct b end.
      + exists idx, items, uns. rewrite <- app_assoc. cbn. auto 10.
    - destruct Ok as (items & -> & Q). destruct items as [|o items]; cbn -[njobs Nat.eqb].
      + match goal with |- context [if ?b then _ else _] => now destruct b end.
      + exists items. rewrite <- app_assoc. cbn. auto.
  Qed.
End PoolProofs.
