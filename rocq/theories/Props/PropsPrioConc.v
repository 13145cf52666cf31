(* C190, C191, and C17 again: distributed prioritized samples taken while the members go on working. *)
From Verif Require Import Lib.Rat Model.Buffer Model.WeightTree Model.PrioritizedBuffer Model.DistBuffer Model.PrioConc
  Spec.WeightTreeSpec Spec.BufferSpec Spec.PrioritizedSpec Spec.DistSpec
  Proofs.BufferProofs Proofs.BufferDict Proofs.WeightTreeProofs Proofs.PrioritizedProofs Proofs.RnnPrioProofs Proofs.DistProofs Proofs.DistGroupProofs.
Open Scope nat_scope.

Lemma pick {A} (d : A) n (P : nat -> A -> Prop) : (forall i, i < n -> exists x, P i x) ->
  exists l, length l = n /\ forall i, i < n -> P i (nth i l d).
Proof.
  induction n as [|n IH]; intros E; [exists []; split; [reflexivity|lia]|].
  destruct IH as (l & L & Q); [intros i I; apply E; lia|]. destruct (E n ltac:(lia)) as (x & X).
  exists (l ++ [x]). split; [rewrite app_length; cbn; lia|]. intros i I.
  destruct (Nat.eq_dec i n) as [->|N]; [rewrite app_nth2, L, Nat.sub_diag by lia; exact X|].
  rewrite app_nth1 by lia. apply Q. lia.
Qed.
Lemma app_cut {A} (a b c d : list A) x : a ++ b = c ++ x :: d -> length c < length a -> exists e, a = c ++ x :: e.
Proof.
  revert c. induction a as [|y a IH]; intros c E L; [cbn in L; lia|].
  destruct c as [|z c]; cbn in E; injection E as -> E; [now exists a|].
  destruct (IH c E ltac:(cbn in L; lia)) as (e & ->). now exists e.
Qed.
Lemma qfold ws : forall a, fold_left Qcplus ws a = (a + qsum ws)%Qc.
Proof. induction ws as [|w r IH]; intros a; cbn; [ring|]. rewrite IH. ring. Qed.

(* what the shares add up to *)
Lemma shares_total N ws : (forall w, In w ws -> (0 <= w)%Qc) -> ws <> [] ->
  let L := list_sum (map (share N (weight_of_all ws)) ws) in
  L < N + length ws /\ ((nq N * tiny < qsum ws)%Qc -> N <= L).
Proof.
  intros WN NN. cbn zeta. unfold weight_of_all. rewrite qfold. set (all := (0 + qsum ws + tiny)%Qc). set (Sm := qsum ws) in *.
  set (L := list_sum _).
  assert (AE : all = (Sm + tiny)%Qc) by (unfold all; ring). clearbody all.
  assert (T0 : (0 < tiny)%Qc) by reflexivity.
  assert (SN : (0 <= Sm)%Qc) by (apply qsum_nonneg; auto).
  assert (AP : (0 < all)%Qc) by (rewrite AE; qcl).
  destruct (shares_sum N ws all WN AP) as (B1 & _ & B2). fold Sm in B1, B2. fold L in B1, B2. specialize (B2 NN).
  assert (I0 : (0 < / all)%Qc) by (apply Qcinv_pos; auto).
  assert (AI : (all * / all = 1)%Qc) by (apply Qcmult_inv_r; intros Z; rewrite Z in AP; revert AP; apply Qclt_irr).
  assert (FR : (nq N * (Sm / all) = nq N - nq N * tiny * / all)%Qc).
  { unfold Qcdiv. rewrite <- (Qcmult_1_r (nq N)) at 2. rewrite <- AI, AE. ring. }
  rewrite FR in B1, B2.
  assert (X0 : (0 <= nq N * tiny * / all)%Qc).
  { apply Qcmul_nonneg; [apply Qcmul_nonneg; [apply nq_nonneg|qcl]|qcl]. }
  split.
  - destruct (Nat.lt_ge_cases L (N + length ws)) as [|G]; auto. exfalso. pose proof (nq_le G) as Q. rewrite nq_add in Q. qcl.
  - intros W. assert (X1 : (nq N * tiny * / all < 1)%Qc).
    { rewrite <- AI. apply Qcmult_lt_compat_r; auto. rewrite AE. qcl. }
    destruct (Nat.le_gt_cases N L) as [|G]; auto. exfalso. pose proof (nq_le (a:=Datatypes.S L) (b:=N) G) as Q. rewrite nq_S in Q. qcl.
Qed.

Section PConc.
  Context {T : Type}.
  Variable ok : T -> bool.
  Variable norm : Qc -> Qc.
  Variable pw : Qc -> Qc -> Qc.
  Variables beta inc : Qc.
  Variables n cap : nat.
  Hypothesis norm_pos : forall x, (0 < norm x)%Qc.
  Hypothesis cap2 : 2 <= cap.
  Notation step := (pstep ok norm pw beta inc n).
  Notation run := (prun ok norm pw beta inc n).
  Notation start := (pinit (T := T) beta cap).
  Notation mem ls m := (p_mem (run start ls) m).
  Notation calls ls := (p_calls (run start ls)).

  (* documented arguments: episodes fit, as many priorities as transitions, draws in [0, 1), and updates carry indexes
     and versions of samples *)
  Definition legal (l : plabel T) : Prop :=
    match l with
    | PsStore _ ep ps => length ep <= cap /\ (forall l, ps = Some l -> length ep <= length l)
    | PsUpdate _ ps idx vers => length ps = length idx /\ length vers = length idx /\
                                (forall i, In i idx -> i < cap) /\ (forall v, In v vers -> 1 <= v)
    | PsSample _ _ us => unit_draws us
    | _ => True
    end.
  Definition legals ls := forall l, In l ls -> legal l.
  (* the episodes member m has stored since its last clear *)
  Definition keeps (m : nat) (H : list (list T)) (l : plabel T) : list (list T) :=
    match l with
    | PsStore m' ep _ => if m' =? m then match ep with [] => H | _ => if forallb ok ep then H ++ [ep] else H end else H
    | PsClear m' => if m' =? m then [] else H
    | _ => H
    end.
  Definition eps (m : nat) (ls : list (plabel T)) : list (list T) := fold_left (keeps m) ls [].

  Lemma pput_same {A} (f : nat -> A) i x : pput f i x i = x.
  Proof. unfold pput. now rewrite Nat.eqb_refl. Qed.
  Lemma pput_other {A} (f : nat -> A) i j x : j <> i -> pput f i x j = f j.
  Proof. intros N. unfold pput. destruct (Nat.eqb_spec j i); congruence. Qed.
  Lemma run_app s a b : run s (a ++ b) = run (run s a) b.
  Proof. apply fold_left_app. Qed.
  Lemma run_snoc s a l : run s (a ++ [l]) = step (run s a) l.
  Proof. rewrite run_app. reflexivity. Qed.
  Lemma eps_snoc m a l : eps m (a ++ [l]) = keeps m (eps m a) l.
  Proof. unfold eps. rewrite fold_left_app. reflexivity. Qed.

  (* ---- members ---- *)
  Lemma mem_step s l m H : legal l ->
    dmoves ok norm pw inc cap (p_mem s m) H (p_mem (step s l) m) (keeps m H l) \/
    (l = PsClear m /\ p_mem (step s l) m = dp_clear beta (p_mem s m) /\ keeps m H l = []).
  Proof.
    intros L. assert (R : forall d H, dmoves ok norm pw inc cap d H d H) by constructor.
    assert (One : forall d H d' H', dmove ok norm pw inc cap d H d' H' -> dmoves ok norm pw inc cap d H d' H').
    { intros. econstructor; [constructor|assumption]. }
    destruct l as [m' ep ps|m'|m' ps idx vers|N|c m'|c m' us]; cbn [pstep on p_mem keeps].
    - destruct (Nat.eqb_spec m' m) as [->|NE]; [rewrite pput_same|rewrite pput_other by congruence; left; apply R].
      left. apply One. destruct L as [L1 L2]. destruct ep as [|t e]; [apply dm_refused; now left|].
      destruct (forallb ok (t :: e)) eqn:F; [|apply dm_refused; now right]. apply dm_store; auto. discriminate.
    - destruct (Nat.eqb_spec m' m) as [->|NE]; [rewrite pput_same|rewrite pput_other by congruence; left; apply R].
      right. auto.
    - left. destruct (Nat.eq_dec m' m) as [->|NE]; [rewrite pput_same|rewrite pput_other by congruence; apply R].
      destruct L as (L1 & L2 & L3 & L4). apply One. constructor; auto.
    - left. apply R.
    - left. destruct (nth_error (p_calls s) c) as [k|]; [|apply R]. destruct (sc_w k m'); [apply R|].
      destruct (_ && _); apply R.
    - left. destruct (nth_error (p_calls s) c) as [k|]; [|apply R]. destruct (waited _ _ _) as [ws|]; [|apply R].
      destruct (sc_ans k m'); [apply R|]. destruct (_ && _); [|apply R].
      destruct (dp_sample pw inc (p_mem s m') us (weight_of_all ws)) as [d a] eqn:E. cbn [p_mem with_call on].
      destruct (Nat.eq_dec m' m) as [->|NE]; [rewrite pput_same|rewrite pput_other by congruence; apply R].
      apply One. replace d with (fst (dp_sample pw inc (p_mem s m) us (weight_of_all ws))) by now rewrite E.
      constructor. exact L.
  Qed.
  Lemma dmoves_trans d H d1 H1 d2 H2 : dmoves ok norm pw inc cap d H d1 H1 -> dmoves ok norm pw inc cap d1 H1 d2 H2 ->
    dmoves ok norm pw inc cap d H d2 H2.
  Proof. intros A B. revert A. induction B as [|d0 H0 d3 H3 d4 H4 B IH M]; intros A; [exact A|]. eapply ds_step; [exact (IH A)|exact M]. Qed.
  Lemma dreach_moves d H d1 H1 : dreach ok norm pw beta inc cap d H -> dmoves ok norm pw inc cap d H d1 H1 ->
    dreach ok norm pw beta inc cap d1 H1.
  Proof. intros A B. revert A. induction B as [|d0 H0 d3 H3 d4 H4 B IH M]; intros A; [exact A|]. eapply dr_move; [exact (IH A)|exact M]. Qed.
  Lemma mem_reach ls m : legals ls -> dreach ok norm pw beta inc cap (mem ls m) (eps m ls).
  Proof.
    induction ls as [|l ls IH] using rev_ind; intros L; [constructor|]. rewrite run_snoc, eps_snoc.
    assert (R := IH ltac:(intros x I; apply L, in_or_app; auto)).
    destruct (mem_step (run start ls) l m (eps m ls)) as [M|(-> & E & K)].
    - apply L, in_or_app. right. now left.
    - exact (dreach_moves _ _ _ _ R M).
    - rewrite E, K. exact (dr_clear _ _ _ _ _ _ _ _ R).
  Qed.
  Lemma mem_ok ls m : legals ls -> member_ok ok norm pw beta inc (mem ls m).
  Proof. intros L. exists cap, (eps m ls). split; auto. now apply mem_reach. Qed.
  Lemma mem_moves a ls m : legals (a ++ ls) -> ~ In (PsClear m) ls ->
    dmoves ok norm pw inc cap (mem a m) (eps m a) (mem (a ++ ls) m) (eps m (a ++ ls)).
  Proof.
    induction ls as [|l ls IH] using rev_ind; intros L N; [rewrite app_nil_r; constructor|].
    rewrite app_assoc in *. rewrite run_snoc, eps_snoc.
    eapply dmoves_trans; [apply IH|].
    - intros x I. apply L, in_or_app. now left.
    - intros I. apply N, in_or_app. now left.
    - destruct (mem_step (run start (a ++ ls)) l m (eps m (a ++ ls))) as [M|(-> & _)]; auto.
      + apply L, in_or_app. right. now left.
      + exfalso. apply N, in_or_app. right. now left.
  Qed.

  (* ---- calls ---- *)
  Lemma waited_some w : forall k i ws, waited w i k = Some ws -> length ws = k /\ forall j, j < k -> w (i + j) = Some (nth j ws 0%Qc).
  Proof.
    induction k as [|k IH]; cbn; intros i ws E; [injection E as <-; split; [reflexivity|lia]|].
    destruct (w i) as [x|] eqn:W; [|discriminate]. destruct (waited w (S i) k) as [l|] eqn:E2; [|discriminate].
    injection E as <-. destruct (IH _ _ E2) as [L N]. split; [cbn; lia|]. intros [|j] J; [rewrite Nat.add_0_r; exact W|].
    rewrite Nat.add_succ_r. apply N. lia.
  Qed.
  Lemma waited_mono w w' : (forall m x, w m = Some x -> w' m = Some x) ->
    forall k i ws, waited w i k = Some ws -> waited w' i k = Some ws.
  Proof.
    intros M. induction k as [|k IH]; cbn; intros i ws E; auto.
    destruct (w i) as [x|] eqn:W; [|discriminate]. destruct (waited w (S i) k) as [l|] eqn:E2; [|discriminate].
    rewrite (M _ _ W), (IH _ _ E2). exact E.
  Qed.

  Lemma step_calls s l c k : nth_error (p_calls (step s l)) c = Some k ->
    nth_error (p_calls s) c = Some k \/
    (c = length (p_calls s) /\ exists N, l = PsCall N /\ k = MkSc N (fun _ => None) (fun _ => None)) \/
    (exists k0 m, nth_error (p_calls s) c = Some k0 /\ sc_size k = sc_size k0 /\ l = PsWeigh c m /\ m < n /\ sc_w k0 m = None /\
       sc_w k = pput (sc_w k0) m (Some (dp_weight_sum (p_mem s m))) /\ sc_ans k = sc_ans k0) \/
    (exists k0 m us ws, nth_error (p_calls s) c = Some k0 /\ sc_size k = sc_size k0 /\ l = PsSample c m us /\ m < n /\
       sc_w k = sc_w k0 /\ waited (sc_w k0) 0 n = Some ws /\ length us = share (sc_size k0) (weight_of_all ws) (nth m ws 0%Qc) /\
       sc_ans k = pput (sc_ans k0) m (Some (snd (dp_sample pw inc (p_mem s m) us (weight_of_all ws)))) /\
       p_mem (step s l) m = fst (dp_sample pw inc (p_mem s m) us (weight_of_all ws))).
  Proof.
    destruct l as [m' ep ps|m'|m' ps idx vers|N|c' m'|c' m' us]; cbn [pstep on p_calls p_mem]; auto.
    - intros E. destruct (Nat.lt_ge_cases c (length (p_calls s))) as [J|J]; [rewrite nth_error_app1 in E by auto; auto|].
      rewrite nth_error_app2 in E by auto. destruct (c - length (p_calls s)) as [|x] eqn:D; [|destruct x; discriminate].
      cbn in E. injection E as <-. right. left. split; [lia|]. eauto.
    - destruct (nth_error (p_calls s) c') as [k1|] eqn:E1; auto. destruct (sc_w k1 m') eqn:W; auto.
      destruct (0 <? sc_size k1) eqn:Z; cbn [andb]; auto. destruct (Nat.ltb_spec m' n) as [M|M]; auto.
      cbn [with_call p_calls]. intros E. destruct (Nat.eq_dec c c') as [->|NE]; [|rewrite upd_other in E by congruence; auto].
      rewrite upd_same in E by (apply nth_error_Some; congruence). injection E as <-. right. right. left.
      exists k1, m'. cbn. auto 10.
    - destruct (nth_error (p_calls s) c') as [k1|] eqn:E1; auto. destruct (waited (sc_w k1) 0 n) as [ws|] eqn:W; auto.
      destruct (sc_ans k1 m') eqn:A; auto. destruct (0 <? sc_size k1) eqn:Z; cbn [andb]; auto.
      destruct (Nat.ltb_spec m' n) as [M|M]; auto. cbn [andb].
      destruct (Nat.eqb_spec (length us) (share (sc_size k1) (weight_of_all ws) (nth m' ws 0%Qc))) as [S1|S1]; auto.
      destruct (dp_sample pw inc (p_mem s m') us (weight_of_all ws)) as [d a] eqn:E2. cbn [with_call on p_calls].
      intros E. destruct (Nat.eq_dec c c') as [->|NE]; [|rewrite upd_other in E by congruence; auto].
      rewrite upd_same in E by (apply nth_error_Some; congruence). injection E as <-. right. right. right.
      exists k1, m', us, ws. cbn [sc_size sc_w sc_ans p_mem with_call on]. rewrite E2, pput_same. cbn [fst snd]. auto 12.
  Qed.
  Lemma calls_len s l : length (p_calls s) <= length (p_calls (step s l)).
  Proof.
    destruct l as [m' ep ps|m'|m' ps idx vers|N|c' m'|c' m' us]; cbn [pstep on p_calls]; auto.
    - rewrite app_length. lia.
    - destruct (nth_error (p_calls s) c') as [k1|]; auto. destruct (sc_w k1 m'); auto. destruct (_ && _); auto. cbn. now rewrite upd_length.
    - destruct (nth_error (p_calls s) c') as [k1|]; auto. destruct (waited _ _ _); auto. destruct (sc_ans k1 m'); auto.
      destruct (_ && _); auto. destruct (dp_sample _ _ _ _ _). cbn. now rewrite upd_length.
  Qed.
  Lemma calls_run ls : forall s, length (p_calls s) <= length (p_calls (run s ls)).
  Proof. induction ls as [|l ls IH]; intros s; [reflexivity|]. eapply Nat.le_trans; [apply (calls_len s l)|apply IH]. Qed.

  Lemma calls_grow a N e : length (calls a) < length (calls (a ++ PsCall N :: e)).
  Proof.
    replace (a ++ PsCall N :: e) with ((a ++ [PsCall N]) ++ e) by (rewrite <- app_assoc; reflexivity).
    rewrite run_app, run_snoc. eapply Nat.lt_le_trans; [|apply calls_run]. cbn [pstep p_calls]. rewrite app_length. cbn. lia.
  Qed.

  (* where a call and its answers come from *)
  Definition from_weigh ls c m w := exists a b, ls = a ++ PsWeigh c m :: b /\ c < length (calls a) /\ w = dp_weight_sum (mem a m).
  Definition from_sample ls c (k : scall T) m r := exists a us b ka ws,
    ls = a ++ PsSample c m us :: b /\ nth_error (calls a) c = Some ka /\ waited (sc_w ka) 0 n = Some ws /\
    waited (sc_w k) 0 n = Some ws /\ length us = share (sc_size k) (weight_of_all ws) (nth m ws 0%Qc) /\
    r = snd (dp_sample pw inc (mem a m) us (weight_of_all ws)) /\
    mem (a ++ [PsSample c m us]) m = fst (dp_sample pw inc (mem a m) us (weight_of_all ws)).
  Lemma history ls : forall c k, nth_error (calls ls) c = Some k ->
    (exists a b, ls = a ++ PsCall (sc_size k) :: b /\ length (calls a) = c) /\
    (forall m w, sc_w k m = Some w -> m < n /\ from_weigh ls c m w) /\
    (forall m r, sc_ans k m = Some r -> m < n /\ from_sample ls c k m r).
  Proof.
    induction ls as [|l ls IH] using rev_ind; intros c k E; [destruct c; discriminate|].
    rewrite run_snoc in E.
    assert (Ext : forall c k k0, nth_error (calls ls) c = Some k0 -> sc_size k = sc_size k0 ->
      (forall m w, sc_w k0 m = Some w -> sc_w k m = Some w) ->
      (exists a b, ls ++ [l] = a ++ PsCall (sc_size k) :: b /\ length (calls a) = c) /\
      (forall m w, sc_w k0 m = Some w -> m < n /\ from_weigh (ls ++ [l]) c m w) /\
      (forall m r, sc_ans k0 m = Some r -> m < n /\ from_sample (ls ++ [l]) c k m r)).
    { intros c1 k1 k0 E0 SZ MW. destruct (IH c1 k0 E0) as ((a & b & Ea & La) & B & C). split; [|split].
      - exists a, (b ++ [l]). split; [rewrite Ea, SZ, <- app_assoc; reflexivity|exact La].
      - intros m w Q. destruct (B m w Q) as (M & a1 & b1 & E1 & R1). split; auto. exists a1, (b1 ++ [l]).
        split; [rewrite E1, <- app_assoc; reflexivity|exact R1].
      - intros m r Q. destruct (C m r Q) as (M & a1 & us & b1 & ka & ws & E1 & K1 & W1 & W2 & R1 & R2). split; auto.
        exists a1, us, (b1 ++ [l]), ka, ws. split; [rewrite E1, <- app_assoc; reflexivity|]. split; auto. split; auto.
        split; [eapply waited_mono; eauto|]. rewrite SZ. auto. }
    destruct (step_calls _ _ _ _ E) as [E0|[(-> & N & -> & ->)|[(k0 & m & E0 & SZ & -> & M & WN & W & A)|(k0 & m & us & ws & E0 & SZ & -> & M & W & WT & LU & A & PM)]]].
    - apply (Ext c k k E0); auto.
    - cbn [sc_size sc_w sc_ans]. split; [|split]; [|discriminate|discriminate]. exists ls, []. auto.
    - assert (Up : forall m1 w1, sc_w k0 m1 = Some w1 -> sc_w k m1 = Some w1).
      { intros m1 w1 Q. rewrite W. destruct (Nat.eq_dec m1 m) as [->|NE]; [congruence|]. rewrite pput_other; auto. }
      destruct (Ext c k k0 E0 SZ Up) as (X & Y & Z). split; [exact X|]. split.
      + intros m1 w1 Q. rewrite W in Q. destruct (Nat.eq_dec m1 m) as [->|NE].
        * rewrite pput_same in Q. injection Q as <-. split; auto. exists ls, []. split; auto.
          split; auto. apply nth_error_Some. congruence.
        * rewrite pput_other in Q by auto. auto.
      + rewrite A. exact Z.
    - destruct (Ext c k k0 E0 SZ) as (X & Y & Z); [rewrite W; auto|]. split; [exact X|]. split; [rewrite W; exact Y|].
      intros m1 r Q. rewrite A in Q. destruct (Nat.eq_dec m1 m) as [->|NE].
      + rewrite pput_same in Q. injection Q as <-. split; auto. exists ls, us, [], k0, ws. rewrite W, SZ, run_snoc. auto 12.
      + rewrite pput_other in Q by auto. auto.
  Qed.

  (* gather is collect on the answers of all members *)
  Lemma gather_collect ans : forall k i acc v, gather (T := T) ans i k acc = Some (Ok v) ->
    exists l, length l = k /\ (forall j, j < k -> ans (i + j) = Some (Ok (nth j l (0, [], [], [], [])))) /\
      collect (combine (seq i k) (map (fun a => Ok a) l)) acc = Ok v.
  Proof.
    induction k as [|k IH]; cbn [gather]; intros i acc v E.
    - injection E as <-. exists []. split; [reflexivity|]. split; [lia|reflexivity].
    - destruct (ans i) as [[[[[[len batch] idx] ver] w]|e]|] eqn:A; try discriminate.
      destruct (IH _ _ _ E) as (l & L & N & C). exists ((len, batch, idx, ver, w) :: l). split; [cbn; lia|]. split.
      + intros [|j] J; [rewrite Nat.add_0_r; exact A|]. rewrite Nat.add_succ_r. apply N. lia.
      + cbn [seq map combine collect]. destruct (len =? 0); [exact C|]. destruct acc as [[[al ab] ai] aw]. exact C.
  Qed.
  Lemma collect_total (answers : list (nat * res (sres T))) : forall acc v, collect answers acc = Ok v ->
    fst (fst (fst v)) = fst (fst (fst acc)) + list_sum (map (fun a => match snd a with Ok (len, _, _, _, _) => len | Err _ => 0 end) answers).
  Proof.
    induction answers as [|[m [[[[[len batch] idx] ver] w]|e]] r IH]; intros acc v E; cbn [collect] in E; [|..|discriminate].
    - injection E as <-. cbn. lia.
    - cbn [map snd]. match goal with |- context [list_sum (?x :: ?y)] => change (list_sum (x :: y)) with (x + list_sum y) end.
      destruct (Nat.eqb_spec len 0) as [->|N]; [rewrite (IH _ _ E); lia|].
      destruct acc as [[[al ab] ai] aw]. rewrite (IH _ _ E). cbn. lia.
  Qed.

  Lemma sample_len ls m us all l b i v w : legals ls -> unit_draws us ->
    snd (dp_sample pw inc (mem ls m) us all) = Ok (l, b, i, v, w) -> l = if dp_size (mem ls m) =? 0 then 0 else length us.
  Proof.
    intros Lg U E. pose proof (mem_reach ls m Lg) as R. destruct (dreach_inv ok norm pw beta inc norm_pos cap _ _ cap2 R) as (f & I).
    destruct (Nat.eqb_spec (dp_size (mem ls m)) 0) as [Z|NZ].
    { unfold dp_sample in E. rewrite Z in E. cbn in E. rewrite orb_true_r in E. cbn in E. congruence. }
    destruct (Nat.eq_dec (length us) 0) as [Z1|NZ1].
    { unfold dp_sample in E. rewrite Z1 in E. cbn in E. congruence. }
    destruct (Nat.eq_dec (length us) 1) as [O|NO].
    { exfalso. unfold dp_sample in E. rewrite O in E. cbn [Nat.eqb orb] in E. destruct (Nat.eqb_spec (dp_size (mem ls m)) 0); [lia|].
      destruct (pb_sample_index _ _ _ _ _) as [p1 [[? ?]|?]]; cbn in E; discriminate. }
    destruct (dp_sample_ok pw inc cap _ _ f us all I U NZ ltac:(lia)) as (batch & idx & vers & ws & E' & _). congruence.
  Qed.

  (* the answers of a finished call, one per member *)
  Lemma finished ls c len batch ix isw : legals ls -> poutcome n (run start ls) c = Some (Ok (len, batch, ix, isw)) ->
    exists k, nth_error (calls ls) c = Some k /\
    (sc_size k = 0 /\ (len, batch, ix, isw) = (0, [], [], []) \/
     0 < sc_size k /\ exists l, length l = n /\
       (forall m, m < n -> sc_ans k m = Some (Ok (nth m l (0, [], [], [], []))) /\
                           from_sample ls c k m (Ok (nth m l (0, [], [], [], [])))) /\
       collect (combine (seq 0 n) (map (fun a => Ok a) l)) (0, [], [], []) = Ok (len, batch, ix, isw)).
  Proof.
    intros Lg E. unfold poutcome in E. destruct (nth_error (calls ls) c) as [k|] eqn:K; [|discriminate]. exists k. split; auto.
    destruct (Nat.eqb_spec (sc_size k) 0) as [Z|NZ]; [left; split; congruence|]. right. split; [lia|].
    destruct (gather_collect _ _ _ _ _ E) as (l & L & N & C). exists l. split; auto. split; auto.
    intros m M. specialize (N m M). cbn in N. split; auto. destruct (history ls c k K) as (_ & _ & Q). apply (Q m _ N).
  Qed.

  (* every position of a sample was there, with this version, when its member answered, which was during the call *)
  Theorem C191_consistent ls c len batch ix isw : legals ls ->
    poutcome n (run start ls) c = Some (Ok (len, batch, ix, isw)) ->
    length batch = len /\ length (origins ix) = len /\ length isw = len /\ NoDup (map fst ix) /\
    exists moment : nat -> list (plabel T), forall j m i v, nth_error (origins ix) j = Some (m, (i, v)) ->
      m < n /\ c < length (calls (moment m)) /\ (exists us b, ls = moment m ++ PsSample c m us :: b) /\
      exists x, nth_error batch j = Some x /\ dstored (mem (moment m) m) i = Some x /\
                nth_error (dp_ver (mem (moment m) m)) i = Some v.
  Proof.
    intros Lg E. destruct (finished ls c len batch ix isw Lg E) as (k & K & [[Z Q]|(NZ & l & L & An & C)]).
    { injection Q as -> -> -> ->. cbn. repeat split; auto; [constructor|]. exists (fun _ => []). intros [|j]; discriminate. }
    destruct (pick ([] : list (plabel T)) n (fun m a => exists us b, ls = a ++ PsSample c m us :: b /\ c < length (calls a) /\
      answer_ok (mem a m) (nth m l (0, [], [], [], [])))) as (ms & Lm & Pm).
    { intros m M. destruct (An m M) as (_ & a & us & b & ka & ws & Els & Ka & _ & _ & LU & R & _). exists a, us, b. split; auto.
      assert (La : legals a) by (intros x I; apply Lg; rewrite Els; apply in_or_app; now left).
      split; [apply nth_error_Some; congruence|]. symmetry in R.
      apply (dp_sample_answer ok norm pw beta inc norm_pos _ us (weight_of_all ws)); auto; [now apply mem_ok|].
      apply (Lg (PsSample c m us)). rewrite Els. apply in_or_app. right. now left. }
    set (g := map (fun m => (m, mem (nth m ms []) m)) (seq 0 n)).
    assert (AO : AccOk g (len, batch, ix, isw)).
    { eapply (collect_ok g g _ (0, [], [], [])); [auto| | | | |exact C].
      - unfold g. rewrite map_map. cbn [fst]. rewrite map_id. apply seq_NoDup.
      - assert (F : forall k i, i + k = n -> Forall2 (fun q a => fst a = fst q /\ (forall x, snd a = Ok x -> answer_ok (snd q) x))
            (map (fun m => (m, mem (nth m ms []) m)) (seq i k)) (combine (seq i k) (map (fun a => Ok a) (skipn i l)))).
        { induction k0 as [|k0 IH]; intros i I; cbn [seq map]; [constructor|].
          assert (D : skipn i l = nth i l (0, [], [], [], []) :: skipn (S i) l).
          { assert (I2 : i < length l) by lia. clear - I2. revert i I2. induction l as [|y l IH]; intros [|i] I2; cbn in *; try lia; auto. apply IH. lia. }
          rewrite D. cbn [map combine]. constructor; [|apply IH; lia]. cbn [fst snd]. split; auto.
          intros x X. injection X as <-. destruct (Pm i ltac:(lia)) as (us & b & _ & _ & Q). exact Q. }
        exact (F n 0 eq_refl).
      - split; cbn; auto; try tauto; try constructor. intros [|j]; discriminate.
      - cbn. tauto. }
    destruct AO as [(A1 & A2 & A3) _ A5 A6]. do 4 (split; auto). exists (fun m => nth m ms []). intros j m i v J.
    destruct (A6 j m i v J) as (d & I & B1 & B2). unfold g in I. apply in_map_iff in I as (m' & Q & I). injection Q as -> <-.
    apply in_seq in I. destruct (Pm m ltac:(lia)) as (us & b & Els & Lc & _). split; [lia|]. split; auto. split; [eauto|].
    assert (JL : j < length batch) by (rewrite A1, <- A2; apply nth_error_Some; congruence).
    destruct (nth_error batch j) as [x|] eqn:X; [|apply nth_error_None in X; lia]. exists x. auto.
  Qed.

  Definition ans_len (a : sres T) : nat := match a with (len, _, _, _, _) => len end.
  Lemma sum_le l : forall l' : list nat, length l = length l' -> (forall i, i < length l -> nth i l 0 <= nth i l' 0) -> list_sum l <= list_sum l'.
  Proof.
    induction l as [|x l IH]; intros [|y l'] L H; cbn in L; try lia.
    change (x + list_sum l <= y + list_sum l'). pose proof (H 0 ltac:(cbn; lia)) as H0. cbn in H0.
    assert (list_sum l <= list_sum l'); [|lia]. apply IH; [lia|]. intros i I. apply (H (S i)). cbn. lia.
  Qed.
  Lemma prefix_of_call ls1 N ls2 a l b : ls1 ++ PsCall N :: ls2 = a ++ l :: b -> length (calls ls1) < length (calls a) ->
    exists e, a = ls1 ++ PsCall N :: e /\ ls2 = e ++ l :: b.
  Proof.
    intros E Lt. symmetry in E. destruct (Nat.lt_ge_cases (length ls1) (length a)) as [J|J].
    - destruct (app_cut _ _ _ _ _ E J) as (e & ->). exists e. split; auto. rewrite <- app_assoc in E. apply app_inv_head in E.
      cbn in E. injection E as E. auto.
    - exfalso. assert (Q : exists r, ls1 = a ++ r).
      { clear - E J. revert ls1 E J. induction a as [|x a IH]; intros ls1 E J; [now exists ls1|].
        destruct ls1 as [|y ls1]; cbn in *; [lia|]. injection E as -> E. destruct (IH _ E ltac:(lia)) as (r & ->). now exists r. }
      destruct Q as (r & ->). rewrite run_app in Lt. pose proof (calls_run r (run start a)). lia.
  Qed.
  Lemma size_grows a ls m : legals (a ++ ls) -> ~ In (PsClear m) ls -> dp_size (mem a m) <> 0 -> dp_size (mem (a ++ ls) m) <> 0.
  Proof.
    intros Lg N S0. pose proof (mem_moves a ls m Lg N) as M.
    assert (La : legals a) by (intros x I; apply Lg, in_or_app; now left).
    destruct (dreach_inv ok norm pw beta inc norm_pos cap _ _ cap2 (mem_reach a m La)) as (f & I).
    destruct (dmoves_inv ok norm pw beta inc norm_pos _ _ _ _ _ _ cap2 I M) as (f2 & K & I2 & HE).
    unfold dp_size in *. rewrite (size_eq _ _ _ (pi_b _ _ _ _ (dv_p _ _ _ _ I))) in S0.
    rewrite (size_eq _ _ _ (pi_b _ _ _ _ (dv_p _ _ _ _ I2))). rewrite HE, concat_app, app_length. lia.
  Qed.

  (* Full claim: a sample of N >= 1 from n members has at least N and fewer than N + n items, if the weights add up to more
     than N * 1e-6 (C53 for concurrent members).  The upper bound always holds, the lower one if nobody clears a buffer
     during the call; ws are the weights the members had when they were asked. *)
  Theorem C190_partial ls1 N ls2 len batch ix isw : let ls := ls1 ++ PsCall N :: ls2 in let c := length (calls ls1) in
    legals ls -> 0 < N -> 0 < n -> poutcome n (run start ls) c = Some (Ok (len, batch, ix, isw)) ->
    len < N + n /\
    exists ws, length ws = n /\
      (forall m, m < n -> exists a b, ls2 = a ++ PsWeigh c m :: b /\ nth m ws 0%Qc = dp_weight_sum (mem (ls1 ++ PsCall N :: a) m)) /\
      ((forall m, ~ In (PsClear m) ls2) -> (nq N * tiny < qsum ws)%Qc -> N <= len).
  Proof.
    intros ls c Lg N0 n0 E. destruct (finished ls c len batch ix isw Lg E) as (k & K & Fin).
    destruct (history ls c k K) as ((a0 & b0 & Ea & Lc) & HW & _).
    assert (SN : sc_size k = N).
    { destruct (Nat.lt_trichotomy (length ls1) (length a0)) as [J|[J|J]].
      - exfalso. destruct (app_cut _ _ _ _ _ (eq_sym Ea) J) as (e & E1). subst a0. pose proof (calls_grow ls1 N e). unfold c in Lc. lia.
      - assert (Q : forall (x y : list (plabel T)) u v, length x = length y -> x ++ u = y ++ v -> x = y /\ u = v).
        { induction x as [|p x IH]; intros [|q y] u v L2 E2; cbn in *; try lia; auto. injection E2 as -> E2. destruct (IH y u v ltac:(lia) E2). now subst. }
        destruct (Q _ _ _ _ J Ea) as [_ E2]. congruence.
      - exfalso. destruct (app_cut _ _ _ _ _ Ea J) as (e & E1). pose proof (calls_grow a0 (sc_size k) e) as Q. rewrite <- E1 in Q. unfold c in Lc. lia. }
    destruct Fin as [[Z _]|(_ & l & L & An & C)]; [lia|].
    destruct (An 0 n0) as (_ & _ & _ & _ & _ & ws & _ & _ & _ & Ws & _).
    destruct (waited_some _ _ _ _ Ws) as [LW NW].
    assert (Wm : forall m, m < n -> exists a b, ls2 = a ++ PsWeigh c m :: b /\ nth m ws 0%Qc = dp_weight_sum (mem (ls1 ++ PsCall N :: a) m)).
    { intros m M. destruct (HW m _ (NW m M)) as (_ & a & b & E1 & Lt & W). destruct (prefix_of_call ls1 N ls2 a _ b E1 Lt) as (e & -> & E2). eauto. }
    assert (WN : forall w, In w ws -> (0 <= w)%Qc).
    { intros w I. destruct (In_nth _ _ 0%Qc I) as (m & M & <-). rewrite LW in M. destruct (Wm m M) as (a & b & E1 & ->).
      apply (weight_nonneg ok norm pw beta inc norm_pos). apply mem_ok. intros x X. apply Lg. unfold ls. rewrite E1.
      rewrite app_comm_cons, app_assoc. apply in_or_app. now left. }
    destruct (shares_total N ws WN ltac:(intros ->; cbn in LW; lia)) as [Up Lo]. rewrite LW in Up.
    assert (Tot : len = list_sum (map ans_len l)).
    { pose proof (collect_total _ _ _ C) as Q. cbn [fst Nat.add] in Q. rewrite Q. f_equal.
      clear - L. assert (G : forall i k (l : list (sres T)), length l = k -> map (fun a => match snd a with Ok (len, _, _, _, _) => len | Err _ => 0 end)
        (combine (seq i k) (map (fun a => Ok a) l)) = map ans_len l).
      { intros i k. revert i. induction k as [|k IH]; intros i [|x l0] Q; cbn in *; try lia; auto. rewrite IH by lia. destruct x as [[[[? ?] ?] ?] ?]. reflexivity. }
      apply G, L. }
    assert (Each : forall m, m < n -> ans_len (nth m l (0, [], [], [], [])) <= share N (weight_of_all ws) (nth m ws 0%Qc) /\
       ((forall m, ~ In (PsClear m) ls2) -> ans_len (nth m l (0, [], [], [], [])) = share N (weight_of_all ws) (nth m ws 0%Qc))).
    { intros m M. destruct (An m M) as (_ & a & us & b & ka & ws' & Els & Ka & Wa & Wk & LU & R & _).
      assert (ws' = ws) by congruence. subst ws'. rewrite SN in LU.
      assert (La : legals a) by (intros x I; apply Lg; rewrite Els; apply in_or_app; now left).
      assert (U : unit_draws us) by (apply (Lg (PsSample c m us)); rewrite Els; apply in_or_app; right; now left).
      destruct (nth m l (0, [], [], [], [])) as [[[[x1 x2] x3] x4] x5]. cbn [ans_len].
      pose proof (sample_len a m us _ _ _ _ _ _ La U (eq_sym R)) as SL.
      destruct (Nat.eqb_spec (dp_size (mem a m)) 0) as [Z|NZ]; [|split; [lia|intros _; lia]].
      split; [lia|]. intros NC. rewrite SL.
      assert (W0 : nth m ws 0%Qc = 0%Qc); [|rewrite W0, share_0; reflexivity].
      destruct (history a c ka Ka) as (_ & HWa & _). destruct (waited_some _ _ _ _ Wa) as [_ NWa].
      destruct (HWa m _ (NWa m M)) as (_ & a1 & b1 & E1 & Lt & ->).
      destruct (Nat.eq_dec (dp_size (mem a1 m)) 0) as [Z1|NZ1].
      - apply (weight_nonneg ok norm pw beta inc norm_pos); auto. apply mem_ok. intros x X. apply La. rewrite E1. apply in_or_app. now left.
      - exfalso. apply (size_grows a1 (PsWeigh c m :: b1) m); auto; [rewrite <- E1; auto| |rewrite <- E1; auto].
        intros I. apply (NC m).
        assert (Lt2 : c < length (calls a)) by (apply nth_error_Some; congruence).
        destruct (prefix_of_call ls1 N ls2 a _ b Els Lt2) as (e & Ee & ->).
        rewrite Ee in E1. destruct (prefix_of_call ls1 N e a1 _ b1 E1 Lt) as (e1 & _ & ->).
        apply in_or_app. left. apply in_or_app. right. exact I. }
    assert (Nth : forall m, m < n -> nth m (map ans_len l) 0 = ans_len (nth m l (0, [], [], [], []))).
    { intros m M. change 0 with (ans_len (0, [], [], [], [])) at 1. apply map_nth. }
    assert (NthW : forall m, m < n -> nth m (map (share N (weight_of_all ws)) ws) 0 = share N (weight_of_all ws) (nth m ws 0%Qc)).
    { intros m M. rewrite <- (share_0 N (weight_of_all ws)) at 1. apply map_nth. }
    split.
    - rewrite Tot. apply (fun a => Nat.le_lt_trans _ _ _ a Up). apply sum_le; rewrite !map_length; [exact (eq_trans L (eq_sym LW))|].
      intros m M'. assert (M : m < n) by (rewrite <- L; exact M'). rewrite Nth, NthW by auto. apply (Each m M).
    - exists ws. split; auto. split; auto. intros NC W. rewrite Tot. eapply Nat.le_trans; [exact (Lo W)|].
      apply sum_le; rewrite !map_length; [exact (eq_trans LW (eq_sym L))|]. intros m M. rewrite LW in M. rewrite Nth, NthW by auto.
      destruct (Each m M) as [_ Q]. rewrite (Q NC). lia.
  Qed.

  (* C17 for concurrent members: the delayed update of a sample changes nothing but the weights of slots that were not
     written since member m answered, whatever all members, other samples and other updates do in between, except that m
     does not clear its buffer (C17_clear_aba_refuted) *)
  Theorem C17_concurrent_partial ls c k m cnt batch idx vers ws ps : legals ls -> nth_error (calls ls) c = Some k ->
    sc_ans k m = Some (Ok (cnt, batch, idx, vers, ws)) -> length ps = length idx ->
    exists a us b, ls = a ++ PsSample c m us :: b /\
    (~ In (PsClear m) b ->
     let d := mem a m in let d2 := mem ls m in let d3 := mem (ls ++ [PsUpdate m ps idx vers]) m in
     let written k := rewritten cap (total (eps m a)) (total (eps m ls)) k in
     (forall k, dstored d3 k = dstored d2 k) /\
     (forall k, ~ In k idx \/ written k -> dleaf d3 k = dleaf d2 k) /\
     (forall k, In k idx -> ~ written k -> dstored d2 k = dstored d k /\
        exists j x, nth_error idx j = Some k /\ nth_error ps j = Some x /\ nth_error batch j = dstored d k /\ dleaf d3 k = norm x)).
  Proof.
    intros Lg K A LP. destruct (history ls c k K) as (_ & _ & HA).
    destruct (HA m _ A) as (M & a & us & b & ka & wl & Els & Ka & _ & _ & LU & R & PM). exists a, us, b. split; auto.
    intros NC d d2 d3 written.
    assert (La : legals a) by (intros x I; apply Lg; rewrite Els; apply in_or_app; now left).
    assert (U : unit_draws us) by (apply (Lg (PsSample c m us)); rewrite Els; apply in_or_app; right; now left).
    assert (El : ls = (a ++ [PsSample c m us]) ++ b) by (rewrite Els, <- app_assoc; reflexivity).
    pose proof (mem_moves (a ++ [PsSample c m us]) b m ltac:(rewrite <- El; exact Lg) NC) as Mv.
    rewrite PM, eps_snoc, <- El in Mv. cbn [keeps] in Mv.
    destruct (stale_updates ok norm pw beta inc norm_pos cap _ _ us _ _ _ _ _ _ _ _ ps cap2 (mem_reach a m La) U (eq_sym R) Mv LP) as (_ & S1 & S2 & S3).
    cbn zeta in S1, S2, S3.
    assert (E3 : d3 = fst (dp_update norm (mem ls m) ps idx vers)).
    { unfold d3. rewrite run_snoc. cbn [pstep on p_mem]. apply pput_same. }
    rewrite E3. unfold d2, d. split; [exact S1|]. split; [exact S2|exact S3].
  Qed.

  (* however large the weights: if all members clear their buffers after their weight was asked for, nothing is sampled *)
  Lemma clear_size (d : dpbuf T) : dp_size (dp_clear beta d) = 0.
  Proof. reflexivity. Qed.
  Lemma weigh_all s c k : nth_error (p_calls s) c = Some k -> 0 < sc_size k -> (forall m, sc_w k m = None) ->
    forall j, j <= n -> let s' := run s (map (PsWeigh c) (seq 0 j)) in
      p_mem s' = p_mem s /\ exists k', nth_error (p_calls s') c = Some k' /\ sc_size k' = sc_size k /\ sc_ans k' = sc_ans k /\
        forall m, sc_w k' m = if m <? j then Some (dp_weight_sum (p_mem s m)) else None.
  Proof.
    intros E S0 W. induction j as [|j IH]; intros J; cbn zeta.
    - split; [reflexivity|]. exists k. auto.
    - rewrite seq_S, map_app, run_app. cbn [map]. destruct IH as (P & k' & E' & S' & A' & W'); [lia|].
      set (s1 := run s (map (PsWeigh c) (seq 0 j))) in *. change (run s1 [PsWeigh c (0 + j)]) with (step s1 (PsWeigh c j)).
      cbn [pstep]. rewrite E', W'. destruct (Nat.ltb_spec j j); [lia|]. rewrite S'.
      destruct (Nat.ltb_spec 0 (sc_size k)); [|lia]. destruct (Nat.ltb_spec j n); [|lia]. cbn [andb with_call p_mem p_calls].
      split; [exact P|]. eexists. split; [apply upd_same, nth_error_Some; congruence|]. cbn [sc_size sc_ans sc_w]. split; auto. split; auto.
      intros m. destruct (Nat.eq_dec m j) as [->|NE]; [rewrite pput_same|rewrite pput_other, W' by auto].
      + destruct (Nat.ltb_spec j (S j)); [|lia]. now rewrite P.
      + destruct (Nat.ltb_spec m j), (Nat.ltb_spec m (S j)); auto; lia.
  Qed.
  Lemma clear_all_members s : forall j, let s' := run s (map PsClear (seq 0 j)) in
    p_calls s' = p_calls s /\ forall m, m < j -> dp_size (p_mem s' m) = 0.
  Proof.
    induction j as [|j IH]; cbn zeta; [split; [reflexivity|lia]|]. rewrite seq_S, map_app, run_app. cbn [map].
    destruct IH as (C & Z). set (s1 := run s (map PsClear (seq 0 j))) in *. change (run s1 [PsClear (0 + j)]) with (step s1 (PsClear j)).
    cbn [pstep on p_calls p_mem]. split; [exact C|]. intros m M.
    destruct (Nat.eq_dec m j) as [->|NE]; [rewrite pput_same; apply clear_size|rewrite pput_other by auto; apply Z; lia].
  Qed.
  Lemma sample_empty (d : dpbuf T) us all : dp_size d = 0 -> dp_sample pw inc d us all = (d, Ok (0, [], [], [], [])).
  Proof. intros Z. unfold dp_sample. rewrite Z. cbn. now rewrite orb_true_r. Qed.
  Lemma sample_all s c k ws us : nth_error (p_calls s) c = Some k -> 0 < sc_size k -> (forall m, sc_ans k m = None) ->
    waited (sc_w k) 0 n = Some ws -> (forall m, length (us m) = share (sc_size k) (weight_of_all ws) (nth m ws 0%Qc)) ->
    (forall m, m < n -> dp_size (p_mem s m) = 0) ->
    forall j, j <= n -> let s' := run s (map (fun m => PsSample c m (us m)) (seq 0 j)) in
      (forall m, m < n -> dp_size (p_mem s' m) = 0) /\ exists k', nth_error (p_calls s') c = Some k' /\ sc_size k' = sc_size k /\ sc_w k' = sc_w k /\
        forall m, sc_ans k' m = if m <? j then Some (Ok (0, [], [], [], [])) else None.
  Proof.
    intros E S0 A W LU Z. induction j as [|j IH]; intros J; cbn zeta.
    - split; [exact Z|]. exists k. auto.
    - rewrite seq_S, map_app, run_app. cbn [map]. destruct IH as (P & k' & E' & S' & W' & A'); [lia|].
      set (s1 := run s (map (fun m => PsSample c m (us m)) (seq 0 j))) in *.
      change (run s1 [PsSample c (0 + j) (us (0 + j))]) with (step s1 (PsSample c j (us j))).
      cbn [pstep]. rewrite E', W', W, A'. destruct (Nat.ltb_spec j j); [lia|]. rewrite S', LU, Nat.eqb_refl.
      destruct (Nat.ltb_spec 0 (sc_size k)); [|lia]. destruct (Nat.ltb_spec j n); [|lia]. cbn [andb].
      rewrite sample_empty by (apply P; lia). cbn [with_call on p_mem p_calls]. split.
      { intros m M. destruct (Nat.eq_dec m j) as [->|NE]; [rewrite pput_same|rewrite pput_other by auto]; auto. }
      eexists. split; [apply upd_same, nth_error_Some; congruence|]. cbn [sc_size sc_ans sc_w]. split; auto. split; auto.
      intros m. destruct (Nat.eq_dec m j) as [->|NE]; [rewrite pput_same|rewrite pput_other, A' by auto].
      + destruct (Nat.ltb_spec j (S j)); [auto|lia].
      + destruct (Nat.ltb_spec m j), (Nat.ltb_spec m (S j)); auto; lia.
  Qed.
  Lemma waited_all w x : forall k i, (forall m, i <= m < i + k -> w m = Some (x m)) -> waited w i k = Some (map x (seq i k)).
  Proof.
    induction k as [|k IH]; intros i Q; cbn; auto. rewrite (Q i) by lia. rewrite IH; auto. intros m M. apply Q. lia.
  Qed.
  Lemma gather_empty ans : forall k i acc, (forall m, i <= m < i + k -> ans m = Some (Ok (0, [], [], [], []))) ->
    gather (T := T) ans i k acc = Some (Ok acc).
  Proof. induction k as [|k IH]; intros i acc Q; cbn; auto. rewrite (Q i) by lia. cbn. apply IH. intros m M. apply Q. lia. Qed.

  Theorem C190_refuted ls1 N : 0 < N -> legals ls1 -> let c := length (calls ls1) in
    exists us : nat -> list Qc,
      let ls := ls1 ++ PsCall N :: map (PsWeigh c) (seq 0 n) ++ map PsClear (seq 0 n) ++ map (fun m => PsSample c m (us m)) (seq 0 n) in
      legals ls /\ poutcome n (run start ls) c = Some (Ok (0, [], [], [])).
  Proof.
    intros N0 Lg c.
    set (w := fun m => dp_weight_sum (mem ls1 m)). set (ws := map w (seq 0 n)).
    set (us := fun m => repeat 0%Qc (share N (weight_of_all ws) (nth m ws 0%Qc))). exists us. intros ls.
    assert (Lg2 : legals ls).
    { intros l I. apply in_app_or in I as [I|[<-|I]]; [now apply Lg|exact Logic.I|].
      apply in_app_or in I as [I|I]; [apply in_map_iff in I as (m & <- & _); exact Logic.I|].
      apply in_app_or in I as [I|I]; apply in_map_iff in I as (m & <- & _); [exact Logic.I|].
      intros u U. unfold us in U. apply repeat_spec in U. subst u. split; [apply Qcle_refl|reflexivity]. }
    split; [exact Lg2|]. unfold ls. rewrite run_app.
    set (x := map (PsWeigh c) (seq 0 n)). set (y := map PsClear (seq 0 n)). set (z := map (fun m => PsSample c m (us m)) (seq 0 n)).
    change (run (run start ls1) (PsCall N :: x ++ y ++ z)) with (run (step (run start ls1) (PsCall N)) (x ++ y ++ z)).
    set (s0 := step (run start ls1) (PsCall N)).
    assert (E0 : nth_error (p_calls s0) c = Some (MkSc N (fun _ => None) (fun _ => None))).
    { unfold s0. cbn [pstep p_calls]. rewrite nth_error_app2 by auto. unfold c. now rewrite Nat.sub_diag. }
    rewrite !run_app. destruct (weigh_all s0 c _ E0 N0 ltac:(reflexivity) n (le_n n)) as (P1 & k1 & E1 & S1 & A1 & W1).
    fold x in P1, E1. set (s1 := run s0 x) in *.
    destruct (clear_all_members s1 n) as (C2 & Z2). fold y in C2, Z2. set (s2 := run s1 y) in *.
    rewrite <- C2 in E1. cbn [sc_size sc_ans] in S1, A1.
    assert (WT : waited (sc_w k1) 0 n = Some ws).
    { apply waited_all. intros m M. rewrite W1. destruct (Nat.ltb_spec m n); [reflexivity|lia]. }
    destruct (sample_all s2 c k1 ws us E1 ltac:(lia) ltac:(intros m; rewrite A1; reflexivity) WT) with (j := n) as (_ & k3 & E3 & S3 & _ & A3); auto.
    { intros m. unfold us. rewrite repeat_length, S1. reflexivity. }
    fold z in E3. unfold poutcome. rewrite E3, S3, S1. destruct (Nat.eqb_spec N 0); [lia|].
    apply gather_empty. intros m M. rewrite A3. destruct (Nat.ltb_spec m n); [reflexivity|lia].
  Qed.
End PConc.
Print Assumptions C191_consistent.
Print Assumptions C190_partial.
Print Assumptions C190_refuted.
Print Assumptions C17_concurrent_partial.

(* two members; member 1 overwrites slot 0 between the two rounds, member 0 after its answer: the sample has what was
   there when each answered, and the update of member 0 leaves the overwritten slot alone *)
Definition normc (x : Qc) : Qc := (Qcmax x (- x) + 1)%Qc.
Definition runc := prun (fun _ : nat => true) normc (fun x _ => (/ x)%Qc) 1%Qc 1%Qc 2.
Definition half : Qc := (1 / nq 2)%Qc.
Example C190_nonvacuous :
  let s := runc (pinit 1%Qc 2)
    [PsStore 0 [10; 20] (Some [nq 1; nq 1]); PsStore 1 [30; 40] (Some [nq 1; nq 1]); PsCall 4; PsWeigh 0 1; PsWeigh 0 0;
     PsStore 1 [50] (Some [nq 1]); PsSample 0 1 [half; half]; PsSample 0 0 [half; half]; PsStore 0 [60] (Some [nq 2])] in
  match poutcome 2 s 0 with
  | Some (Ok (len, batch, ix, _)) => len = 4 /\ batch = [10; 20; 50; 40] /\
      origins ix = [(0, (0, 1)); (0, (1, 1)); (1, (0, 2)); (1, (1, 1))] /\
      map (dleaf (p_mem (runc s [PsUpdate 0 [nq 8; nq 9] [0; 1] [1; 1]]) 0)) [0; 1] = [nq 3; nq 10]
  | _ => False
  end.
Proof. vm_compute. auto 10. Qed.
(* the position 0 of member 1 is overwritten between the weights and the samples; the answer has the new transition with
   its new version, and the later overwriting of position 0 of member 0 does not change the answer *)
Example C191_nonvacuous :
  let ls := [PsStore 0 [10; 20] (Some [nq 1; nq 1]); PsStore 1 [30; 40] (Some [nq 1; nq 1]); PsCall 4; PsWeigh 0 1; PsWeigh 0 0;
     PsStore 1 [50] (Some [nq 1]); PsSample 0 1 [half; half]; PsSample 0 0 [half; half]] in
  let s := runc (pinit 1%Qc 2) ls in
  let s2 := runc s [PsStore 0 [60] (Some [nq 2])] in
  match poutcome 2 s 0, poutcome 2 s2 0 with
  | Some (Ok (_, batch, ix, _)), Some (Ok (_, batch2, ix2, _)) =>
      batch = [10; 20; 50; 40] /\ batch2 = batch /\ ix2 = ix /\
      nth_error (origins ix) 2 = Some (1, (0, 2)) /\ dstored (p_mem s 1) 0 = Some 50 /\
      nth_error (dp_ver (p_mem s 1)) 0 = Some 2 /\ dstored (p_mem s2 0) 0 = Some 60
  | _, _ => False
  end.
Proof. vm_compute. auto 10. Qed.
