From Verif Require Import Lib.Base Model.Buffer Model.RnnBuffer Spec.BufferSpec Spec.RnnSpec
  Proofs.BufferProofs Proofs.BufferDict.
Open Scope nat_scope.

Lemma index_all_app {A} (d : list A) is js xs ys :
  index_all d is = Ok xs -> index_all d js = Ok ys -> index_all d (is ++ js) = Ok (xs ++ ys).
Proof.
  revert xs; induction is as [|i r IH]; intros xs H1 H2; cbn in *.
  - injection H1 as <-. auto.
  - destruct (nth_error d i); [|discriminate]. destruct (index_all d r) eqn:E; [|discriminate].
    cbn in H1. injection H1 as <-. rewrite (IH _ eq_refl H2). reflexivity.
Qed.

Lemma index_all_firstn {A} (d : list A) n : forall is xs,
  index_all d is = Ok xs -> index_all d (firstn n is) = Ok (firstn n xs).
Proof.
  induction n as [|n IH]; intros is xs H; [reflexivity|].
  destruct is as [|i r]; cbn in *; [injection H as <-; auto|].
  destruct (nth_error d i); [|discriminate]. destruct (index_all d r) eqn:E; [|discriminate].
  cbn in H. injection H as <-. rewrite (IH _ _ E). reflexivity.
Qed.
Lemma index_all_skipn {A} (d : list A) n : forall is xs,
  index_all d is = Ok xs -> index_all d (skipn n is) = Ok (skipn n xs).
Proof.
  induction n as [|n IH]; intros is xs H; [exact H|].
  destruct is as [|i r]; cbn in *; [injection H as <-; auto|].
  destruct (nth_error d i); [|discriminate]. destruct (index_all d r) eqn:E; [|discriminate].
  cbn in H. injection H as <-. cbn. auto.
Qed.

Lemma skipn_add {A} n m (l : list A) : skipn n (skipn m l) = skipn (n + m) l.
Proof.
  revert l; induction m as [|m IH]; intros l; cbn.
  - now rewrite Nat.add_0_r.
  - rewrite Nat.add_succ_r. destruct l; cbn; [now rewrite skipn_nil|apply IH].
Qed.

Lemma window_is {T} L pos (e : list T) : pos + L <= length e -> is_window L e (window L pos e).
Proof.
  intros H. exists (firstn pos e), (skipn L (skipn pos e)). unfold window.
  rewrite firstn_skipn, firstn_skipn. split; auto. rewrite firstn_length, skipn_length. lia.
Qed.

Lemma chunks_concat {T} L (ws : list (list T)) : 1 <= L -> (forall w, In w ws -> length w = L) ->
  chunks L (concat ws) = ws.
Proof.
  intros L1 H. unfold chunks.
  assert (EL : length (concat ws) = length ws * L).
  { induction ws as [|w r IH]; cbn; auto. rewrite app_length, IH, (H w); auto; [now left|intros; apply H; now right]. }
  assert (EQ : (length (concat ws) + L - 1) / L = length ws).
  { rewrite EL. replace (length ws * L + L - 1) with ((L - 1) + length ws * L) by lia.
    rewrite Nat.div_add, Nat.div_small by lia. lia. }
  rewrite EQ. clear EL EQ. induction ws as [|w r IH]; auto.
  cbn [length seq map concat]. f_equal.
  - rewrite Nat.mul_0_l. cbn [skipn]. rewrite <- (H w (or_introl eq_refl)) at 1.
    rewrite firstn_app, firstn_all, Nat.sub_diag. cbn. apply app_nil_r.
  - rewrite <- seq_shift, map_map. rewrite <- IH at 2 by (intros; apply H; now right).
    apply map_ext. intros j. f_equal.
    replace (S j * L) with (length w + j * L) by (rewrite (H w (or_introl eq_refl)); lia).
    rewrite skipn_app. rewrite skipn_all2 by lia.
    replace (length w + j * L - length w) with (j * L) by lia. reflexivity.
Qed.

Section P.
  Context {T : Type}.
  Variable ok : T -> bool.

  Lemma chain_data (data : list T) c : forall ret s e k W,
    chain s ret e -> lens ret k ->
    skipn s W = concat k -> e = length W ->
    (forall n, s <= n < e -> nth_error data (n mod c) = nth_error W n) ->
    Forall2 (fun it x => length (snd it) = length x /\ index_all data (snd it) = Ok x) (eth_of c ret) k.
  Proof.
    induction ret as [|[[no s'] l] r IH]; intros s e [|x k] W C LN SK EE D; cbn in *;
      try (unfold lens in LN; cbn in LN; discriminate); [constructor|].
    unfold lens in LN; cbn in LN. injection LN as L1 L2. unfold eplen in L1; cbn in L1. destruct C as (-> & P & C).
    pose proof (chain_le _ _ _ C) as CL.
    constructor.
    - cbn. rewrite modseq_length. split; auto.
      assert (HX : x = firstn l (skipn s W)).
      { rewrite SK, L1. rewrite firstn_app, firstn_all, Nat.sub_diag. cbn. now rewrite app_nil_r. }
      assert (SP : index_all data (modseq c s (e - s)) = Ok (skipn s W)).
      { apply index_all_modseq; [|lia]. intros n Hn. apply D. lia. }
      apply (index_all_firstn _ l) in SP. rewrite HX, <- SP. f_equal.
      unfold modseq. rewrite firstn_map. f_equal.
      replace (e - s) with (l + (e - s - l)) by lia. rewrite seq_app.
      rewrite firstn_app, seq_length, Nat.sub_diag. cbn. rewrite app_nil_r.
      symmetry. apply firstn_all2. rewrite seq_length. lia.
    - eapply (IH (s + l) e k W); eauto; [|intros; apply D; lia].
      replace (s + l) with (l + s) by lia. rewrite <- skipn_add. rewrite SK, L1.
      rewrite skipn_app, skipn_all, Nat.sub_diag. reflexivity.
  Qed.

  Lemma eth_data cap (b : buffer T) hist : Inv cap b hist ->
    Forall2 (fun it x => length (snd it) = length x /\ index_all (st_data (b_st b)) (snd it) = Ok x)
      (b_eth b) (retained cap hist).
  Proof.
    intros I. destruct (Inv_retained I) as (d & ret & EH & LN & DI & LE). rewrite (di_eth DI).
    assert (TE : total hist = total d + total (retained cap hist)) by (rewrite EH at 1; apply total_app).
    eapply (chain_data (st_data (b_st b)) cap ret (total d) (total hist) _ (concat hist)); auto; [apply DI| |].
    - rewrite EH at 1. rewrite concat_app. rewrite skipn_app, skipn_all2 by (unfold total; lia).
      unfold total. now rewrite Nat.sub_diag.
    - intros n Hn. rewrite <- (iv_cap I). apply (si_dat (iv_st I)); unfold total in *; rewrite ?(iv_cap I); lia.
  Qed.

  Variable L : nat.

  (* gathering selected windows *)
  Lemma gather_ok (b : buffer T) sel ws :
    Forall2 (fun q w => exists hs, dget (fst q) (b_eth b) = Some hs /\
               index_all (st_data (b_st b)) (slice L (snd q) hs) = Ok w) sel ws ->
    gather L b sel = Ok (concat ws).
  Proof.
    induction 1 as [|[ep pos] w sel ws (hs & G & E) _ IH]; cbn in *; auto.
    unfold handles. rewrite G. cbn [bind]. rewrite E. cbn [bind]. rewrite IH. reflexivity.
  Qed.

  Definition good (b : buffer T) (ep : nat) (e : list T) : Prop :=
    exists hs, dget ep (b_eth b) = Some hs /\ length hs = length e /\ L <= length e /\
      index_all (st_data (b_st b)) hs = Ok e.

  Lemma valid_good (b : buffer T) R : NoDup (dkeys (b_eth b)) ->
    Forall2 (fun it x => length (snd it) = length x /\ index_all (st_data (b_st b)) (snd it) = Ok x) (b_eth b) R ->
    Forall2 (good b) (valid_eps L b) (long_enough L R).
  Proof.
    intros ND F. unfold valid_eps, long_enough.
    assert (X : forall l R, Forall2 (fun it x => length (snd it) = length x /\
         index_all (st_data (b_st b)) (snd it) = Ok x) l R ->
       (forall it, In it l -> dget (fst it) (b_eth b) = Some (snd it)) ->
       Forall2 (good b) (map fst (filter (fun it => L <=? length (snd it)) l)) (filter (fun e => L <=? length e) R)).
    { clear F. induction 1 as [|it x l R' [E1 E2] F IH]; intros G; cbn; [constructor|].
      rewrite E1. assert (IH' := IH (fun it H => G it (or_intror H))).
      destruct (Nat.leb_spec L (length x)) as [H|H]; cbn [map]; auto. constructor; auto.
      exists (snd it). repeat split; auto. apply G. now left. }
    apply X; auto. intros [k v] H. now apply dget_In.
  Qed.

  Lemma good_window b ep e pos : good b ep e -> pos + L <= length e ->
    exists hs, dget ep (b_eth b) = Some hs /\ length hs = length e /\
      index_all (st_data (b_st b)) (slice L pos hs) = Ok (window L pos e).
  Proof.
    intros (hs & G & E & LL & D) P. exists hs. split; auto. split; auto.
    unfold slice, window. now apply index_all_firstn, index_all_skipn.
  Qed.

  Lemma starts_ok start (b : buffer T) : start_ok start -> forall eps es k, Forall2 (good b) eps es ->
    exists sel ws, starts L start b k eps = Ok sel /\ gather L b sel = Ok (concat ws) /\
      length ws = length es /\
      (forall j e, nth_error es j = Some e -> nth_error ws j = Some (window L (start (k + j) (length e - L)) e)).
  Proof.
    intros SO eps es k F. revert k. induction F as [|ep e eps es G F IH]; intros k.
    - exists [], []. cbn. repeat split; auto. intros [|j]; discriminate.
    - destruct (IH (S k)) as (sel & ws & E1 & E2 & LW & P).
      assert (GL : L <= length e) by (destruct G as (? & _ & _ & ? & _); auto).
      pose proof (SO k (length e - L)) as B.
      destruct (good_window b ep e (start k (length e - L)) G ltac:(lia)) as (hs & D & LH & I).
      exists ((ep, start k (length e - L)) :: sel), (window L (start k (length e - L)) e :: ws).
      cbn [starts]. unfold handles at 1. rewrite D. cbn [bind]. rewrite E1. cbn [bind]. rewrite LH. split; auto.
      split. { cbn [gather]. unfold handles. rewrite D. cbn [bind]. rewrite I. cbn [bind]. rewrite E2. reflexivity. }
      split; [cbn; auto|].
      intros [|j] x H; cbn in H |- *; [injection H as <-; now rewrite Nat.add_0_r|].
      rewrite (P j x H). do 2 f_equal. f_equal. lia.
  Qed.

  Lemma F2_nth_l {A B} (P : A -> B -> Prop) l m : Forall2 P l m -> forall i y, nth_error m i = Some y ->
    exists x, nth_error l i = Some x /\ P x y.
  Proof.
    induction 1; intros [|i] z H1; cbn in *; try discriminate; eauto. injection H1 as <-. eauto.
  Qed.
  Lemma F2_length {A B} (P : A -> B -> Prop) l m : Forall2 P l m -> length l = length m.
  Proof. induction 1; cbn; auto. Qed.

  (* drawing by index *)
  Lemma picks_ok {A B} (P : A -> B -> Prop) l m is : Forall2 P l m -> (forall i, In i is -> i < length m) ->
    exists xs ys, index_all l is = Ok xs /\ index_all m is = Ok ys /\ Forall2 P xs ys.
  Proof.
    intros F. induction is as [|i r IH]; intros H.
    - exists [], []. cbn. auto.
    - destruct IH as (xs & ys & E1 & E2 & G); [intros; apply H; now right|].
      assert (i < length m) by (apply H; now left).
      destruct (nth_error m i) as [y|] eqn:EY; [|apply nth_error_None in EY; lia].
      destruct (F2_nth_l _ _ _ F i y EY) as (x & EX & PX).
      exists (x :: xs), (y :: ys). cbn. rewrite EX, EY, E1, E2. cbn. auto.
  Qed.

  Lemma index_all_nth {A} (l : list A) is xs j i : index_all l is = Ok xs -> nth_error is j = Some i ->
    nth_error xs j = nth_error l i.
  Proof.
    intros H J. apply index_all_map in H.
    assert (E : nth_error (map (fun i => nth_error l i) is) j = Some (nth_error l i)) by (rewrite nth_error_map, J; auto).
    rewrite H, nth_error_map in E. destruct (nth_error xs j); cbn in E; congruence.
  Qed.
  Lemma index_all_len {A} (l : list A) is xs : index_all l is = Ok xs -> length xs = length is.
  Proof. intros H. apply index_all_map in H. apply (f_equal (@length _)) in H. now rewrite !map_length in H. Qed.

  Lemma rnn_sample_ok (b : buffer T) R n pick start :
    Forall2 (good b) (valid_eps L b) (long_enough L R) -> pick_ok pick -> start_ok start ->
    let V := long_enough L R in let m := length V in
    exists ws, rnn_sample L b n pick start = Ok (Nat.min m n, concat ws) /\ length ws = Nat.min m n /\
      forall j, j < Nat.min m n -> exists e, nth_error V (pick j m) = Some e /\
        nth_error ws j = Some (window L (start j (length e - L)) e).
  Proof.
    intros F PO SO V m. unfold rnn_sample. pose proof (F2_length _ _ _ F) as LE. fold V in LE. fold m in LE. rewrite LE.
    set (is := map (fun j => pick j m) (seq 0 (Nat.min m n))).
    destruct (picks_ok _ _ _ is F) as (eps & es & E1 & E2 & G).
    { intros i H. unfold is in H. apply in_map_iff in H as (j & <- & J). apply in_seq in J. fold V. fold m. apply PO. lia. }
    rewrite E1. cbn [bind].
    destruct (starts_ok start b SO eps es 0 G) as (sel & ws & E3 & E4 & LW & P). rewrite E3. cbn [bind]. rewrite E4. cbn [bind].
    assert (LI : length is = Nat.min m n) by (unfold is; now rewrite map_length, seq_length).
    exists ws. rewrite (index_all_len _ _ _ E1), LI. split; auto.
    split; [rewrite LW, (index_all_len _ _ _ E2); auto|].
    intros j J. assert (NJ : nth_error is j = Some (pick j m)).
    { unfold is. rewrite nth_error_map, (nth_error_nth' _ 0) by (rewrite seq_length; auto). rewrite seq_nth; auto. }
    pose proof (index_all_nth _ _ _ _ _ E2 NJ) as Q.
    destruct (nth_error es j) as [e|] eqn:EE.
    - exists e. split; [symmetry; exact Q|]. apply (P j e EE).
    - apply nth_error_None in EE. rewrite (index_all_len _ _ _ E2), LI in EE. lia.
  Qed.

  Lemma all_sel_ok (b : buffer T) eps es : 1 <= L -> Forall2 (good b) eps es ->
    exists sel ws, all_sel L b eps = Ok sel /\ gather L b sel = Ok (concat ws) /\ length sel = length ws /\
      ws = flat_map (fun e => map (fun pos => window L pos e) (seq 0 (length e - L + 1))) es.
  Proof.
    intros L1. induction 1 as [|ep e eps es G F (sel & ws & E1 & E2 & LW & EW)].
    - exists [], []. cbn. auto.
    - cbn [all_sel]. pose proof G as (hs & D & LH & LL & I). unfold handles. rewrite D. cbn [bind]. rewrite E1. cbn [bind].
      do 2 eexists. split; [reflexivity|]. rewrite LH.
      set (ps := seq 0 (length e - L + 1)).
      assert (GO : forall ps, (forall p, In p ps -> p + L <= length e) ->
        gather L b (map (fun pos => (ep, pos)) ps ++ sel) = Ok (concat (map (fun pos => window L pos e) ps ++ ws))).
      { clear ps. induction ps as [|p r IH]; intros H; cbn [map app]; auto.
        destruct (good_window b ep e p G (H p (or_introl eq_refl))) as (hs' & D' & _ & I').
        cbn [gather]. unfold handles. rewrite D'. cbn [bind]. rewrite I'. cbn [bind]. rewrite IH; [|intros; apply H; now right].
        reflexivity. }
      split; [apply GO; intros p H; apply in_seq in H; lia|].
      split; [rewrite !app_length, !map_length; now rewrite LW|]. cbn [flat_map]. now rewrite EW.
  Qed.

  Lemma run_good cap eps : 0 < cap -> (forall e, In e eps -> length e <= cap) ->
    let b := b_run ok (b_new cap) (map (@BStore T) eps) in
    Forall2 (good b) (valid_eps L b) (long_enough L (retained cap (accepted ok eps))).
  Proof.
    intros C H b. apply valid_good.
    - destruct (BInv_run ok cap (map (@BStore T) eps) C) as (W & I). apply (dc_ne _ _ _ _ (bi_dc _ _ _ I)).
    - apply (eth_data cap). now apply run_inv.
  Qed.
End P.
