From Verif Require Import Lib.Rat Model.Buffer Model.WeightTree Model.PrioritizedBuffer Model.DistBuffer
  Spec.WeightTreeSpec Spec.BufferSpec Spec.PrioritizedSpec Spec.DistSpec
  Proofs.BufferProofs Proofs.BufferDict Proofs.WeightTreeProofs Proofs.PrioritizedProofs Proofs.RnnProofs Proofs.RnnPrioProofs.
Open Scope nat_scope.

(* ---- write counts ---- *)
Definition wcount (cap N k : nat) : nat := count_occ Nat.eq_dec (modseq cap 0 N) k.

Lemma wcount_app cap N l k : wcount cap (N + l) k = wcount cap N k + count_occ Nat.eq_dec (modseq cap N l) k.
Proof. unfold wcount. rewrite modseq_app, count_occ_app. reflexivity. Qed.
Lemma wcount_mono cap N N' k : N <= N' -> wcount cap N k <= wcount cap N' k.
Proof. intros H. replace N' with (N + (N' - N)) by lia. rewrite wcount_app. lia. Qed.
Lemma wcount_same cap N N' k : N <= N' -> (wcount cap N k = wcount cap N' k <-> ~ rewritten cap N N' k).
Proof.
  intros H. replace N' with (N + (N' - N)) at 1 by lia. rewrite wcount_app.
  set (l := N' - N). split.
  - intros E (n & B & M). assert (I : In k (modseq cap N l)) by (apply In_modseq; exists n; split; auto; unfold l; lia).
    apply (count_occ_In Nat.eq_dec) in I. lia.
  - intros R. assert (NI : ~ In k (modseq cap N l)).
    { intros I. apply R. apply In_modseq in I as (n & M & B). exists n. split; auto. unfold l in B. lia. }
    apply (count_occ_not_In Nat.eq_dec) in NI. lia.
Qed.
Lemma wcount_pos cap N k : 0 < cap -> k < cap -> (1 <= wcount cap N k <-> k < Nat.min N cap).
Proof.
  intros C K. unfold wcount. split.
  - intros H. apply (count_occ_In Nat.eq_dec) in H. apply In_modseq in H as (n & M & B).
    assert (n mod cap <= n) by (apply Nat.mod_le; lia). lia.
  - intros H. apply (count_occ_In Nat.eq_dec). apply In_modseq. exists k. split; [apply Nat.mod_small; auto|lia].
Qed.
Lemma wcount_store cap N l k : 0 < cap -> l <= cap ->
  wcount cap (N + l) k = wcount cap N k + (if in_dec Nat.eq_dec k (modseq cap N l) then 1 else 0).
Proof.
  intros C L. rewrite wcount_app. f_equal. destruct (in_dec _ _ _) as [I|I].
  - apply NoDup_count_occ'; auto. now apply modseq_NoDup.
  - now apply count_occ_not_In.
Qed.

Section P.
  Context {T : Type}.
  Variable ok : T -> bool.
  Variable norm : Qc -> Qc.
  Variable pw : Qc -> Qc -> Qc.
  Variables beta inc : Qc.
  Hypothesis norm_pos : forall x, (0 < norm x)%Qc.

  Definition VerOk (cap N : nat) (ver : list nat) : Prop :=
    length ver = cap /\ forall k, k < cap -> nth_error ver k = Some (wcount cap N k).

  Record DInv (cap : nat) (d : dpbuf T) (H : list (list T)) (f : nat -> Qc) : Prop := {
    dv_p : PInv cap (dp_p d) (concat H) f;
    dv_v : VerOk cap (total H) (dp_ver d) }.

  (* the loop over the positions of a stored episode *)
  Lemma dp_loop_ok cap pos : 2 <= cap -> NoDup pos -> (forall k, In k pos -> k < cap) ->
    forall t ver f prios, WInv t f -> wt_size t = cap -> length ver = cap ->
    (forall l, prios = Some l -> length pos <= length l) ->
    exists t1 ver1 f1, dp_loop norm t ver prios pos = (t1, ver1, Ok tt) /\ WInv t1 f1 /\ wt_size t1 = cap /\
      length ver1 = cap /\
      (forall k, In k pos -> (0 < f1 k)%Qc) /\ (forall k, ~ In k pos -> f1 k = f k) /\
      (forall k, k < cap -> nth_error ver1 k = Some (nth k ver 0 + (if in_dec Nat.eq_dec k pos then 1 else 0))).
  Proof.
    intros C. induction pos as [|q r IH]; intros ND PB t ver f prios I SZ LV LP.
    - exists t, ver, f. cbn. do 4 (split; [assumption || reflexivity|]). split; [tauto|]. split; [auto|].
      intros k K. rewrite Nat.add_0_r. apply nth_error_nth'. lia.
    - inversion ND as [|? ? NI ND']; subst.
      assert (QC : q < wt_size t) by (apply PB; now left).
      assert (STEP : forall x rest, (0 < x)%Qc -> (forall l, rest = Some l -> length r <= length l) ->
         exists t1 ver1 f1,
         match wt_update_leaf t x (Z.of_nat q) with
          | (t1, Err e) => (t1, ver, Err e)
          | (t1, Ok _) => dp_loop norm t1 (upd q (S (nth q ver 0)) ver) rest r
          end = (t1, ver1, Ok tt) /\ WInv t1 f1 /\ wt_size t1 = wt_size t /\ length ver1 = wt_size t /\
         (forall k, In k (q :: r) -> (0 < f1 k)%Qc) /\ (forall k, ~ In k (q :: r) -> f1 k = f k) /\
         (forall k, k < wt_size t -> nth_error ver1 k = Some (nth k ver 0 + (if in_dec Nat.eq_dec k (q :: r) then 1 else 0)))).
      { intros x rest X LR.
        destruct (update_leaf_inv t f x (Z.of_nat q) I C) as (w' & E & I').
        { unfold valid_idx. lia. }
        rewrite E. rewrite Nat2Z.id in I'.
        destruct (IH ND' (fun k K => PB k (or_intror K)) _ (upd q (S (nth q ver 0)) ver) _ rest I' eq_refl ltac:(now rewrite upd_length) LR)
          as (t1 & ver1 & f1 & E1 & I1 & S1 & L1 & P1 & N1 & V1).
        exists t1, ver1, f1. split; auto. split; auto. split; auto. split; auto. split; [|split].
        - intros k [<-|K]; auto. rewrite N1 by auto. unfold tset. now rewrite Nat.eqb_refl.
        - intros k K. rewrite N1 by (intros Q; apply K; now right). unfold tset.
          destruct (Nat.eqb_spec k q); auto. subst. exfalso. apply K. now left.
        - intros k K. rewrite (V1 k K).
          assert (NU : nth k (upd q (S (nth q ver 0)) ver) 0 = if Nat.eq_dec k q then S (nth q ver 0) else nth k ver 0).
          { destruct (Nat.eq_dec k q) as [->|N].
            - apply nth_error_nth. apply upd_same. lia.
            - destruct (nth_error ver k) as [y|] eqn:EY; [|apply nth_error_None in EY; lia].
              rewrite (nth_error_nth ver k 0 EY). apply nth_error_nth. rewrite upd_other; auto. }
          rewrite NU. f_equal. cbn [in_dec]. destruct (Nat.eq_dec k q) as [->|N].
          + destruct (in_dec Nat.eq_dec q r); [tauto|]. destruct (in_dec Nat.eq_dec q (q :: r)) as [_|Q]; [lia|exfalso; apply Q; now left].
          + destruct (in_dec Nat.eq_dec k r) as [Q|Q], (in_dec Nat.eq_dec k (q :: r)) as [Q'|Q']; auto.
            * exfalso. apply Q'. now right. * exfalso. destruct Q'; congruence. }
      destruct prios as [[|x xs]|]; cbn [dp_loop].
      + specialize (LP [] eq_refl). cbn in LP. lia.
      + apply STEP; auto. intros l E. injection E as <-. specialize (LP _ eq_refl). cbn in LP. lia.
      + apply STEP; auto. intros; discriminate.
  Qed.

  Lemma DInv_new cap : 2 <= cap -> DInv cap (dp_new beta cap) [] (fun _ => 0%Qc).
  Proof.
    intros C. split; [apply PInv_new; lia|]. split; cbn; [apply repeat_length|].
    intros k K. unfold total, wcount; cbn. rewrite (nth_error_nth' _ 0) by (rewrite repeat_length; auto). now rewrite nth_repeat.
  Qed.

  Lemma DInv_clear cap d H f : DInv cap d H f -> DInv cap (dp_clear beta d) [] (fun _ => 0%Qc).
  Proof.
    intros [P [L V]]. split; cbn; [eapply PInv_clear; eauto|]. split; [rewrite repeat_length; auto|].
    intros k K. unfold total, wcount; cbn. rewrite (nth_error_nth' _ 0) by (rewrite repeat_length; lia). now rewrite nth_repeat.
  Qed.

  Lemma total_snoc (H : list (list T)) ep : total (H ++ [ep]) = total H + length ep.
  Proof. rewrite total_app, total_cons. unfold total at 2. cbn. lia. Qed.

  Lemma DInv_store cap d H f ep ps : 2 <= cap -> DInv cap d H f -> ep <> [] -> forallb ok ep = true -> length ep <= cap ->
    (forall l, ps = Some l -> length ep <= length l) ->
    snd (dp_store ok norm d ep ps) = Ok tt /\
    exists f', DInv cap (fst (dp_store ok norm d ep ps)) (H ++ [ep]) f'.
  Proof.
    intros C [[IB IT SZ POS ZERO] [LV VV]] NE OK L LP. unfold dp_store.
    destruct (BInv_store ok cap (pb_b (dp_p d)) (concat H) ep IB NE OK L) as (b1 & E & IB1 & CN & G).
    rewrite E. rewrite CN. cbn [Nat.sub]. rewrite Nat.sub_0_r, G.
    set (hs := modseq cap (length (concat H)) (length ep)) in *.
    assert (HB : forall k, In k hs -> k < cap).
    { intros k K. apply In_modseq in K as (n & <- & _). apply Nat.mod_upper_bound. lia. }
    destruct (dp_loop_ok cap hs C ltac:(apply modseq_NoDup; lia) HB (pb_t (dp_p d)) (dp_ver d) f ps IT SZ LV)
      as (t1 & ver1 & f1 & E1 & I1 & S1 & L1 & P1 & N1 & V1).
    { intros l Hl. unfold hs. rewrite modseq_length. auto. }
    rewrite E1. cbn [fst snd]. split; auto. exists f1.
    pose proof (size_eq _ _ _ IB) as S0. pose proof (size_eq _ _ _ IB1) as S1'.
    split; cbn [dp_p dp_ver].
    - split; cbn [pb_b pb_t]; auto.
      + rewrite concat_app. cbn. now rewrite app_nil_r.
      + intros k K. destruct (in_dec Nat.eq_dec k hs) as [Q|Q]; auto. rewrite N1 by auto. apply POS.
        destruct (Nat.lt_ge_cases k (b_size (pb_b (dp_p d)))); auto. exfalso. apply Q.
        apply (slots cap (concat H) ep k ltac:(lia) L); lia.
      + intros k K. rewrite N1; [apply ZERO; rewrite S1', app_length in K; lia|].
        intros Q. apply (slots cap (concat H) ep k ltac:(lia) L) in Q. lia.
    - split; auto. intros k K. rewrite (V1 k K). rewrite total_snoc. rewrite wcount_store by lia.
      rewrite (nth_error_nth _ _ 0 (VV k K)). reflexivity.
  Qed.

  Lemma DInv_refused cap d H f ep ps : DInv cap d H f -> ep = [] \/ forallb ok ep = false ->
    snd (dp_store ok norm d ep ps) = Err EValue /\ DInv cap (fst (dp_store ok norm d ep ps)) H f.
  Proof.
    intros [[IB IT SZ POS ZERO] V] Q. unfold dp_store, b_store_episode.
    destruct ep as [|t0 e0].
    - cbn. split; auto. split; auto. destruct (dp_p d). split; auto.
    - destruct Q as [Q|Q]; [discriminate|]. rewrite Q. cbn [negb fst snd]. split; auto.
      split; cbn; auto. split; cbn; auto. destruct IB as [S C D]. split; cbn; auto. eapply DC_mono; [|exact D]. lia.
  Qed.

  Lemma sample_state_d (d : dpbuf T) us all : exists c, fst (dp_sample pw inc d us all) = MkDp (MkPb (pb_b (dp_p d)) (pb_t (dp_p d)) c) (dp_ver d).
  Proof.
    unfold dp_sample. destruct ((length us =? 0) || (dp_size d =? 0)).
    - exists (pb_curr (dp_p d)). destruct d as [[? ? ?] ?]. reflexivity.
    - unfold pb_sample_index. destruct (bind _ _) as [[idx pr]|e]; cbn.
      + eauto. + exists (pb_curr (dp_p d)). destruct d as [[? ? ?] ?]. reflexivity.
  Qed.

  Lemma DInv_sample cap d H f us all : DInv cap d H f -> DInv cap (fst (dp_sample pw inc d us all)) H f.
  Proof.
    intros [[IB IT SZ POS ZERO] V]. destruct (sample_state_d d us all) as (c & ->). split; auto. split; auto.
  Qed.

  (* masks *)
  Lemma mask_length {A B} bs : forall (xs : list A) (ys : list B), length xs = length ys -> length (mask bs xs) = length (mask bs ys).
  Proof.
    induction bs as [|b bs IH]; intros [|x xs] [|y ys] E; cbn in *; try discriminate; auto.
    destruct b; cbn; auto.
  Qed.
  Lemma mask_in {A} bs : forall (xs : list A) x, In x (mask bs xs) <-> exists j, nth_error bs j = Some true /\ nth_error xs j = Some x.
  Proof.
    induction bs as [|b bs IH]; intros [|y xs] x; cbn [mask].
    - split; [intros []|intros ([|j] & A1 & _); discriminate].
    - split; [intros []|intros ([|j] & A1 & _); discriminate].
    - split; [intros []|intros ([|j] & _ & A1); discriminate].
    - destruct b; cbn [In]; rewrite ?IH; split.
      + intros [->|(j & A1 & A2)]; [exists 0|exists (S j)]; auto.
      + intros ([|j] & A1 & A2); cbn in *; [left; congruence|right; eauto].
      + intros (j & A1 & A2). exists (S j); auto.
      + intros ([|j] & A1 & A2); cbn in *; [discriminate|eauto].
  Qed.
  Lemma mask_combine {A B} bs : forall (xs : list A) (ys : list B),
    combine (mask bs xs) (mask bs ys) = mask bs (combine xs ys).
  Proof.
    induction bs as [|b bs IH]; intros [|x xs] [|y ys]; cbn; auto.
    - destruct b; auto. cbn. destruct (mask bs xs); auto.
    - destruct b; cbn; now rewrite IH.
  Qed.

  Lemma nth_error_combine {A B} (l : list A) : forall (m : list B) j a b,
    nth_error l j = Some a -> nth_error m j = Some b -> nth_error (combine l m) j = Some (a, b).
  Proof. induction l; intros [|y m] [|j] x y' H1 H2; cbn in *; try discriminate; auto. congruence. Qed.
  Lemma nth_error_combine_inv {A B} (l : list A) : forall (m : list B) j x,
    nth_error (combine l m) j = Some x -> nth_error l j = Some (fst x) /\ nth_error m j = Some (snd x).
  Proof. induction l; intros [|y m] [|j] x H; cbn in *; try discriminate; auto. injection H as <-. auto. Qed.

  (* the update service *)
  Lemma dp_update_ok cap d H f ps idx vers : DInv cap d H f -> length ps = length idx -> length vers = length idx ->
    (forall i, In i idx -> i < cap) -> (forall v, In v vers -> 1 <= v) ->
    exists f', snd (dp_update norm d ps idx vers) = Ok tt /\
      DInv cap (fst (dp_update norm d ps idx vers)) H f' /\
      pb_b (dp_p (fst (dp_update norm d ps idx vers))) = pb_b (dp_p d) /\
      (forall k, (exists j x, nth_error idx j = Some k /\ nth_error ps j = Some x /\
                    nth_error vers j = Some (wcount cap (total H) k) /\ f' k = norm x)
              \/ ((forall j, nth_error idx j = Some k -> nth_error vers j <> Some (wcount cap (total H) k)) /\ f' k = f k)).
  Proof.
    intros [P [LV VV]] LP LVR IB VB. unfold dp_update.
    destruct (index_all_ok (dp_ver d) idx) as (cur & E & LC & GC).
    { intros i Hi. rewrite LV. auto. }
    rewrite E. set (same := map (fun q => fst q =? snd q) (combine cur vers)).
    assert (SAME : forall j i, nth_error idx j = Some i ->
       (nth_error same j = Some true <-> nth_error vers j = Some (wcount cap (total H) i))).
    { intros j i Hj. assert (CJ : nth_error cur j = Some (wcount cap (total H) i)).
      { rewrite (index_all_nth _ _ _ j i E Hj). apply VV. apply IB. eapply nth_error_In; eauto. }
      assert (JL : j < length vers) by (rewrite LVR; apply nth_error_Some; congruence).
      destruct (nth_error vers j) as [v|] eqn:EV; [|apply nth_error_None in EV; lia].
      unfold same. rewrite nth_error_map, (nth_error_combine _ _ _ _ _ CJ EV). cbn.
      destruct (Nat.eqb_spec (wcount cap (total H) i) v) as [->|N].
      - tauto. - split; [discriminate|]. intros Q. congruence. }
    assert (IDX : forall i, In i (mask same idx) -> i < b_size (pb_b (dp_p d))).
    { intros i Hi. apply mask_in in Hi as (j & B & Hj).
      apply (SAME j i Hj) in B. assert (C : 0 < cap) by (specialize (IB i (nth_error_In _ _ Hj)); lia).
      pose proof (VB _ (nth_error_In _ _ B)) as GE.
      apply wcount_pos in GE; auto; [|apply IB; eapply nth_error_In; eauto].
      rewrite (size_eq _ _ _ (pi_b _ _ _ _ P)). exact GE. }
    destruct P as [PB PT PS PP PZ].
    unfold pb_update.
    destruct (update_batch_inv (pb_t (dp_p d)) f (map norm (mask same ps)) (map Z.of_nat (mask same idx)) PT) as (w' & EU & IT1).
    { split; [rewrite !map_length; apply mask_length; auto|]. rewrite PS. intros i Hi.
      apply in_map_iff in Hi as (k & <- & K). apply IDX in K. pose proof (size_eq _ _ _ PB). unfold valid_idx. lia. }
    rewrite EU. cbn [fst snd]. cbn [spec_step] in IT1. rewrite spec_batch_tset_all, map_map in IT1.
    rewrite (map_ext (fun x => Z.to_nat (Z.of_nat x)) (fun x => x)), map_id in IT1 by (intros; apply Nat2Z.id).
    set (f' := tset_all f (combine (mask same idx) (map norm (mask same ps)))) in *.
    assert (MF : map fst (combine (mask same idx) (map norm (mask same ps))) = mask same idx)
      by (apply map_fst_combine; rewrite map_length; symmetry; apply mask_length; auto).
    assert (CASE : forall k, (exists j x, nth_error idx j = Some k /\ nth_error ps j = Some x /\
                    nth_error vers j = Some (wcount cap (total H) k) /\ f' k = norm x)
              \/ ((forall j, nth_error idx j = Some k -> nth_error vers j <> Some (wcount cap (total H) k)) /\ f' k = f k)).
    { intros k. destruct (in_dec Nat.eq_dec k (mask same idx)) as [K|K].
      - left. pose proof K as K'. rewrite <- MF in K'. destruct (tset_all_val _ f k K') as (w & A & B).
        apply nth_combine in A as (o & A1 & A2).
        rewrite nth_error_map in A2. destruct (nth_error (mask same ps) o) as [x|] eqn:EX; [|discriminate]. cbn in A2. injection A2 as <-.
        pose proof (nth_error_combine _ _ _ _ _ A1 EX) as CC. rewrite mask_combine in CC.
        apply nth_error_In, mask_in in CC as (j & Sj & Cj). apply nth_error_combine_inv in Cj as [C1 C2]. cbn in C1, C2.
        exists j, x. repeat split; auto. now apply (SAME j k C1).
      - right. split; [|apply tset_all_notin; now rewrite MF].
        intros j Hj Q. apply K. apply mask_in. exists j. split; auto. now apply (SAME j k Hj). }
    exists f'. split; auto. split; [|split; [reflexivity|auto]].
    split; cbn [dp_p dp_ver]; [|split; auto].
    split; cbn [pb_b pb_t]; auto.
    - intros k K. destruct (CASE k) as [(j & x & _ & _ & _ & ->)|[_ ->]]; auto.
    - intros k K. destruct (CASE k) as [(j & x & A & _ & B & _)|[_ ->]]; auto. exfalso.
      assert (In k (mask same idx)) as Q by (apply mask_in; exists j; split; auto; now apply (SAME j k A)).
      apply IDX in Q. lia.
  Qed.

  Lemma dmove_inv cap d H f d' H' : 2 <= cap -> DInv cap d H f -> dmove ok norm pw inc cap d H d' H' ->
    exists f' K, DInv cap d' H' f' /\ H' = H ++ K.
  Proof.
    intros C I M. destruct M as [d H ep ps NE OK L LP|d H ep ps Q|d H ps idx vers L1 L2 IB VB|d H us all U].
    - destruct (DInv_store cap d H f ep ps C I NE OK L LP) as (_ & f' & I'). eauto.
    - exists f, []. rewrite app_nil_r. split; auto. now apply (DInv_refused cap d H f ep ps I).
    - destruct (dp_update_ok cap d H f ps idx vers I L1 L2 IB VB) as (f' & _ & I' & _). exists f', []. now rewrite app_nil_r.
    - exists f, []. rewrite app_nil_r. split; auto. now apply DInv_sample.
  Qed.
  Lemma dmoves_inv cap d H f d' H' : 2 <= cap -> DInv cap d H f -> dmoves ok norm pw inc cap d H d' H' ->
    exists f' K, DInv cap d' H' f' /\ H' = H ++ K.
  Proof.
    intros C I M. induction M as [d H|d H d1 H1 d2 H2 M IH S].
    - exists f, []. now rewrite app_nil_r.
    - destruct (IH I) as (f1 & K1 & I1 & ->). destruct (dmove_inv _ _ _ _ _ _ C I1 S) as (f2 & K2 & I2 & ->).
      exists f2, (K1 ++ K2). rewrite app_assoc. auto.
  Qed.
  Lemma dreach_inv cap d H : 2 <= cap -> dreach ok norm pw beta inc cap d H -> exists f, DInv cap d H f.
  Proof.
    intros C R. induction R as [|d H d' H' R (f & I) M|d H R (f & I)].
    - eexists. now apply DInv_new.
    - destruct (dmove_inv _ _ _ _ _ _ C I M) as (f' & K & I' & _). eauto.
    - eexists. eapply DInv_clear; eauto.
  Qed.

  Lemma dleaf_f cap d H f : DInv cap d H f -> forall k, dleaf d k = f k.
  Proof. intros I k. unfold dleaf. eapply leaf_f. apply I. Qed.

  (* what a sample returns *)
  Lemma dp_sample_ok cap d H f us all : DInv cap d H f -> unit_draws us -> dp_size d <> 0 -> 2 <= length us ->
    exists batch idx vers ws, snd (dp_sample pw inc d us all) = Ok (length us, batch, idx, vers, ws) /\
      length batch = length us /\ length idx = length us /\ length vers = length us /\ length ws = length us /\
      (forall i, In i idx -> i < dp_size d) /\
      (forall j i, nth_error idx j = Some i -> nth_error vers j = Some (wcount cap (total H) i) /\
                   nth_error batch j = dstored d i).
  Proof.
    intros [P [LV VV]] U NZ L2. assert (NE : us <> []) by (intros ->; cbn in L2; lia).
    destruct (sample_index_inv _ _ _ _ us P NZ NE U) as (idx & E1 & L & E2 & PT).
    assert (ALL : forall i, In i idx -> i < dp_size d).
    { intros i Hi. apply In_nth_error in Hi as (k & Hk).
      assert (k < length us) by (rewrite <- L; apply nth_error_Some; congruence).
      destruct (nth_error us k) as [u|] eqn:EU; [|apply nth_error_None in EU; lia].
      destruct (PT _ _ EU) as (i' & N' & L' & _). assert (i = i') by congruence. subst. exact L'. }
    assert (SC : dp_size d <= cap).
    { unfold dp_size. rewrite (size_eq _ _ _ (pi_b _ _ _ _ P)). lia. }
    unfold dp_sample. destruct (Nat.eqb_spec (length us) 0); [lia|]. destruct (Nat.eqb_spec (dp_size d) 0); [lia|]. cbn [orb].
    unfold pb_sample_index. rewrite E1. cbn [bind]. rewrite E2. cbn [bind snd].
    destruct (Nat.eqb_spec (length us) 1); [lia|].
    destruct (index_all_ok (dp_ver d) idx) as (vers & EV & LVE & _).
    { intros i Hi. apply ALL in Hi. lia. }
    rewrite EV. cbn [bind].
    destruct (index_all_ok (st_data (b_st (pb_b (dp_p d)))) idx) as (batch & EB & LB & _).
    { intros i Hi. apply ALL in Hi. exact Hi. }
    rewrite EB. cbn [bind]. do 4 eexists. split; [rewrite LB, L; reflexivity|].
    split; [congruence|]. split; auto. split; [congruence|]. split; [rewrite !map_length; auto|]. split; auto.
    intros j i Hj. rewrite (index_all_nth _ _ _ j i EV Hj), (index_all_nth _ _ _ j i EB Hj).
    split; auto. apply VV. apply nth_error_In in Hj. apply ALL in Hj. lia.
  Qed.

  Lemma data_kept cap d H f d2 K f2 i : 2 <= cap -> DInv cap d H f -> DInv cap d2 (H ++ K) f2 -> i < dp_size d ->
    ~ rewritten cap (total H) (total (H ++ K)) i -> dstored d2 i = dstored d i.
  Proof.
    intros C [P _] [P2 _] LI NR. pose proof (size_eq _ _ _ (pi_b _ _ _ _ P)) as S0.
    unfold dp_size in LI. rewrite S0 in LI. fold (total H) in LI.
    (* last write n to slot i before N *)
    destruct (pi_b _ _ _ _ P) as [ST CP _]. destruct (pi_b _ _ _ _ P2) as [ST2 CP2 _].
    set (N := total H) in *. set (m := N - 1 - i). set (n := i + cap * (m / cap)).
    change (length (concat H)) with N in LI.
    pose proof (Nat.div_mod m cap ltac:(lia)) as DM. pose proof (Nat.mod_upper_bound m cap ltac:(lia)) as MU.
    assert (NM : n mod cap = i) by (unfold n; rewrite Nat.mul_comm, Nat.mod_add by lia; apply Nat.mod_small; lia).
    assert (A : n < N) by (unfold n, m in *; lia). assert (B : N <= n + cap) by (unfold n, m in *; lia).
    assert (B2 : total (H ++ K) <= n + cap).
    { destruct (Nat.le_gt_cases (total (H ++ K)) (n + cap)) as [|G]; auto. exfalso. apply NR.
      exists (n + cap). split; [lia|]. replace (n + cap) with (n + 1 * cap) by lia. rewrite Nat.mod_add by lia. exact NM. }
    assert (A2 : n < total (H ++ K)) by (rewrite total_app; lia).
    unfold dstored, stored. rewrite <- NM.
    rewrite <- CP at 2. rewrite (si_dat ST); [|exact A|rewrite CP; exact B].
    rewrite <- CP2 at 1. rewrite (si_dat ST2); [|exact A2|rewrite CP2; exact B2].
    rewrite concat_app. apply nth_error_app1. exact A.
  Qed.

  Lemma stale_updates cap d H us all d2 H2 n batch idx vers ws ps : 2 <= cap -> dreach ok norm pw beta inc cap d H -> unit_draws us ->
    snd (dp_sample pw inc d us all) = Ok (n, batch, idx, vers, ws) ->
    dmoves ok norm pw inc cap (fst (dp_sample pw inc d us all)) H d2 H2 -> length ps = length idx ->
    snd (dp_update norm d2 ps idx vers) = Ok tt /\
    let d3 := fst (dp_update norm d2 ps idx vers) in
    (forall k, dstored d3 k = dstored d2 k) /\
    (forall k, ~ In k idx \/ rewritten cap (total H) (total H2) k -> dleaf d3 k = dleaf d2 k) /\
    (forall k, In k idx -> ~ rewritten cap (total H) (total H2) k ->
       dstored d2 k = dstored d k /\
       exists j x, nth_error idx j = Some k /\ nth_error ps j = Some x /\ nth_error batch j = dstored d k /\ dleaf d3 k = norm x).
  Proof.
    intros C R U E M LP. destruct (dreach_inv _ _ _ C R) as (f & I).
    pose proof (DInv_sample cap d H f us all I) as I1.
    destruct (dmoves_inv _ _ _ _ _ _ C I1 M) as (f2 & K & I2 & ->).
    assert (TL : total H <= total (H ++ K)) by (rewrite total_app; lia).
    destruct (Nat.eq_dec (length us) 0) as [Z|NZ]; [|destruct (Nat.eq_dec (dp_size d) 0) as [Z|NZ2]].
    1-2: assert (idx = [] /\ vers = []) as [-> ->] by (unfold dp_sample in E; rewrite Z in E; cbn in E; rewrite ?orb_true_r in E; cbn in E; split; congruence).
    1-2: destruct ps; [|discriminate]; destruct (dp_update_ok cap d2 (H ++ K) f2 [] [] [] I2) as (f3 & E3 & I3 & B3 & CASE); auto; try (intros ? []);
      split; auto; cbv zeta; split; [intros k; unfold dstored, stored; now rewrite B3|]; split; [|intros k []];
      intros k _; rewrite (dleaf_f _ _ _ _ I3), (dleaf_f _ _ _ _ I2); destruct (CASE k) as [([|?] & ? & ? & _)|[_ ?]]; auto; discriminate.
    destruct (Nat.eq_dec (length us) 1) as [O|NO].
    { exfalso. unfold dp_sample in E. rewrite O in E. cbn [Nat.eqb orb] in E. destruct (Nat.eqb_spec (dp_size d) 0); [lia|].
      destruct (pb_sample_index _ _ _ _ _) as [p1 [[? ?]|?]]; cbn in E; discriminate. }
    destruct (dp_sample_ok cap d H f us all I U NZ2 ltac:(lia)) as (batch' & idx' & vers' & ws' & E' & LB & LI & LVE & LW & IS & PT).
    assert (idx' = idx /\ vers' = vers /\ batch' = batch) as (-> & -> & ->) by (split; [|split]; congruence).
    assert (SC : dp_size d <= cap) by (unfold dp_size; rewrite (size_eq _ _ _ (pi_b _ _ _ _ (dv_p _ _ _ _ I))); lia).
    destruct (dp_update_ok cap d2 (H ++ K) f2 ps idx vers I2 LP ltac:(congruence)) as (f3 & E3 & I3 & B3 & CASE).
    { intros i Hi. apply IS in Hi. lia. }
    { intros v Hv. apply In_nth_error in Hv as (j & Hj).
      assert (JL : j < length idx) by (rewrite LI, <- LVE; apply nth_error_Some; congruence).
      destruct (nth_error idx j) as [i|] eqn:EI; [|apply nth_error_None in EI; lia].
      destruct (PT j i EI) as [V _]. assert (v = wcount cap (total H) i) as -> by congruence.
      apply nth_error_In in EI. pose proof (IS i EI) as S. apply wcount_pos; [lia|lia|].
      unfold dp_size in S. now rewrite (size_eq _ _ _ (pi_b _ _ _ _ (dv_p _ _ _ _ I))) in S. }
    split; auto. cbv zeta. split; [intros k; unfold dstored, stored; now rewrite B3|]. split.
    - intros k Q. rewrite (dleaf_f _ _ _ _ I3), (dleaf_f _ _ _ _ I2).
      destruct (CASE k) as [(j & x & A1 & _ & A3 & _)|[_ Z]]; auto. exfalso.
      destruct Q as [Q|Q]; [apply Q; eapply nth_error_In; eauto|].
      destruct (PT j k A1) as [V _]. assert (wcount cap (total H) k = wcount cap (total (H ++ K)) k) as W by congruence.
      apply wcount_same in W; auto.
    - intros k IK NR. split; [apply (data_kept cap d H f d2 K f2); auto|].
      rewrite (dleaf_f _ _ _ _ I3).
      destruct (CASE k) as [(j & x & A1 & A2 & A3 & A4)|[Z _]].
      + exists j, x. destruct (PT j k A1) as [_ B]. auto.
      + exfalso. apply In_nth_error in IK as (j & J). apply (Z j J). destruct (PT j k J) as [V _]. rewrite V.
        f_equal. now apply wcount_same.
  Qed.
End P.
