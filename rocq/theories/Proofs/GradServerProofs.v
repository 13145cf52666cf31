From Verif Require Import Lib.Rat Model.Servers Spec.ServerSpec Proofs.ServerProofs.
From Coq Require Import Permutation.
Open Scope nat_scope.
Set Implicit Arguments.

Lemma Forall2_length {A B} (P : A -> B -> Prop) l l' : Forall2 P l l' -> length l = length l'.
Proof. induction 1; cbn; auto. Qed.

(* ---------------- reduction of one batch ---------------- *)
Lemma collect_grad_get k g : forall acc, NoDup (dkeys g) ->
  dget k (collect_grad acc g) = match dget k g with
                                | None => dget k acc
                                | Some t => Some (match dget k acc with Some l => l ++ [t] | None => [t] end)
                                end.
Proof.
  unfold collect_grad. induction g as [|[k1 t1] r IH]; intros acc ND; [reflexivity|].
  unfold dkeys in *. cbn [map fst] in ND. inversion ND as [|? ? NI ND']; subst. cbn [fold_left dget fst snd]. rewrite IH by auto.
  destruct (eqb_spec k k1) as [->|N].
  - assert (Z : dget k1 r = None) by (apply dget_None; exact NI). rewrite Z.
    destruct (dget k1 acc) as [l|] eqn:E; rewrite dget_dset_same; reflexivity.
  - assert (Z : forall l, dget k (dset k1 l acc) = dget k acc) by (intros; apply dget_dset_other; congruence).
    destruct (dget k1 acc); rewrite Z; reflexivity.
Qed.

Definition tensors_of (k : nat) (batch : list gdict) : list tensor :=
  flat_map (fun g => match dget k g with Some t => [t] | None => [] end) batch.

Lemma collect_all_get k batch : forall acc, (forall g, In g batch -> NoDup (dkeys g)) ->
  dget k (fold_left collect_grad batch acc) =
  match dget k acc with
  | Some l => Some (l ++ tensors_of k batch)
  | None => match tensors_of k batch with [] => None | l => Some l end
  end.
Proof.
  induction batch as [|g r IH]; intros acc ND; cbn [fold_left tensors_of flat_map].
  - destruct (dget k acc); auto. now rewrite app_nil_r.
  - rewrite IH by (intros; apply ND; now right). rewrite collect_grad_get by (apply ND; now left).
    unfold tensors_of. destruct (dget k g) as [t|]; destruct (dget k acc) as [l|]; cbn [app]; auto.
    now rewrite <- app_assoc.
Qed.

Lemma reduce_all_get m k : forall d d', reduce_all m d = Ok d' ->
  match dget k d with
  | None => dget k d' = None
  | Some l => exists t, reduce_tensors m l = Ok t /\ dget k d' = Some t
  end.
Proof.
  induction d as [|[k1 l1] r IH]; intros d' E; cbn [reduce_all] in E.
  - injection E as <-. reflexivity.
  - destruct (reduce_tensors m l1) as [t|] eqn:E1; cbn [bind] in E; [|discriminate].
    destruct (reduce_all m r) as [r'|]; cbn [bind] in E; [|discriminate]. injection E as <-. cbn [dget].
    destruct (eqb_spec k k1) as [->|N]; [exists t; auto|]. apply IH; auto.
Qed.

Lemma tadd_nth x y j : length x = length y ->
  nth_error (tadd x y) j = match nth_error x j, nth_error y j with Some a, Some b => Some (a + b)%Qc | _, _ => None end.
Proof.
  unfold tadd. revert y j. induction x as [|a r IH]; intros [|b y] [|j] L; cbn in *; try discriminate; auto.
Qed.
Lemma tadd_length x y : length x = length y -> length (tadd x y) = length x.
Proof. intros L. unfold tadd. rewrite map_length, combine_length. lia. Qed.

Lemma fold_tadd : forall r x, forallb (fun y => length y =? length x) r = true ->
  length (fold_left tadd r x) = length x /\
  forall j a, nth_error (fold_left tadd r x) j = Some a ->
    exists vs, Forall2 (fun t v => nth_error t j = Some v) (x :: r) vs /\ a = qsum vs.
Proof.
  induction r as [|y r IH]; intros x F; cbn [fold_left].
  - split; auto. intros j a E. exists [a]. split; [repeat constructor; auto|]. cbn. ring.
  - cbn in F. apply andb_prop in F as [L F]. apply Nat.eqb_eq in L.
    assert (LT : length (tadd x y) = length x) by (apply tadd_length; auto).
    destruct (IH (tadd x y)) as [A B]. { rewrite LT. exact F. }
    split; [congruence|]. intros j a E. destruct (B j a E) as (vs & F2 & ->). inversion F2 as [|? v ? vs' Hv F2' ]; subst.
    rewrite tadd_nth in Hv by auto. destruct (nth_error x j) as [u|] eqn:E1; [|discriminate].
    destruct (nth_error y j) as [w|] eqn:E2; [|discriminate]. injection Hv as <-.
    exists (u :: w :: vs'). split; [repeat constructor; auto|]. cbn. ring.
Qed.

Lemma Forall2_contrib k j batch vs : Forall2 (fun t v => nth_error t j = Some v) (tensors_of k batch) vs -> contributions k j batch = vs.
Proof.
  revert vs. induction batch as [|g r IH]; intros vs F; cbn in *.
  - inversion F. reflexivity.
  - unfold gentry at 1. unfold tensors_of in *. cbn in F. destruct (dget k g) as [t|]; cbn in F |- *.
    + inversion F as [|? v ? vs' Hv F']; subst. rewrite Hv. cbn. f_equal. apply IH. exact F'.
    + apply IH. exact F.
Qed.

Lemma reduce_batch_ok m batch d : (forall g, In g batch -> NoDup (dkeys g)) -> reduce_batch m batch = Ok d ->
  forall k, (dget k d = None <-> forall g, In g batch -> dget k g = None) /\
    forall t, dget k d = Some t ->
      (forall g t', In g batch -> dget k g = Some t' -> length t' = length t) /\
      forall j x, nth_error t j = Some x ->
        x = match m with RSum => qsum (contributions k j batch)
                       | RMean => (qsum (contributions k j batch) / nq (length (contributions k j batch)))%Qc end.
Proof.
  intros ND E k. unfold reduce_batch in E. pose proof (reduce_all_get m k _ E) as R.
  pose proof (collect_all_get k batch [] ND) as C. cbn [dget] in C. rewrite C in R. clear C.
  assert (TE : forall t, In t (tensors_of k batch) <-> exists g, In g batch /\ dget k g = Some t).
  { intros t. unfold tensors_of. rewrite in_flat_map. split; intros (g & I & Q); exists g; split; auto.
    - destruct (dget k g); [destruct Q as [<-|[]]; auto|destruct Q].
    - rewrite Q. now left. }
  destruct (tensors_of k batch) as [|x r] eqn:ET.
  - split; [|intros t Q; congruence]. split; auto. intros _ g I. destruct (dget k g) as [t|] eqn:G; auto.
    exfalso. apply (TE t). eauto.
  - destruct R as (t & R & DK). split.
    + rewrite DK. split; [discriminate|]. intros Q. exfalso. destruct (proj1 (TE x) (or_introl eq_refl)) as (g & I & G). rewrite (Q g I) in G. discriminate.
    + intros t' Q. rewrite DK in Q. injection Q as <-. unfold reduce_tensors in R.
      destruct (forallb (fun y => length y =? length x) r) eqn:F; [|discriminate].
      destruct (fold_tadd r x F) as [L P]. injection R as R.
      assert (LT : length t = length x). { rewrite <- R. destruct m; [auto|rewrite map_length; auto]. }
      split.
      * intros g t' I G. assert (I' : In t' (x :: r)) by (apply TE; eauto). rewrite LT. destruct I' as [<-|I']; auto.
        rewrite forallb_forall in F. apply F in I'. now apply Nat.eqb_eq in I'.
      * intros j y J. rewrite <- R in J. destruct m.
        -- destruct (P j y J) as (vs & F2 & ->). rewrite (@Forall2_contrib k j batch vs); [reflexivity|rewrite ET; exact F2].
        -- rewrite nth_error_map in J. destruct (nth_error (fold_left tadd r x) j) as [z|] eqn:EZ; [|discriminate]. cbn in J. injection J as <-.
           destruct (P j z EZ) as (vs & F2 & ->). pose proof (Forall2_length F2) as LL. rewrite (@Forall2_contrib k j batch vs); [now rewrite <- LL|rewrite ET; exact F2].
Qed.

(* ---------------- queues and batches ---------------- *)
Lemma batch_of_app n a b : batch_of n (a ++ b) = batch_of n a ++ batch_of n b.
Proof. unfold batch_of. apply flat_map_app. Qed.

Section GP.
  Variable m : rmethod.
  Variables bsz maxq primary : nat.
  Hypothesis bsz_pos : 0 < bsz.

  Definition sorted_fates (out : list (gdict * fate)) : Prop :=
    forall i j a b gi gj, i < j -> nth_error out i = Some (gi, FBatch a) -> nth_error out j = Some (gj, FBatch b) -> a <= b.

  Record QI (q : gq) (prog : list gdict) (reds : list (list gdict * gdict)) : Prop := {
    qi_red : map (fun n => batch_of n (q_out q)) (seq 0 (q_batches q)) = map fst reds;
    qi_prog : batch_of (q_batches q) (q_out q) = prog;
    qi_le : forall g n, In (g, FBatch n) (q_out q) -> n <= q_batches q;
    qi_sort : sorted_fates (q_out q);
    qi_ok : forall b d, In (b, d) reds -> length b = bsz /\ reduce_batch m b = Ok d }.

  Definition arrivals (q : gq) : list gdict := map fst (q_out q) ++ q_items q.

  Lemma QI_put q prog reds g : QI q prog reds -> QI (q_put q g) prog reds.
  Proof. intros [A B C D E]. split; auto. Qed.

  Lemma sorted_snoc out x : sorted_fates out -> (forall g n, x = (g, FBatch n) -> forall g' k, In (g', FBatch k) out -> k <= n) -> sorted_fates (out ++ [x]).
  Proof.
    intros SF H i j a b gi gj L Ei Ej. assert (j < length (out ++ [x])) as LJ by (apply nth_error_Some; congruence).
    rewrite app_length in LJ. cbn in LJ. rewrite nth_error_app1 in Ei by lia.
    destruct (Nat.eq_dec j (length out)) as [->|N].
    - rewrite nth_error_app2, Nat.sub_diag in Ej by lia. cbn in Ej. injection Ej as Ej. eapply H; eauto. eapply nth_error_In; eauto.
    - rewrite nth_error_app1 in Ej by lia. exact (SF i j a b gi gj L Ei Ej).
  Qed.

  Lemma QI_discard q prog reds : QI q prog reds -> QI (q_take q FDiscard) prog reds.
  Proof.
    intros I. unfold q_take. destruct (q_items q) as [|g r] eqn:E; auto. destruct I as [A B C D F].
    assert (BO : forall n, batch_of n (q_out q ++ [(g, FDiscard)]) = batch_of n (q_out q)).
    { intros n. rewrite batch_of_app. cbn. apply app_nil_r. }
    split; cbn [q_out q_batches]; auto.
    - rewrite <- A. apply map_ext. auto.
    - now rewrite BO.
    - intros g' n H. apply in_app_or in H as [H|[H|[]]]; [eauto|discriminate].
    - apply sorted_snoc; auto. intros ? ? Q. discriminate.
  Qed.

  Lemma QI_batch q prog reds g r : q_items q = g :: r -> QI q prog reds -> QI (q_take q (FBatch (q_batches q))) (prog ++ [g]) reds.
  Proof.
    intros E [A B C D F]. unfold q_take. rewrite E. split; cbn [q_out q_batches]; auto.
    - rewrite <- A. apply map_ext_in. intros n H. apply in_seq in H. rewrite batch_of_app. cbn.
      destruct (Nat.eqb_spec (q_batches q) n); [lia|]. apply app_nil_r.
    - rewrite batch_of_app, B. cbn. now rewrite Nat.eqb_refl.
    - intros g' n H. apply in_app_or in H as [H|[H|[]]]; [eauto|]. injection H as _ <-. auto.
    - apply sorted_snoc; auto. intros g0 n Q g' k H. injection Q as _ <-. eauto.
  Qed.

  Lemma QI_next q prog reds d : QI q prog reds -> length prog = bsz -> reduce_batch m prog = Ok d -> QI (q_next q) [] (reds ++ [(prog, d)]).
  Proof.
    intros [A B C D F] L R. split; cbn [q_out q_batches q_next]; auto.
    - rewrite seq_S, !map_app, A. cbn. now rewrite B.
    - unfold batch_of. rewrite flat_map_concat_map. 
      assert (H : forall x, In x (q_out q) -> (match snd x with FBatch k => if k =? S (q_batches q) then [fst x] else [] | FDiscard => [] end) = []).
      { intros [g [|k]] H; cbn; auto. apply C in H. destruct (Nat.eqb_spec k (S (q_batches q))); [lia|auto]. }
      rewrite (map_ext_in _ (fun _ => []) _ H). clear. induction (q_out q); cbn; auto.
    - intros g n H. apply C in H. lia.
    - intros b e H. apply in_app_or in H as [H|[H|[]]]; auto. injection H as <- <-. auto.
  Qed.

  Lemma arr_put q g : arrivals (q_put q g) = arrivals q ++ [g].
  Proof. unfold arrivals. cbn. now rewrite app_assoc. Qed.
  Lemma arr_take q f : arrivals (q_take q f) = arrivals q.
  Proof. unfold arrivals, q_take. destruct (q_items q) as [|g r] eqn:E; cbn; rewrite ?E; auto. rewrite map_app, <- app_assoc. reflexivity. Qed.
  Lemma arr_next q : arrivals (q_next q) = arrivals q.
  Proof. reflexivity. Qed.

  (* the batch in progress for each queue, according to the program counter *)
  Definition progm (r : reducer) (b : list gdict) : Prop :=
    match r_pc r with PGetM b' => b = b' /\ length b <= bsz /\ bsz <= length b + qsize (r_m r) | PDead => True | _ => b = [] end.
  Definition progs (r : reducer) (b : list gdict) : Prop :=
    match r_pc r with PGetS b' => b = b' /\ length b <= bsz /\ bsz <= length b + qsize (r_s r) | PDead => True | _ => b = [] end.
  Definition pend (r : reducer) : Prop :=
    match r_pc r with PSend d => exists l b, r_reds r = l ++ [(b, d)] | _ => True end.
  Definition RI (r : reducer) : Prop :=
    exists pm ps, QI (r_m r) pm (r_redm r) /\ QI (r_s r) ps (r_reds r) /\ progm r pm /\ progs r ps /\ pend r.

  Lemma setr_same s i r : setr s i r i = r.
  Proof. unfold setr. now rewrite Nat.eqb_refl. Qed.
  Lemma setr_other s i r j : j <> i -> setr s i r j = s j.
  Proof. unfold setr. destruct (Nat.eqb_spec j i); congruence. Qed.

  Lemma sent_nosend r : (forall d, r_pc r <> PSend d) -> sent r = map snd (r_reds r).
  Proof. unfold sent. intros H. destruct (r_pc r); auto. exfalso. eapply H; reflexivity. Qed.

  (* steps other than the remote push of the result *)
  Lemma r_step_local s i st : RI (s i) -> (forall d, r_pc (s i) <> PSend d) ->
    let s' := r_step m bsz maxq primary s i st in
    (forall j, j <> i -> s' j = s j) /\ RI (s' i) /\
    arrivals (r_m (s' i)) = arrivals (r_m (s i)) /\ arrivals (r_s (s' i)) = arrivals (r_s (s i)) /\
    sent (s' i) = sent (s i).
  Proof.
    intros (pm & ps & QM & QS & PM & PS & PE) NS. cbv zeta. unfold r_step.
    remember (s i) as r eqn:ER.
    assert (SAME : RI r) by (exists pm, ps; auto 10).
    assert (KEEP : forall pc, (forall b, pc <> PGetM b) -> (forall b, pc <> PGetS b) -> (forall d, pc <> PSend d) ->
       (forall b, r_pc r <> PGetM b) -> (forall b, r_pc r <> PGetS b) -> r_pc r <> PDead ->
       RI (MkR (r_m r) (r_s r) pc (r_redm r) (r_reds r))).
    { intros pc A1 A2 A3 B1 B2 B3. exists pm, ps. cbn. do 2 (split; [assumption|]).
      assert (pm = [] /\ ps = []) as [-> ->].
      { unfold progm, progs in PM, PS. destruct (r_pc r); auto; exfalso; first [eapply B1; reflexivity|eapply B2; reflexivity|now apply B3]. }
      unfold progm, progs, pend. cbn. destruct pc; try (exfalso; first [eapply A1; reflexivity|eapply A2; reflexivity|eapply A3; reflexivity]); auto. }
    assert (SK : forall r2, r_reds r2 = r_reds r -> (forall d, r_pc r2 <> PSend d) -> sent r2 = sent r).
    { intros r2 E1 E2. rewrite !sent_nosend; auto. now rewrite E1. }
    assert (OTH : forall r', forall j, j <> i -> setr s i r' j = s j) by (intros; now apply setr_other).
    destruct (r_pc r) as [| | | |b| |b|d|] eqn:PC.
    - destruct ((qsize (r_m r) <? bsz) && (qsize (r_s r) <? bsz)).
      + destruct st.
        * split; auto. rewrite setr_same. split; [apply KEEP; try discriminate|]. cbn [r_m r_s]. repeat split; apply SK; [reflexivity|discriminate].
        * split; [auto|rewrite <- ER; auto 10].
      + split; auto. rewrite setr_same. split; [apply KEEP; try discriminate|]. cbn [r_m r_s]. repeat split; apply SK; [reflexivity|discriminate].
    - destruct (maxq <? qsize (r_m r)).
      + split; auto. rewrite setr_same. cbn [r_m r_s r_pc r_redm r_reds]. rewrite arr_take. split; [|repeat split; apply SK; auto; discriminate].
        exists pm, ps. cbn. unfold progm, progs in *. rewrite PC in *. split; [now apply QI_discard|]. auto.
      + split; auto. rewrite setr_same. split; [apply KEEP; try discriminate|]. cbn [r_m r_s]. repeat split; apply SK; [reflexivity|discriminate].
    - destruct (maxq <? qsize (r_s r)).
      + split; auto. rewrite setr_same. cbn [r_m r_s r_pc r_redm r_reds]. rewrite arr_take. split; [|repeat split; apply SK; auto; discriminate].
        exists pm, ps. cbn. unfold progm, progs in *. rewrite PC in *. split; [auto|]. split; [now apply QI_discard|]. auto.
      + split; auto. rewrite setr_same. split; [apply KEEP; try discriminate|]. cbn [r_m r_s]. repeat split; apply SK; [reflexivity|discriminate].
    - split; auto. rewrite setr_same. destruct (Nat.leb_spec bsz (qsize (r_m r))).
      + split; [|cbn [r_m r_s]; repeat split; apply SK; [reflexivity|discriminate]].
        unfold progm, progs in *. rewrite PC in *. exists pm, ps. unfold progm, progs, pend. cbn. subst. repeat (split; [now auto|]). split; [split; [auto|cbn; lia]|auto].
      + split; [apply KEEP; try discriminate|]. cbn [r_m r_s]. repeat split; apply SK; [reflexivity|discriminate].
    - unfold progm, progs in PM, PS. rewrite PC in PM, PS. destruct PM as (-> & LB & LQ). subst ps.
      destruct (Nat.ltb_spec (length b) bsz).
      + destruct (q_items (r_m r)) as [|g rr] eqn:E.
        * split; [auto|rewrite <- ER; auto 10].
        * split; auto. rewrite setr_same. cbn [r_m r_s r_pc r_redm r_reds]. rewrite arr_take. split; [|repeat split; apply SK; auto; discriminate].
          exists (b ++ [g]), []. unfold progm, progs, pend. cbn. split; [eapply QI_batch; eauto|]. split; auto. split; auto.
          unfold qsize, q_take in *. rewrite E in *. cbn in *. rewrite app_length. cbn. split; auto. lia.
      + destruct (reduce_batch m b) as [d|e] eqn:RB.
        * split; auto. rewrite setr_same. cbn [r_m r_s r_pc r_redm r_reds]. rewrite arr_next. split; [|repeat split; apply SK; auto; discriminate].
          exists [], []. unfold progm, progs, pend. cbn. split; [apply QI_next; auto; lia|]. auto.
        * split; auto. rewrite setr_same. cbn [r_m r_s r_pc r_redm r_reds]. split; [|repeat split; apply SK; auto; discriminate].
          exists b, []. unfold progm, progs, pend. cbn. auto.
    - split; auto. rewrite setr_same. destruct (Nat.leb_spec bsz (qsize (r_s r))).
      + split; [|cbn [r_m r_s]; repeat split; apply SK; [reflexivity|discriminate]].
        unfold progm, progs in *. rewrite PC in *. exists pm, ps. unfold progm, progs, pend. cbn. subst. repeat (split; [now auto|]). split; [split; [auto|cbn; lia]|auto].
      + split; [apply KEEP; try discriminate|]. cbn [r_m r_s]. repeat split; apply SK; [reflexivity|discriminate].
    - unfold progm, progs in PM, PS. rewrite PC in PM, PS. destruct PS as (-> & LB & LQ). subst pm.
      destruct (Nat.ltb_spec (length b) bsz).
      + destruct (q_items (r_s r)) as [|g rr] eqn:E.
        * split; [auto|rewrite <- ER; auto 10].
        * split; auto. rewrite setr_same. cbn [r_m r_s r_pc r_redm r_reds]. rewrite arr_take. split; [|repeat split; apply SK; auto; discriminate].
          exists [], (b ++ [g]). unfold progm, progs, pend. cbn. split; auto. split; [eapply QI_batch; eauto|]. split; auto. split; auto.
          unfold qsize, q_take in *. rewrite E in *. cbn in *. rewrite app_length. cbn. split; auto. lia.
      + destruct (reduce_batch m b) as [d|e] eqn:RB.
        * split; auto. rewrite setr_same. cbn [r_m r_s r_pc r_redm r_reds]. rewrite arr_next. split.
          -- exists [], []. unfold progm, progs, pend. cbn. split; auto. split; [apply QI_next; auto; lia|]. eauto 10.
          -- repeat split. unfold sent at 1. cbn [r_pc r_reds]. rewrite removelast_last. symmetry. apply sent_nosend. rewrite PC. discriminate.
        * split; auto. rewrite setr_same. cbn [r_m r_s r_pc r_redm r_reds]. split; [|repeat split; apply SK; auto; discriminate].
          exists [], b. unfold progm, progs, pend. cbn. auto.
    - exfalso. eapply NS. reflexivity.
    - split; [auto|rewrite <- ER; auto 10].
  Qed.

  Lemma RI_put_m r d : RI r -> RI (MkR (q_put (r_m r) d) (r_s r) (r_pc r) (r_redm r) (r_reds r)).
  Proof.
    intros (pm & ps & QM & QS & PM & PS & PE). exists pm, ps. cbn. split; [now apply QI_put|]. split; auto.
    unfold progm, progs, pend in *. cbn. destruct (r_pc r); auto. destruct PM as (A & B & C). split; auto.
    unfold qsize in *. cbn. rewrite app_length. cbn. split; [auto|]. split; [auto|lia].
  Qed.
  Lemma RI_put_s r d : RI r -> RI (MkR (r_m r) (q_put (r_s r) d) (r_pc r) (r_redm r) (r_reds r)).
  Proof.
    intros (pm & ps & QM & QS & PM & PS & PE). exists pm, ps. cbn. split; auto. split; [now apply QI_put|].
    unfold progm, progs, pend in *. cbn. destruct (r_pc r); auto. destruct PS as (A & B & C). split; auto.
    unfold qsize in *. cbn. rewrite app_length. cbn. split; [|auto]. split; [auto|]. lia.
  Qed.

  Lemma r_step_send s i st d : RI (s i) -> RI (s primary) -> r_pc (s i) = PSend d ->
    let s' := r_step m bsz maxq primary s i st in
    (forall j, j <> i -> j <> primary -> s' j = s j) /\ RI (s' i) /\ RI (s' primary) /\
    (forall j, arrivals (r_m (s' j)) = arrivals (r_m (s j)) ++ (if j =? primary then [d] else [])) /\
    (forall j, arrivals (r_s (s' j)) = arrivals (r_s (s j))) /\
    (forall j, sent (s' j) = sent (s j) ++ (if j =? i then [d] else [])).
  Proof.
    intros RI1 RI2 PC. cbv zeta. unfold r_step. rewrite PC.
    set (r0 := MkR (r_m (s i)) (r_s (s i)) PWait (r_redm (s i)) (r_reds (s i))).
    assert (R0 : RI r0).
    { destruct RI1 as (pm & ps & QM & QS & PM & PS & PE). exists pm, ps. unfold progm, progs, pend in *. rewrite PC in *. cbn. auto. }
    assert (S0 : sent r0 = sent (s i) ++ [d]).
    { destruct RI1 as (pm & ps & QM & QS & PM & PS & PE). unfold pend in PE. rewrite PC in PE. destruct PE as (l & b & E).
      unfold sent, r0. cbn [r_pc r_reds]. rewrite PC, E, removelast_last, map_app. reflexivity. }
    destruct (Nat.eq_dec i primary) as [<-|NP].
    - rewrite setr_same. split; [intros; rewrite !setr_other by auto; auto|].
      rewrite setr_same. assert (RP := RI_put_m d R0). split; [exact RP|]. split; [exact RP|].
      repeat split; intros j; destruct (Nat.eqb_spec j i) as [->|N]; rewrite ?setr_same, ?setr_other by auto; rewrite ?app_nil_r; auto.
      + cbn [r_m]. rewrite arr_put. reflexivity.
    - replace (setr s i r0 primary) with (s primary) by (symmetry; apply setr_other; auto). split; [intros; rewrite !setr_other by auto; auto|].
      rewrite setr_same. rewrite (setr_other (setr s i r0) _ NP), setr_same. split; [exact R0|]. split; [now apply RI_put_m|].
      repeat split; intros j; (destruct (Nat.eq_dec j primary) as [->|N1]; [rewrite setr_same|rewrite setr_other by auto; destruct (Nat.eq_dec j i) as [->|N2]; [rewrite setr_same|rewrite setr_other by auto]]).
      + rewrite Nat.eqb_refl. cbn [r_m]. apply arr_put.
      + destruct (Nat.eqb_spec i primary); [congruence|]. now rewrite app_nil_r.
      + destruct (Nat.eqb_spec j primary); [congruence|]. now rewrite app_nil_r.
      + reflexivity.
      + reflexivity.
      + reflexivity.
      + destruct (Nat.eqb_spec primary i); [congruence|]. now rewrite app_nil_r.
      + now rewrite Nat.eqb_refl.
      + destruct (Nat.eqb_spec j i); [congruence|]. now rewrite app_nil_r.
  Qed.

  Record GI (n : nat) (s : gsys) (acts : list gact) : Prop := {
    gi_r : forall i, RI (s i);
    gi_s : forall i, arrivals (r_s (s i)) = pushed_to i acts;
    gi_np : forall i, i <> primary -> arrivals (r_m (s i)) = [];
    gi_m : Permutation (arrivals (r_m (s primary))) (flat_map (fun i => sent (s i)) (seq 0 n)) }.

  Definition act_of (a : gact) : nat := match a with GPush i _ => i | GStep i _ => i end.

  Lemma flat_map_one {B} (f f' : nat -> list B) d i : forall n a, a <= i < a + n -> (forall j, j <> i -> f' j = f j) -> f' i = f i ++ [d] ->
    Permutation (flat_map f (seq a n) ++ [d]) (flat_map f' (seq a n)).
  Proof.
    induction n as [|n IH]; intros a R E Ei; [lia|]. cbn [seq flat_map]. destruct (Nat.eq_dec a i) as [->|N].
    - rewrite Ei. assert (Q : flat_map f' (seq (S i) n) = flat_map f (seq (S i) n)).
      { rewrite !flat_map_concat_map. f_equal. apply map_ext_in. intros j H. apply in_seq in H. apply E. lia. }
      rewrite Q, <- !app_assoc. apply Permutation_app_head. apply Permutation_app_comm.
    - rewrite E by auto. rewrite <- app_assoc. apply Permutation_app_head. apply IH; auto. lia.
  Qed.

  Lemma g_step_inv n s acts a : act_of a < n -> GI n s acts -> GI n (g_step m bsz maxq primary s a) (acts ++ [a]).
  Proof.
    intros LA [R S NP M].
    assert (PA : forall i, pushed_to i (acts ++ [a]) = pushed_to i acts ++ pushed_to i [a]) by (intros; unfold pushed_to; apply flat_map_app).
    destruct a as [i g|i st]; cbn [g_step act_of] in *.
    - unfold c_push. split.
      + intros j. destruct (Nat.eq_dec j i) as [->|N]; rewrite ?setr_same, ?setr_other by auto; auto. now apply RI_put_s.
      + intros j. rewrite PA. cbn. destruct (Nat.eq_dec j i) as [->|N]; rewrite ?setr_same, ?setr_other by auto.
        * rewrite Nat.eqb_refl. cbn [r_s]. now rewrite arr_put, S.
        * destruct (Nat.eqb_spec i j); [congruence|]. cbn. now rewrite app_nil_r.
      + intros j NJ. destruct (Nat.eq_dec j i) as [->|N]; rewrite ?setr_same, ?setr_other by auto; auto. cbn [r_m]. auto.
      + rewrite (flat_map_ext _ (fun j => sent (s j))).
        * destruct (Nat.eq_dec primary i) as [->|N]; rewrite ?setr_same, ?setr_other by auto; auto.
        * intros j. destruct (Nat.eq_dec j i) as [->|N]; rewrite ?setr_same, ?setr_other by auto; auto.
    - assert (PQ : forall j, pushed_to j (acts ++ [GStep i st]) = pushed_to j acts) by (intros; rewrite PA; cbn; apply app_nil_r).
      assert (D : (exists d, r_pc (s i) = PSend d) \/ (forall d, r_pc (s i) <> PSend d)) by (destruct (r_pc (s i)); eauto; right; discriminate).
      destruct D as [[d PC]|NS].
      + pose proof (r_step_send s i st (R i) (R primary) PC) as (O & R1 & R2 & AM & AS & SE).
        set (s' := r_step m bsz maxq primary s i st) in *. split.
        * intros j. destruct (Nat.eq_dec j i) as [->|N]; auto. destruct (Nat.eq_dec j primary) as [->|N2]; auto. rewrite O; auto.
        * intros j. now rewrite PQ, AS.
        * intros j NJ. rewrite AM. destruct (Nat.eqb_spec j primary); [congruence|]. rewrite app_nil_r. auto.
        * rewrite AM, Nat.eqb_refl. rewrite M. apply flat_map_one with (i := i); [lia| |].
          -- intros j NJ. rewrite SE. destruct (Nat.eqb_spec j i); [congruence|]. apply app_nil_r.
          -- rewrite SE. now rewrite Nat.eqb_refl.
      + pose proof (r_step_local s i st (R i) NS) as (O & R1 & AM & AS & SE).
        set (s' := r_step m bsz maxq primary s i st) in *. split.
        * intros j. destruct (Nat.eq_dec j i) as [->|N]; auto. rewrite O; auto.
        * intros j. rewrite PQ. destruct (Nat.eq_dec j i) as [->|N]; [now rewrite AS|]. rewrite O; auto.
        * intros j NJ. destruct (Nat.eq_dec j i) as [->|N]; [rewrite AM|rewrite O by auto]; auto.
        * rewrite (flat_map_ext _ (fun j => sent (s j))).
          -- destruct (Nat.eq_dec primary i) as [->|N]; [now rewrite AM|]. rewrite O; auto.
          -- intros j. destruct (Nat.eq_dec j i) as [->|N]; auto. now rewrite O.
  Qed.

  Lemma RI_new : RI r_new.
  Proof.
    exists [], []. unfold progm, progs, pend. cbn.
    assert (Q : QI (MkQ [] [] 0) [] []).
    { split; cbn; auto; try tauto. intros i j a b gi gj _ E. destruct i; discriminate. }
    auto.
  Qed.

  Lemma g_run_inv n acts : (forall a, In a acts -> act_of a < n) -> GI n (g_run m bsz maxq primary g_init acts) acts.
  Proof.
    intros H. unfold g_run.
    assert (G : forall l s done, GI n s done -> (forall a, In a l -> act_of a < n) -> GI n (fold_left (g_step m bsz maxq primary) l s) (done ++ l)).
    { induction l as [|a r IH]; intros s done I HL; cbn [fold_left]; [now rewrite app_nil_r|].
      replace (done ++ a :: r) with ((done ++ [a]) ++ r) by now rewrite <- app_assoc.
      apply IH; [|intros; apply HL; now right]. apply g_step_inv; auto. apply HL. now left. }
    apply (G acts g_init []); auto. split.
    - intros i. apply RI_new.
    - reflexivity.
    - reflexivity.
    - unfold g_init. cbn. clear. generalize 0. induction n as [|n IH]; intros a; cbn; auto.
  Qed.

  (* when a gradient is discarded the queue holds more than maxq gradients *)
  Lemma discard_overflow s a i :
    let s' := g_step m bsz maxq primary s a in
    (forall g, q_out (r_s (s' i)) = q_out (r_s (s i)) ++ [(g, FDiscard)] -> maxq < qsize (r_s (s i))) /\
    (forall g, q_out (r_m (s' i)) = q_out (r_m (s i)) ++ [(g, FDiscard)] -> maxq < qsize (r_m (s i))).
  Proof.
  clear bsz_pos.
    assert (NO : forall (l : list (gdict * fate)) x, l <> l ++ [x]).
    { intros l x E. apply (f_equal (@length _)) in E. rewrite app_length in E. cbn in E. lia. }
    assert (TK : forall q n g, q_out (q_take q (FBatch n)) <> q_out q ++ [(g, FDiscard)]).
    { intros q n g E. unfold q_take in E. destruct (q_items q); cbn in E; [now apply NO in E|]. apply app_inv_head in E. discriminate. }
    cbv zeta. destruct a as [k g|k st]; cbn [g_step].
    - unfold c_push. destruct (Nat.eq_dec i k) as [->|N]; rewrite ?setr_same, ?setr_other by auto; cbn; split; intros g' E; now apply NO in E.
    - unfold r_step.
      destruct (r_pc (s k)) as [| | | |b| |b|d|].
      all: repeat match goal with
        | |- context [maxq <? ?x] => destruct (Nat.ltb_spec maxq x)
        | |- context [if ?c then _ else _] => destruct c
        | |- context [match ?c with _ => _ end] => destruct c eqn:?
        end.
      all: unfold setr; repeat match goal with |- context [?a =? ?b] => destruct (Nat.eqb_spec a b); subst end;
           cbn [r_m r_s q_out q_put q_next] in *; split; intros g' E; try (exfalso; eapply NO; now eauto); try (exfalso; eapply TK; now eauto); auto.
  Qed.
End GP.
