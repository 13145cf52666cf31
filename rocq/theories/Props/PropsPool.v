(* C24 - C27, C54, C55: pools. *)
From Verif Require Import Lib.Base Model.Pool Spec.PoolSpec Proofs.PoolProofs Proofs.PoolSysProofs
  Proofs.PoolFacts Proofs.CtxPoolProofs.

(* ---- C24 ---- *)
(* a map call with a chunk size of at least 1 (or none given) over a non-empty input
   is accepted while the pool runs *)
Theorem C24_submission : forall A V E procs (s : st A V E) f xs c plen pf,
  s_state s = PRun -> xs <> [] ->
  match c with Some z => (1 <= z)%Z | None => 0 < plen end ->
  exists c', 0 < c' /\ match c with Some z => Z.of_nat c' = z
                            | None => (c' - 1) * (plen * 4) < length xs <= c' * (plen * 4) end /\
    snd (step procs s (LMap f xs c plen pf)) = AJob V E (s_ctr s) /\
    submitted (fst (step procs s (LMap f xs c plen pf))) (s_ctr s) (JMap f xs c') pf.
Proof.
  intros A V E procs s f xs c plen pf R NX HC. cbn [step]. unfold running. rewrite R. unfold map_chunksize.
  assert (L : 0 < length xs) by (destruct xs; [congruence|cbn; lia]).
  assert (NZ : (length xs =? 0) = false) by (apply Nat.eqb_neq; lia).
  assert (G : forall z, (1 <= z)%Z -> exists c', 0 < c' /\ Z.of_nat c' = z /\
     let p := if (z <? 0)%Z then (bump s, ARaise V E EValue) else submit (JMap f xs (Z.to_nat z)) pf s in
     snd p = AJob V E (s_ctr s) /\ submitted (fst p) (s_ctr s) (JMap f xs c') pf).
  { intros z Hz. exists (Z.to_nat z). split; [lia|]. split; [lia|]. cbv zeta.
    replace (z <? 0)%Z with false by (symmetry; apply Z.ltb_ge; lia). split; [reflexivity|].
    apply (@submit_frame A V E (JMap f xs (Z.to_nat z)) pf s). }
  destruct c as [z|].
  - cbn [bind]. rewrite NZ. destruct (G z HC) as (c' & ? & ? & ? & ?). eauto 10.
  - replace (plen =? 0) with false by (symmetry; apply Nat.eqb_neq; lia). cbn [bind]. rewrite NZ.
    pose proof (Nat.div_mod (length xs) (plen * 4) ltac:(lia)) as DM.
    pose proof (Nat.mod_upper_bound (length xs) (plen * 4) ltac:(lia)) as MU.
    destruct (G (Z.of_nat (length xs / (plen * 4) + (if length xs mod (plen * 4) =? 0 then 0 else 1)))) as (c' & ? & ? & ? & ?).
    + destruct (Nat.eqb_spec (length xs mod (plen * 4)) 0) as [M|M]; [|lia].
      destruct (length xs / (plen * 4)); lia.
    + exists c'. repeat split; auto.
      all: replace c' with (length xs / (plen * 4) + (if length xs mod (plen * 4) =? 0 then 0 else 1)) by lia.
      all: destruct (Nat.eqb_spec (length xs mod (plen * 4)) 0) as [M|M]; nia.
Qed.
Print Assumptions C24_submission.
(* otherwise it is refused: the pool does not run, a negative chunk size, no worker to compute the default from *)
Theorem C24_refused : forall A V E procs (s : st A V E) f xs c plen pf,
  (s_state s <> PRun -> step procs s (LMap f xs c plen pf) = (s, ARaise V E EValue)) /\
  (s_state s = PRun -> c = None -> plen = 0 -> step procs s (LMap f xs c plen pf) = (s, ARaise V E EZeroDiv)) /\
  (forall z, s_state s = PRun -> c = Some z -> (z < 0)%Z -> xs <> [] ->
     snd (step procs s (LMap f xs c plen pf)) = ARaise V E EValue
     /\ s_log (fst (step procs s (LMap f xs c plen pf))) = s_log s).
Proof.
  intros A V E procs s f xs c plen pf. cbn [step]. unfold running. split; [|split].
  - intros N. destruct (s_state s); auto. congruence.
  - intros R -> ->. rewrite R. reflexivity.
  - intros z R -> Hz N. rewrite R. unfold map_chunksize. cbn [bind].
    replace (length xs =? 0) with false by (symmetry; apply Nat.eqb_neq; destruct xs; [congruence|cbn; lia]).
    replace (z <? 0)%Z with true by (symmetry; now apply Z.ltb_lt). auto.
Qed.
Print Assumptions C24_refused.

(* the result is ready exactly when the chunk of every element has been reported *)
Theorem C24_ready : forall A V E procs ls j (f : A -> outcome E V) xs c pf r,
  let s := run procs ls in
  submitted s j (JMap f xs c) pf -> 0 < c -> dget j (s_objs s) = Some r ->
  (obj_get r <> None <-> forall i, i < length xs -> reported s j (i / c)).
Proof.
  intros A V E procs ls j f xs c pf r s HS Hc Hr. assert (I : INV [] s) by apply run_inv.
  destruct (i_obj I _ _ _ HS) as (r' & Hr' & Ok & _). assert (r' = r) by congruence. subst r'.
  pose proof (@inv_valid A V E [] s j _ pf I HS) as Vd.
  cbn [obj_ok] in Ok. replace (c =? 0) with false in Ok by (symmetry; apply Nat.eqb_neq; lia).
  destruct Ok as (val & -> & Hv).
  assert (G : obj_get (RMap (Z.of_nat c) (Z.of_nat (njobs (JMap f xs c)) - Z.of_nat (length (reports j (s_log s)))) val
      (length (reports j (s_log s)) =? njobs (JMap f xs c)) (if length (reports j (s_log s)) =? njobs (JMap f xs c) then [val] else [])) <> None
      <-> length (reports j (s_log s)) = njobs (JMap f xs c)).
  { destruct (Nat.eqb_spec (length (reports j (s_log s))) (njobs (JMap f xs c))) as [Q|Q]; cbn [obj_get]; destruct val; split; intros; congruence. }
  cbv zeta. rewrite G. split.
  - intros Q i Hi. apply (valid_all Vd Q). apply njobs_map; auto.
    pose proof (Nat.mul_div_le i c ltac:(lia)). lia.
  - intros H. apply (@all_reported A V E s j _ pf I HS). intros k Hk. apply njobs_map in Hk; auto.
    specialize (H (k * c) Hk). now rewrite Nat.div_mul in H by lia.
Qed.
Print Assumptions C24_ready.

(* every chunk is reported, or else still queued, executing, on its way back or lost with
   a crashed worker, never both: when nothing is outstanding the result is ready *)
Theorem C24_chunk_accounted : forall A V E procs ls j (f : A -> outcome E V) xs c pf i,
  let s := run procs ls in
  submitted s j (JMap f xs c) pf -> 0 < c -> i < length xs ->
  (reported s j (i / c) \/ outstanding s j (i / c)) /\ ~ (reported s j (i / c) /\ outstanding s j (i / c)).
Proof.
  intros A V E procs ls j f xs c pf i s HS Hc Hi. assert (I : INV [] s) by apply run_inv.
  apply (@accounted A V E s j _ pf (i / c) I HS). apply njobs_map; auto.
  pose proof (Nat.mul_div_le i c ltac:(lia)). lia.
Qed.
Print Assumptions C24_chunk_accounted.

(* when get returns, it returns [f(x) for x in iterable], in order *)
Theorem C24_value : forall A V E procs ls j (f : A -> outcome E V) xs c pf r l,
  let s := run procs ls in
  submitted s j (JMap f xs c) pf -> 0 < c -> dget j (s_objs s) = Some r ->
  obj_get r = Some (GList E l) ->
  exists vs, Forall2 (fun x v => f x = Good v) xs vs /\ l = map Some vs.
Proof.
  intros A V E procs ls j f xs c pf r l s HS Hc Hr Hg. assert (I : INV [] s) by apply run_inv.
  assert (RD : forall i, i < length xs -> reported s j (i / c)).
  { apply (proj1 (@C24_ready A V E procs ls j f xs c pf r HS Hc Hr)). congruence. }
  destruct (i_obj I _ _ _ HS) as (r' & Hr' & Ok & _). assert (r' = r) by congruence. subst r'.
  cbn [obj_ok] in Ok. replace (c =? 0) with false in Ok by (symmetry; apply Nat.eqb_neq; lia).
  destruct Ok as (val & -> & Hv). cbv zeta in Hg.
  destruct (length (reports j (s_log s)) =? njobs (JMap f xs c)); [|destruct val; discriminate].
  cbn in Hg. destruct (first_bad _); [subst val; discriminate|].
  destruct Hv as (l' & -> & Ll & Hl). injection Hg as ->.
  assert (P : forall i x, nth_error xs i = Some x -> exists v, nth_error l i = Some (Some v) /\ f x = Good v).
  { intros i x Hx. destruct (RD i) as (o & Ho); [apply nth_error_Some; congruence|]. eapply Hl; eauto. }
  clear - Ll P. revert l Ll P. induction xs as [|x xs IH]; intros [|y l] Ll P; cbn in Ll; try lia.
  - exists []. auto.
  - destruct (P 0 x eq_refl) as (v & Q & Fx). cbn in Q. injection Q as ->.
    destruct (IH l) as (vs & ? & ->); [lia|intros i z Hz; apply (P (S i) z Hz)|]. exists (v :: vs). auto.
Qed.
Print Assumptions C24_value.

(* if get raises, it raises the exception of a task that failed: the one reported first *)
Theorem C24_raise : forall A V E procs ls j (f : A -> outcome E V) xs c pf r e,
  let s := run procs ls in
  submitted s j (JMap f xs c) pf -> 0 < c -> dget j (s_objs s) = Some r ->
  obj_get r = Some (GRaise V e) ->
  exists pre k post, reports j (s_log s) = pre ++ (k, Bad e) :: post /\
    (forall k' o, In (k', o) pre -> exists p, o = Good p) /\ chunk_result f pf xs c k (Bad e).
Proof.
  intros A V E procs ls j f xs c pf r e s HS Hc Hr Hg. assert (I : INV [] s) by apply run_inv.
  destruct (i_obj I _ _ _ HS) as (r' & Hr' & Ok & _). assert (r' = r) by congruence. subst r'.
  pose proof (@inv_valid A V E [] s j _ pf I HS) as Vd.
  cbn [obj_ok] in Ok. replace (c =? 0) with false in Ok by (symmetry; apply Nat.eqb_neq; lia).
  destruct Ok as (val & -> & Hv). cbv zeta in Hg.
  destruct (length (reports j (s_log s)) =? njobs (JMap f xs c)); [|destruct val; discriminate].
  cbn in Hg. destruct (first_bad (reports j (s_log s))) as [e'|] eqn:FB.
  - subst val. injection Hg as ->. destruct Vd as [_ Fv]. revert FB Fv. clear - Hc. induction (reports j (s_log s)) as [|[k [p|e']] q IH]; cbn; intros FB Fv; [discriminate| |].
    + apply Forall_inv_tail in Fv. destruct (IH FB Fv) as (pre & k' & post & -> & Hp & Cr). exists ((k, Good p) :: pre), k', post.
      split; auto. split; auto. intros k2 o [Q|Q]; [injection Q as <- <-; eauto|eauto].
    + injection FB as ->. exists [], k, q. split; auto. split; [intros ? ? []|]. apply Forall_inv in Fv. cbn in Fv. now apply out_map_chunk.
  - destruct Hv as (l & -> & _). discriminate.
Qed.
Print Assumptions C24_raise.

(* get never returns values once some chunk failed *)
Theorem C24_failure_raises : forall A V E procs ls j (f : A -> outcome E V) xs c pf r x e,
  let s := run procs ls in
  submitted s j (JMap f xs c) pf -> 0 < c -> dget j (s_objs s) = Some r ->
  In x xs -> f x = Bad e -> obj_get r <> None -> exists e', obj_get r = Some (GRaise V e').
Proof.
  intros A V E procs ls j f xs c pf r x e s HS Hc Hr Ix Fx G.
  destruct (obj_get r) as [[p|l|e']|] eqn:Q; [| |eauto|congruence].
  - assert (I : INV [] s) by apply run_inv.
    destruct (i_obj I _ _ _ HS) as (r' & Hr' & Ok & _). assert (r' = r) by congruence. subst r'.
    cbn [obj_ok] in Ok. replace (c =? 0) with false in Ok by (symmetry; apply Nat.eqb_neq; lia).
    destruct Ok as (val & -> & _). cbv zeta in Q. destruct (length (reports j (s_log s)) =? njobs (JMap f xs c)); destruct val; cbn in Q; discriminate.
  - destruct (@C24_value A V E procs ls j f xs c pf r l HS Hc Hr Q) as (vs & F2 & _). exfalso.
    clear - F2 Ix Fx. induction F2; [contradiction|]. destruct Ix as [->|Ix]; [congruence|auto].
Qed.
Print Assumptions C24_failure_raises.

Example C24_nonvacuous :
  let f := fun x => if x =? 99 then Bad 7 else Good (x * x) in
  let sub := [LMap f [1;2;3;4;5] (Some 2%Z) 2 (fun _ => None); LTake nat nat nat 0; LTake _ _ _ 1; LFinish _ _ _ 1; LTake _ _ _ 1;
              LFinish _ _ _ 1; LResult _ _ _; LResult _ _ _] in
  let s1 := run 2 sub in
  let s2 := run 2 (sub ++ [LFinish _ _ _ 0; LResult _ _ _]) in
  (exists r, dget 0 (s_objs s1) = Some r /\ obj_get r = None) /\
  map fst (reports 0 (s_log s2)) = [1; 2; 0] /\
  (exists r, dget 0 (s_objs s2) = Some r /\ obj_get r = Some (GList nat [Some 1; Some 4; Some 9; Some 16; Some 25])).
Proof. vm_compute. repeat split; eauto. Qed.

(* ---- C25 ---- *)
(* imap: after m items the m first chunk results have been handed out, in order *)
Theorem C25_imap_in_order : forall A V E procs ls j (f : A -> outcome E V) xs c pf,
  let s := run procs ls in
  submitted s j (JIter true f xs c) pf ->
  Forall2 (chunk_result f pf xs c) (seq 0 (length (yields j (s_log s)))) (yields j (s_log s)).
Proof.
  intros A V E procs ls j f xs c pf s HS. assert (I : INV [] s) by apply run_inv.
  pose proof (i_size I _ _ _ HS) as Sz. cbn in Sz.
  destruct (i_obj I _ _ _ HS) as (r & Hr & (idx & items & uns & -> & N & Fi & D & G & F2) & _).
  set (ys := yields j (s_log s)) in *.
  assert (L : idx = length ys + length items).
  { apply Forall2_len in F2. rewrite seq_length, app_length in F2. exact F2. }
  rewrite L, seq_app in F2. cbn in F2. apply Forall2_app_inv_l in F2 as (a & b & Ha & Hb & Q).
  assert (La : length ys = length a). { apply Forall2_len in Ha. now rewrite seq_length in Ha. }
  apply app_eq_split in Q as [-> _]; [|auto].
  eapply Forall2_impl'; [|exact Ha]. intros k o HO. now apply out_iter_chunk in HO as [HO _].
Qed.
Print Assumptions C25_imap_in_order.

(* imap_unordered: the items handed out are results of pairwise distinct chunks *)
Theorem C25_unordered_once : forall A V E procs ls j (f : A -> outcome E V) xs c pf,
  let s := run procs ls in
  submitted s j (JIter false f xs c) pf ->
  exists ks, NoDup ks /\ Forall2 (chunk_result f pf xs c) ks (yields j (s_log s)) /\
    forall k, In k ks -> reported s j k.
Proof.
  intros A V E procs ls j f xs c pf s HS. assert (I : INV [] s) by apply run_inv.
  pose proof (i_size I _ _ _ HS) as Sz. cbn in Sz.
  destruct (i_obj I _ _ _ HS) as (r & Hr & (items & -> & Q) & _).
  destruct (@inv_valid A V E [] s j _ pf I HS) as [ND Fv].
  set (ys := yields j (s_log s)) in *. set (m := length ys).
  exists (map fst (firstn m (reports j (s_log s)))).
  assert (Y : ys = map snd (firstn m (reports j (s_log s)))).
  { rewrite <- firstn_map, <- Q. unfold m. rewrite firstn_app, Nat.sub_diag, firstn_all. cbn. now rewrite app_nil_r. }
  split; [|split].
  - rewrite <- firstn_map. clear - ND. rewrite <- (firstn_skipn m (map fst _)) in ND. now apply NoDup_app_l in ND.
  - rewrite Y. assert (Ff : Forall (fun p => chunk_result f pf xs c (fst p) (snd p)) (firstn m (reports j (s_log s)))).
    { apply Forall_forall. intros p Hp. rewrite Forall_forall in Fv. assert (Hp' : In p (reports j (s_log s))).
      { rewrite <- (firstn_skipn m (reports j (s_log s))). apply in_app_iff. auto. }
      apply Fv in Hp'. now apply out_iter_chunk in Hp' as [Hp' _]. }
    clear - Ff. induction Ff; cbn; auto.
  - intros k Hk. apply in_map_iff in Hk as ([k' o] & <- & Ho). exists o.
    rewrite <- (firstn_skipn m (reports j (s_log s))). apply in_app_iff. auto.
Qed.
Print Assumptions C25_unordered_once.

(* with chunk size 1 the items are the single results *)
Theorem C25_single_items : forall A V E procs ls j b (f : A -> outcome E V) xs pf o p,
  let s := run procs ls in
  submitted s j (JIter b f xs 1) pf -> In o (yields j (s_log s)) -> o = Good p ->
  exists x v, In x xs /\ f x = Good v /\ p = PV v.
Proof.
  intros A V E procs ls j b f xs pf o p s HS Ho ->. assert (I : INV [] s) by apply run_inv.
  assert (OO : exists k, out_of (JIter b f xs 1) pf k (Good p)).
  { destruct (i_obj I _ _ _ HS) as (r & Hr & Ok & _). destruct b.
    - destruct Ok as (idx & items & uns & -> & N & Fi & D & G & F2).
      assert (Io : In (Good p) (yields j (s_log s) ++ items)) by (apply in_app_iff; auto).
      clear - F2 Io. induction F2; [contradiction|]. destruct Io as [->|Io]; eauto.
    - destruct Ok as (items & -> & Q).
      assert (Io : In (Good p) (map snd (reports j (s_log s)))) by (rewrite <- Q; apply in_app_iff; auto).
      apply in_map_iff in Io as ([k o] & Eo & Io). cbn in Eo. subst o.
      destruct (@inv_valid A V E [] s j _ pf I HS) as [_ Fv]. rewrite Forall_forall in Fv. apply Fv in Io. eauto. }
  destruct OO as (k & OO). pose proof OO as OO'. apply out_iter_chunk in OO' as [CR PVx]; [|lia].
  destruct (PVx eq_refl p eq_refl) as (v & ->). destruct CR as [Kb CR].
  destruct (nth_error xs k) as [x|] eqn:X; [|apply nth_error_None in X; lia].
  rewrite (chunk1 _ _ X) in CR. destruct (pf k); [contradiction|]. cbn in CR. inversion CR; subst.
  exists x, v. split; [eapply nth_error_In; eauto|auto].
Qed.
Print Assumptions C25_single_items.

(* StopIteration only after every chunk has been handed out *)
Theorem C25_stop_complete : forall A V E procs ls j b (f : A -> outcome E V) xs c pf,
  let s := run procs ls in
  submitted s j (JIter b f xs c) pf ->
  snd (step procs s (LNext A V E j)) = AStop V E ->
  forall k, k * c < length xs <-> k < length (yields j (s_log s)).
Proof.
  intros A V E procs ls j b f xs c pf s HS St. assert (I : INV [] s) by apply run_inv.
  pose proof (i_size I _ _ _ HS) as Sz. cbn in Sz.
  destruct (i_obj I _ _ _ HS) as (r & Hr & Ok & _). cbn [step] in St. rewrite Hr in St.
  intro k. rewrite <- (@njobs_iter A V E b f xs c k Sz).
  enough (length (yields j (s_log s)) = njobs (JIter b f xs c)) by lia.
  destruct b.
  - destruct Ok as (idx & items & uns & -> & N & Fi & D & G & F2). destruct items as [|o items]; [|cbn in St; discriminate].
    cbn [obj_next] in St. destruct (Nat.eqb_spec idx (njobs (JIter true f xs c))); [|discriminate].
    apply Forall2_len in F2. rewrite seq_length, app_nil_r in F2. lia.
  - destruct Ok as (items & -> & Q). destruct items as [|o items]; [|cbn in St; discriminate].
    cbn [obj_next] in St. destruct (Nat.eqb_spec (length (reports j (s_log s))) (njobs (JIter false f xs c))); [|discriminate].
    rewrite app_nil_r in Q. apply (f_equal (@length _)) in Q. rewrite map_length in Q. lia.
Qed.
Print Assumptions C25_stop_complete.

(* next waits only while the result it has to deliver has not been reported *)
Theorem C25_wait_only_if_missing : forall A V E procs ls j b (f : A -> outcome E V) xs c pf,
  let s := run procs ls in
  submitted s j (JIter b f xs c) pf ->
  snd (step procs s (LNext A V E j)) = AWait V E ->
  if b then ~ reported s j (length (yields j (s_log s)))
  else length (yields j (s_log s)) = length (reports j (s_log s)) /\
       exists k, k * c < length xs /\ ~ reported s j k.
Proof.
  intros A V E procs ls j b f xs c pf s HS St. assert (I : INV [] s) by apply run_inv.
  pose proof (i_size I _ _ _ HS) as Sz. cbn in Sz.
  destruct (i_obj I _ _ _ HS) as (r & Hr & Ok & _). cbn [step] in St. rewrite Hr in St. destruct b.
  - destruct Ok as (idx & items & uns & -> & N & Fi & D & G & F2). destruct items as [|o items]; [|cbn in St; discriminate].
    apply Forall2_len in F2. rewrite seq_length, app_nil_r in F2. rewrite <- F2.
    intros (o & Ho). assert (dget idx uns = Some o) by (apply D; auto). congruence.
  - destruct Ok as (items & -> & Q). destruct items as [|o items]; [|cbn in St; discriminate].
    cbn [obj_next] in St. destruct (Nat.eqb_spec (length (reports j (s_log s))) (njobs (JIter false f xs c))) as [|Ne]; [discriminate|].
    rewrite app_nil_r in Q. apply (f_equal (@length _)) in Q. rewrite map_length in Q. split; auto.
    assert (L : length (reports j (s_log s)) < njobs (JIter false f xs c)).
    { pose proof (valid_len (@inv_valid A V E [] s j _ pf I HS)). lia. }
    destruct (existsb (fun k => negb (existsb (Nat.eqb k) (map fst (reports j (s_log s))))) (seq 0 (njobs (JIter false f xs c)))) eqn:X.
    + apply existsb_exists in X as (k & Hk & Nk). apply in_seq in Hk. exists k. split; [apply njobs_iter with (b := false) (f := f); auto; lia|].
      intros (o & Ho). apply negb_true_iff in Nk. rewrite (proj2 (existsb_exists _ _)) in Nk; [discriminate|].
      exists k. split; [apply in_map_iff; exists (k, o); auto|apply Nat.eqb_refl].
    + exfalso. apply Ne. apply (valid_full (@inv_valid A V E [] s j _ pf I HS)). intros k Hk.
      destruct (existsb (Nat.eqb k) (map fst (reports j (s_log s)))) eqn:Y.
      * apply existsb_exists in Y as (k' & Hk' & Ek). apply Nat.eqb_eq in Ek. subst k'. apply in_map_iff in Hk' as ([k' o] & <- & Ho). eauto.
      * exfalso. rewrite (proj2 (existsb_exists _ _)) in X; [discriminate|]. exists k. split; [apply in_seq; lia|now rewrite Y].
Qed.
Print Assumptions C25_wait_only_if_missing.

(* chunked imap: flattening the items after StopIteration gives [f(x) for x in iterable] *)
Theorem C25_chunked_value : forall A V E procs ls j (f : A -> outcome E V) xs c pf vss,
  let s := run procs ls in
  submitted s j (JIter true f xs c) pf ->
  snd (step procs s (LNext A V E j)) = AStop V E ->
  yields j (s_log s) = map (fun p => Good p) vss ->
  Forall2 (fun x v => f x = Good v) xs (concat (map (@pvals V) vss)).
Proof.
  intros A V E procs ls j f xs c pf vss s HS St Y.
  pose proof (@C25_imap_in_order A V E procs ls j f xs c pf HS) as O.
  pose proof (@C25_stop_complete A V E procs ls j true f xs c pf HS St) as K. fold s in O, K.
  rewrite Y, map_length in O, K. assert (I : INV [] s) by apply run_inv.
  pose proof (i_size I _ _ _ HS) as Sz. cbn in Sz. clear - O K Sz.
  assert (CK : forall k p, nth_error vss k = Some p -> Forall2 (fun x v => f x = Good v) (chunk_of xs c k) (pvals p)).
  { intros k p Hp. assert (Hk : k < length vss) by (apply nth_error_Some; congruence).
    assert (CR : chunk_result f pf xs c k (Good p)).
    { clear - O Hp Hk. set (a := 0) in O. replace k with (a + k) by (unfold a; lia). clearbody a. revert a k O Hp Hk.
      induction vss as [|q vss IH]; intros a [|k] O Hp Hk; cbn in *; try discriminate; try lia; inversion O; subst.
      - injection Hp as ->. now rewrite Nat.add_0_r.
      - rewrite Nat.add_succ_r. apply (IH (S a) k); auto. lia. }
    destruct CR as [_ CR]. destruct (pf k); [contradiction|exact CR]. }
  clear O. revert xs K CK. induction vss as [|p vss IH]; intros xs K CK; cbn.
  - assert (~ 0 * c < length xs) by (intro H; apply K in H; cbn in H; lia). destruct xs; [constructor|cbn in *; lia].
  - rewrite <- (firstn_skipn c xs). apply Forall2_app.
    + specialize (CK 0 p eq_refl). unfold chunk_of in CK. exact CK.
    + apply IH.
      * intro k. specialize (K (S k)). cbn [length] in K. rewrite skipn_length. cbn [Nat.mul] in K. split; intro H.
        -- assert (c + k * c < length xs) by lia. apply K in H0. lia.
        -- assert (S k < S (length vss)) by lia. apply K in H0. lia.
      * intros k q Hq. specialize (CK (S k) q Hq). unfold chunk_of in *. rewrite skipn_skipn'. exact CK.
Qed.
Print Assumptions C25_chunked_value.

Example C25_nonvacuous :
  let f := fun x => if x =? 3 then Bad 7 else Good (x * x) in
  let go b := [LIter b f [2;3;4] 1%Z (fun _ => None); LTake nat nat nat 0; LTake _ _ _ 1; LFinish _ _ _ 1; LTake _ _ _ 1;
              LFinish _ _ _ 1; LResult _ _ _; LNext _ _ _ 0; LResult _ _ _; LFinish _ _ _ 0; LResult _ _ _;
              LNext _ _ _ 0; LNext _ _ _ 0; LNext _ _ _ 0] in
  yields 0 (s_log (run 2 (go true ))) = [Good (PV 4); Bad 7; Good (PV 16)] /\
  yields 0 (s_log (run 2 (go false))) = [Bad 7; Good (PV 16); Good (PV 4)] /\
  snd (step 2 (run 2 (go true)) (LNext _ _ _ 0)) = AStop _ _.
Proof. vm_compute. auto. Qed.

(* ---- C26 ---- *)
(* After close, once every submitted task has completed, no job is pending - provided
   imap / imap_unordered was never called on an empty input. *)
Theorem C26_cache_drained_partial : forall A V E procs ls,
  let s := @run A V E procs ls in
  all_completed s -> (forall j jb pf, submitted s j jb pf -> ~ empty_iter jb) -> s_cache s = [].
Proof. intros A V E procs ls s AC NE. apply completed_cache; auto. apply run_inv. Qed.
Print Assumptions C26_cache_drained_partial.

(* From then on no step other than terminate() lets join() wait for more, and while it
   still waits, some handler thread or worker can always go on and finish. *)
Theorem C26_join_returns_partial : forall A V E procs ls,
  let s := @run A V E procs ls in
  s_state s = PClose -> all_completed s -> (forall j jb pf, submitted s j jb pf -> ~ empty_iter jb) ->
  (forall l, l <> LTerm _ _ _ ->
     let s' := fst (step procs s l) in
     s_state s' = PClose /\ all_completed s' /\ s_cache s' = [] /\ waiting_for s' <= waiting_for s) /\
  (joinable s \/
   exists l, (l = LHandler _ _ _ \/ l = LResult _ _ _ \/ exists w, l = LTake _ _ _ w) /\
     waiting_for (fst (step procs s l)) < waiting_for s).
Proof.
  intros A V E procs ls s St AC NE.
  assert (Ca : s_cache s = []) by (apply completed_cache; auto; apply run_inv).
  assert (T : TI s) by apply TI_run. assert (Qt : quiet s) by (repeat split; auto; apply AC). split.
  - intros l Nl. destruct (@quiet_step A V E procs s l T Qt Nl) as [(a & b & c) d]. auto.
  - destruct (Nat.eq_dec (waiting_for s) 0) as [Z|Z]; [left|right; apply quiet_progress; auto; lia].
    unfold waiting_for in Z. unfold joinable. destruct (s_wh s), (s_rh s); cbn in Z; try lia; auto.
Qed.
Print Assumptions C26_join_returns_partial.

(* There are always as many workers as asked for, some of them maybe dead; maintaining the pool leaves none dead. *)
Theorem C26_workers : forall A V E procs ls,
  let s := @run A V E procs ls in
  length (s_pool s) = procs /\
  (s_wh s = true -> s_state s = PRun ->
   let s' := fst (step procs s (LHandler _ _ _)) in
   length (s_pool s') = procs /\ forallb (@alive A V E) (s_pool s') = true /\
   forall t, In (WBusy t) (s_pool s) <-> In (WBusy t) (s_pool s')).
Proof.
  intros A V E procs ls.
  assert (FL : forall l : list (wstate A V E), length (filter (@alive A V E) l) <= length l).
  { induction l as [|w l IH]; cbn; [lia|]. destruct (alive w); cbn; lia. }
  assert (M : forall l : list (wstate A V E), length l = procs -> length (maintain procs l) = procs).
  { intros l L. unfold maintain. rewrite app_length, repeat_length. specialize (FL l). lia. }
  assert (Lg : forall es (s : st A V E), s_pool (fold_left (fun s e => add_log e s) es s) = s_pool s).
  { induction es as [|e es IH]; intros s; cbn; auto. now rewrite IH. }
  assert (P : forall s l, length (s_pool s) = procs -> length (s_pool (fst (@step A V E procs s l))) = procs).
  { intros s l L. destruct l; cbn [step].
    - destruct (running s); [|exact L]. destruct (submit_frame (JApply f x) pf s) as (_ & _ & c & _). now rewrite c.
    - destruct (running s); [|exact L]. destruct (map_chunksize _ _ _) as [z|]; [|exact L].
      destruct (z <? 0)%Z; [exact L|]. destruct (submit_frame (JMap f xs (Z.to_nat z)) pf s) as (_ & _ & Q & _). now rewrite Q.
    - destruct (running s); [|exact L]. destruct (c <? 1)%Z; [exact L|].
      destruct (submit_frame (JIter ordered f xs (Z.to_nat c)) pf s) as (_ & _ & Q & _). now rewrite Q.
    - destruct (dget j (s_objs s)) as [r|]; [|exact L]. destruct (obj_next r) as [r' []]; exact L.
    - destruct (nth_error (s_pool s) w) as [[|t|]|]; try exact L.
      destruct (s_in s) as [|[t|] q]; try exact L; cbn [fst set_in set_pool s_pool]; now rewrite upd_length.
    - destruct (nth_error (s_pool s) w) as [[|t|]|]; try exact L. cbn [fst set_out set_pool s_pool]. now rewrite upd_length.
    - destruct (nth_error (s_pool s) w) as [[|t|]|]; try exact L; cbn [fst add_log set_pool s_pool]; now rewrite upd_length.
    - destruct (s_rh s); [|exact L]. destruct (keep_going s); [|exact L]. destruct (s_out s) as [|[[j k] o] q]; [exact L|].
      cbn [fst]. destruct (report_frame j k o (set_out q s)) as (_ & _ & c & _). rewrite c. exact L.
    - destruct (s_wh s); [|exact L]. destruct (keep_going s); [|exact L]. cbn [fst set_pool s_pool]. auto.
    - destruct (running s); exact L.
    - exact L.
    - destruct (s_state s); try exact L. destruct (s_wh s || s_rh s)%bool; [exact L|]. cbn [fst]. rewrite Lg.
      cbn [set_pool s_pool]. now rewrite map_length. }
  intros s. assert (L : length (s_pool s) = procs).
  { unfold s, run. rewrite <- fold_left_rev_right. induction (rev ls) as [|l r IH]; cbn; [apply repeat_length|]. apply P, IH. }
  split; [exact L|]. intros Wh R s'. assert (Es : s_pool s' = maintain procs (s_pool s)).
  { unfold s'. cbn [step]. rewrite Wh. unfold keep_going. rewrite R. reflexivity. }
  rewrite Es. split; [now apply M|]. unfold maintain. split.
  - rewrite forallb_app. apply andb_true_iff. split; apply forallb_forall; intros w H.
    + apply filter_In in H. tauto.
    + apply repeat_spec in H. now subst w.
  - intros t. rewrite in_app_iff, filter_In. split; [intros I; left; split; auto|].
    intros [[I _]|I]; auto. apply repeat_spec in I. discriminate.
Qed.
Print Assumptions C26_workers.

(* An imap over an empty input is never removed from the cache: neither handler thread
   ever ends unless the pool is terminated.  The same holds when a worker dies with a task. *)
Theorem C26_empty_imap_refuted : forall A V E procs ls j jb pf,
  let s := @run A V E procs ls in
  submitted s j jb pf -> empty_iter jb \/ (exists k, In (ELost A V E j k) (s_log s)) ->
  s_state s <> PTerm -> s_wh s = true /\ s_rh s = true.
Proof.
  intros A V E procs ls j jb pf s HS H NT. assert (Ij : In j (s_cache s)) by (eapply stuck_cache; eauto; apply run_inv).
  destruct (TI_run (A := A) (V := V) (E := E) procs ls) as (_ & _ & T3). fold s in T3.
  destruct (s_wh s), (s_rh s); auto; destruct T3 as [Q|[_ Q]]; auto; try congruence; rewrite Q in Ij; contradiction.
Qed.
Print Assumptions C26_empty_imap_refuted.

Example C26_refuted_witness :
  let s := run 2 [LIter true (fun x : nat => @Good nat nat x) [] 1%Z (fun _ => None); LClose _ _ _] in
  s_state s = PClose /\ all_completed s /\ s_cache s = [0] /\ s_wh s = true.
Proof.
  vm_compute. repeat split; auto; try (intros t H; intuition discriminate); intros j k H; intuition discriminate.
Qed.

Example C26_nonvacuous :
  let pre := [LApply (fun x : nat => @Good nat nat (x + 1)) 4 (fun _ => None); LMap (fun x : nat => @Good nat nat x) [1;2] None 2 (fun k => if k =? 1 then Some 9 else None);
              LTake _ _ _ 0; LClose _ _ _; LTake _ _ _ 1; LFinish _ _ _ 1; LFinish _ _ _ 0; LResult _ _ _; LHandler _ _ _; LResult _ _ _] in
  let s := run 2 pre in
  s_state s = PClose /\ s_cache s = [] /\ waiting_for s = 4 /\
  waiting_for (run 2 (pre ++ [LHandler _ _ _; LTake _ _ _ 1; LResult _ _ _; LTake _ _ _ 0])) = 0.
Proof. vm_compute. auto. Qed.

(* ---- C27 ---- *)
Theorem C27_distinct_contexts : forall C (ctxs : list C) ls,
  Forall fair_order ls ->
  let p := running_procs (crun ctxs ls) in
  (forall i i' w w', nth_error p i = Some w -> nth_error p i' = Some w' -> i <> i' -> c_id w <> c_id w') /\
  (forall w, In w p -> c_id w < length ctxs /\ c_ctx w = nth_error ctxs (c_id w)) /\
  (NoDup ctxs -> forall i i' w w', nth_error p i = Some w -> nth_error p i' = Some w' -> i <> i' -> c_ctx w <> c_ctx w').
Proof.
  intros C ctxs ls F p. destruct (CI_run ctxs F) as (N' & O' & Gn & _).
  assert (Ep : p = filter (@c_alive C) (cp_pool (crun ctxs ls))).
  { unfold p, running_procs. rewrite filter_app.
    replace (filter (@c_alive C) (cp_gone (crun ctxs ls))) with (@nil (cworker C)); [reflexivity|].
    clear - Gn. induction Gn as [|w l H _ IH]; cbn; auto. now rewrite H. }
  assert (N : NoDup (map (@c_id C) p)).
  { rewrite Ep. clear - N'. induction (cp_pool (crun ctxs ls)) as [|w l IH]; cbn in *; [constructor|].
    inversion N'; subst. destruct (c_alive w); auto. cbn. constructor; auto. intro H. apply H1.
    apply in_map_iff in H as (v & <- & H). apply filter_In in H as [H _]. now apply in_map. }
  assert (O : forall w, In w p -> own_context ctxs w).
  { rewrite Ep. intros w H. apply filter_In in H as [H _]. rewrite Forall_forall in O'. auto. }
  assert (D : forall i i' w w', nth_error p i = Some w -> nth_error p i' = Some w' -> i <> i' -> c_id w <> c_id w').
  { intros i i' w w' H H' Ne Q. apply Ne. rewrite NoDup_nth_error in N. apply N.
    - rewrite map_length. apply nth_error_Some. congruence.
    - rewrite !nth_error_map, H, H'. cbn. now rewrite Q. }
  split; [exact D|]. split; [intros w Hw; apply (O w Hw)|].
  intros Nc i i' w w' H H' Ne Q. apply (D _ _ _ _ H H' Ne).
  destruct (O w) as [L Ew]; [eapply nth_error_In; eauto|]. destruct (O w') as [L' Ew']; [eapply nth_error_In; eauto|].
  rewrite NoDup_nth_error in Nc. apply Nc; auto. congruence.
Qed.
Print Assumptions C27_distinct_contexts.

(* when the maintenance pass is over, every context is used by exactly one worker *)
Theorem C27_all_contexts_used : forall C (ctxs : list C) ls,
  Forall fair_order ls -> cp_pc (crun ctxs ls) = MIdle ->
  Permutation (map (@c_id C) (cp_pool (crun ctxs ls))) (seq 0 (length ctxs)).
Proof.
  intros C ctxs ls F Pc. destruct (CI_run ctxs F) as (N & O & _ & L). rewrite Pc in L.
  apply NoDup_Permutation_bis; auto.
  - rewrite map_length, seq_length. lia.
  - intros i H. apply in_map_iff in H as (w & <- & Hw). rewrite Forall_forall in O. apply O in Hw as [Hw _]. apply in_seq. lia.
Qed.
Print Assumptions C27_all_contexts_used.

(* a worker that died is replaced by a living one with the same context in the next maintenance pass in which no other
   worker dies; the workers that are alive stay *)
Definition maintenance {L : Type} (is_maint : L -> Prop) (ms : list L) : Prop := ms <> [] /\ Forall is_maint ms.
Definition is_cmaint (l : clabel) : Prop := exists order, l = CMaint order.
Definition reaped {C} (s : cpool C) : Prop :=
  match cp_pc s with
  | MReap i => Forall (fun w => c_alive w = true) (skipn i (cp_pool s))
  | _ => Forall (fun w => c_alive w = true) (cp_pool s)
  end.
Lemma skipn_nth {A} i (l : list A) x : nth_error l i = Some x -> skipn i l = x :: skipn (S i) l.
Proof. revert l; induction i as [|i IH]; intros [|y l]; cbn [nth_error skipn]; try discriminate; [now intros [= ->]|]. intros E. rewrite (IH l E). reflexivity. Qed.
Lemma skipn_remove {A} i (l : list A) : i < length l -> skipn i (remove_at i l) = skipn (S i) l.
Proof.
  revert l; induction i as [|i IH]; intros [|y l]; cbn [length]; try lia; [reflexivity|]. intros L. unfold remove_at in *.
  cbn [firstn skipn app]. apply IH. lia.
Qed.
Lemma remove_keeps {A} i (l : list A) x w : nth_error l i = Some x -> In w l -> In w (remove_at i l) \/ w = x.
Proof.
  intros E I. rewrite <- (firstn_skipn i l) in I. rewrite (@skipn_nth _ _ _ _ E) in I. unfold remove_at.
  apply in_app_or in I. destruct I as [I|[I|I]]; [left; apply in_or_app; auto|now right|left; apply in_or_app; auto].
Qed.
Lemma maint_step C (ctxs : list C) s o : (cp_pc s = MIdle \/ reaped s) ->
  reaped (cstep ctxs s (CMaint o)) /\
  forall w, In w (cp_pool s ++ cp_gone s) -> In w (cp_pool (cstep ctxs s (CMaint o)) ++ cp_gone (cstep ctxs s (CMaint o))).
Proof.
  intros R. cbn [cstep]. destruct (cp_pc s) as [|[|i]| |[|pid r]] eqn:Pc.
  - split; [unfold reaped, cpc; cbn; rewrite skipn_all; constructor|auto].
  - destruct R as [R|R]; [discriminate|]. unfold reaped in R. rewrite Pc in R. split; [exact R|auto].
  - destruct R as [R|R]; [discriminate|]. unfold reaped in R. rewrite Pc in R.
    destruct (nth_error (cp_pool s) i) as [w|] eqn:E.
    + destruct (c_alive w) eqn:Aw.
      * split; [|auto]. unfold reaped, cpc; cbn [cp_pc cp_pool]. rewrite (@skipn_nth _ _ _ _ E). constructor; auto.
      * split.
        -- unfold reaped, cdel; cbn [cp_pc cp_pool]. rewrite skipn_remove; [exact R|]. apply nth_error_Some. congruence.
        -- intros v V. unfold cdel; cbn [cp_pool cp_gone]. rewrite E. apply in_app_or in V. destruct V as [V|V].
           ++ destruct (@remove_keeps _ i (cp_pool s) w v E V) as [K| ->]; apply in_or_app; [now left|].
              right. apply in_or_app. right. now left.
           ++ apply in_or_app. right. apply in_or_app. now left.
    + split; [|auto]. unfold reaped, cpc; cbn [cp_pc cp_pool]. rewrite skipn_all2; [constructor|]. now apply nth_error_None.
  - destruct R as [R|R]; [discriminate|]. unfold reaped in R. rewrite Pc in R. split; [exact R|auto].
  - destruct R as [R|R]; [discriminate|]. unfold reaped in R. rewrite Pc in R. split; [exact R|auto].
  - destruct R as [R|R]; [discriminate|]. unfold reaped in R. rewrite Pc in R. split.
    + unfold reaped; cbn [cp_pc cp_pool]. apply Forall_app. split; auto.
    + intros w I. cbn [cp_pool cp_gone]. apply in_app_or in I. destruct I as [I|I]; apply in_or_app; [left; apply in_or_app; now left|now right].
Qed.
Lemma maint_run C (ctxs : list C) ms s : maintenance is_cmaint ms -> cp_pc s = MIdle ->
  reaped (fold_left (cstep ctxs) ms s) /\
  forall w, In w (cp_pool s ++ cp_gone s) -> In w (cp_pool (fold_left (cstep ctxs) ms s) ++ cp_gone (fold_left (cstep ctxs) ms s)).
Proof.
  intros [Ne F] Pc. destruct ms as [|m ms]; [congruence|].
  assert (G : forall ms s, Forall is_cmaint ms -> reaped s -> reaped (fold_left (cstep ctxs) ms s) /\
    forall w, In w (cp_pool s ++ cp_gone s) -> In w (cp_pool (fold_left (cstep ctxs) ms s) ++ cp_gone (fold_left (cstep ctxs) ms s))).
  { clear. induction ms as [|m ms IH]; intros s F R; cbn [fold_left]; [auto|]. inversion F as [|x l [o ->] F']; subst.
    destruct (@maint_step C ctxs s o (or_intror R)) as [R1 K1]. destruct (IH _ F' R1) as [R2 K2]. split; auto. }
  inversion F as [|x l [o ->] F']; subst. cbn [fold_left]. destruct (@maint_step C ctxs s o (or_introl Pc)) as [R1 K1].
  destruct (G _ _ F' R1) as [R2 K2]. split; auto.
Qed.
Theorem C27_replaced : forall C (ctxs : list C) ls ms i w,
  let s := crun ctxs ls in let s' := crun ctxs (ls ++ CDie i :: ms) in
  Forall fair_order (ls ++ CDie i :: ms) -> maintenance is_cmaint ms -> cp_pc s = MIdle -> cp_pc s' = MIdle ->
  nth_error (cp_pool s) i = Some w ->
  Forall (fun w' => c_alive w' = true) (cp_pool s') /\
  (exists w', In w' (cp_pool s') /\ c_id w' = c_id w /\ c_ctx w' = c_ctx w /\ c_alive w' = true) /\
  In {| c_id := c_id w; c_ctx := c_ctx w; c_alive := false |} (cp_gone s') /\
  forall j v, j <> i -> nth_error (cp_pool s) j = Some v -> c_alive v = true -> In v (cp_pool s').
Proof.
  intros C ctxs ls ms i w s s' F M Pc Pc' E.
  assert (F1 : Forall fair_order ls) by (apply Forall_app in F; tauto).
  destruct (CI_run ctxs F1) as (_ & O & _ & _). destruct (CI_run ctxs F) as (_ & O' & Gn & _). fold s in O. fold s' in O', Gn.
  assert (Es : s' = fold_left (cstep ctxs) ms (cstep ctxs s (CDie i))) by (unfold s', s, crun; now rewrite fold_left_app).
  set (d := cstep ctxs s (CDie i)) in *.
  assert (Ed : d = {| cp_pool := upd i {| c_id := c_id w; c_ctx := c_ctx w; c_alive := false |} (cp_pool s); cp_gone := cp_gone s; cp_pc := cp_pc s |}).
  { unfold d. cbn [cstep]. now rewrite E. }
  destruct (@maint_run C ctxs ms d M) as [R K]; [rewrite Ed; exact Pc|]. rewrite <- Es in R, K.
  unfold reaped in R. rewrite Pc' in R.
  assert (L : i < length (cp_pool s)) by (apply nth_error_Some; congruence).
  assert (N : forall v, In v (cp_gone s') -> c_alive v = false) by (rewrite Forall_forall in Gn; exact Gn).
  assert (A : forall v, In v (cp_pool s') -> c_alive v = true) by (rewrite Forall_forall in R; exact R).
  split; [exact R|]. split; [|split].
  - pose proof (@C27_all_contexts_used C ctxs _ F Pc') as P. rewrite Forall_forall in O. destruct (O w) as [Lw Cw]; [eapply nth_error_In; eauto|].
    assert (I : In (c_id w) (map (@c_id C) (cp_pool s'))).
    { apply (Permutation_in _ (Permutation_sym P)). apply in_seq. lia. }
    apply in_map_iff in I as (w' & Ew & I). exists w'. split; [exact I|]. split; [exact Ew|]. split; [|now apply A].
    rewrite Forall_forall in O'. destruct (O' w' I) as [_ Cw']. rewrite Cw, Cw'. now rewrite Ew.
  - assert (I : In {| c_id := c_id w; c_ctx := c_ctx w; c_alive := false |} (cp_pool s' ++ cp_gone s')).
    { apply K. apply in_or_app. left. rewrite Ed. cbn [cp_pool]. eapply nth_error_In. now apply upd_same. }
    apply in_app_or in I. destruct I as [I|I]; [apply A in I; discriminate|exact I].
  - intros j v J Ev Av. assert (I : In v (cp_pool s' ++ cp_gone s')).
    { apply K. apply in_or_app. left. rewrite Ed. cbn [cp_pool]. apply nth_error_In with j. rewrite upd_other by auto. exact Ev. }
    apply in_app_or in I. destruct I as [I|I]; [exact I|apply N in I; congruence].
Qed.
Print Assumptions C27_replaced.

Example C27_nonvacuous :
  let m := CMaint (@rev nat) in
  let ls := repeat m 5 ++ [CDie 1; m; m; CDie 2; m; m; m; m; m; CDie 0; m; m; m; m; m; m; m; m; m; m] in
  let s := crun [10;20;30] ls in
  Forall fair_order ls /\ cp_pc s = MIdle /\ map (@c_ctx nat) (cp_pool s) = [Some 20; Some 30; Some 10].
Proof.
  cbv zeta. split; [|vm_compute; auto].
  assert (P : fair_order (CMaint (@rev nat))) by (intro; apply Permutation_sym, Permutation_rev).
  apply Forall_app. split; [apply Forall_forall; intros x H; apply repeat_spec in H; now subst|].
  repeat (apply Forall_cons; [first [exact P|exact I]|]). constructor.
Qed.

(* ---- C54 : every queue of a P2PPool is served by its own worker ---- *)
Theorem C54_initial : forall n, map fst (p2p_repopulate n []) = seq 0 n.
Proof. intro n. unfold p2p_repopulate. cbn. rewrite Nat.sub_0_r, map_map. cbn. apply map_id. Qed.
Print Assumptions C54_initial.

(* holds only when the workers that died are those of the lowest queues *)
Theorem C54_replacement_partial : forall n k p,
  k <= n -> map fst (filter snd p) = seq k (n - k) ->
  Permutation (map fst (p2p_maintain n p)) (seq 0 n).
Proof.
  intros n k p Hk H. unfold p2p_maintain, p2p_repopulate. rewrite map_app, H.
  assert (L : length (filter snd p) = n - k). { rewrite <- (map_length fst), H. apply seq_length. }
  rewrite L, map_map. cbn. rewrite map_id. replace (n - (n - k)) with k by lia.
  replace n with (k + (n - k)) at 2 by lia. rewrite seq_app. apply Permutation_app_comm.
Qed.
Print Assumptions C54_replacement_partial.

(* in general a queue is left without a worker and another one gets two *)
Theorem C54_orphan_queue_refuted : forall n, 2 <= n ->
  let p := p2p_maintain n (p2p_die (n - 1) (p2p_repopulate n [])) in
  length p = n /\ ~ In (n - 1) (map fst p) /\ ~ NoDup (map fst p).
Proof.
  intros n Hn. destruct n as [|m]; [lia|]. cbv zeta. replace (S m - 1) with m by lia.
  set (tr := fun i : nat => (i, true)).
  assert (P0 : p2p_repopulate (S m) [] = map tr (seq 0 m) ++ [(m, true)]).
  { unfold p2p_repopulate. cbn [app length]. rewrite Nat.sub_0_r, seq_S, map_app. reflexivity. }
  assert (P1 : p2p_die m (p2p_repopulate (S m) []) = map tr (seq 0 m) ++ [(m, false)]).
  { rewrite P0. unfold p2p_die. rewrite nth_error_app2 by (rewrite map_length, seq_length; lia).
    rewrite map_length, seq_length, Nat.sub_diag. cbn [nth_error].
    rewrite upd_app2 by (rewrite map_length, seq_length; lia). rewrite map_length, seq_length, Nat.sub_diag. reflexivity. }
  assert (P2 : p2p_maintain (S m) (p2p_die m (p2p_repopulate (S m) [])) = map tr (seq 0 m) ++ [(0, true)]).
  { rewrite P1. unfold p2p_maintain, p2p_repopulate. rewrite filter_app. cbn [filter snd]. rewrite app_nil_r.
    assert (Fl : filter snd (map tr (seq 0 m)) = map tr (seq 0 m)).
    { generalize (seq 0 m). intro l. clear. induction l as [|x l IH]; [reflexivity|]. cbn [map filter]. rewrite IH. reflexivity. }
    rewrite Fl, map_length, seq_length. replace (S m - m) with 1 by lia. reflexivity. }
  rewrite P2, map_app, map_map. cbn [fst map]. rewrite map_id. rewrite app_length, map_length, seq_length. cbn [length].
  split; [lia|]. split.
  - rewrite in_app_iff, in_seq. cbn [In]. lia.
  - intro N. destruct m as [|m]; [lia|]. cbn [seq app] in N. apply NoDup_cons_iff in N as [N _]. apply N. apply in_app_iff. cbn; auto.
Qed.
Print Assumptions C54_orphan_queue_refuted.

Example C54_nonvacuous : map fst (p2p_maintain 3 (p2p_die 0 (p2p_repopulate 3 []))) = [1; 2; 0].
Proof. reflexivity. Qed.

(* ---- C55 : completion callbacks ---- *)
(* apply_async / map_async call their callback exactly once, with what get returns, when the
   result becomes ready - for a map, provided the chunk size in use is at least 1 *)
Theorem C55_callback_once_partial : forall A V E procs ls j (jb : job A V E) pf r,
  let s := run procs ls in
  submitted s j jb pf -> dget j (s_objs s) = Some r ->
  match jb with JApply _ _ => True | JMap _ _ c => 0 < c | JIter _ _ _ _ => False end ->
  map_callbacks r = match obj_get r with Some g => [g] | None => [] end.
Proof.
  intros A V E procs ls j jb pf r s HS Hr HC. assert (I : INV [] s) by apply run_inv.
  destruct (i_obj I _ _ _ HS) as (r' & Hr' & Ok & _). assert (r' = r) by congruence. subst r'.
  destruct jb as [f x|f xs c|]; [| |contradiction].
  - cbn [obj_ok] in Ok. subst r. destruct (reports j (s_log s)) as [|[k [p|e]] q]; reflexivity.
  - cbn [obj_ok] in Ok. replace (c =? 0) with false in Ok by (symmetry; apply Nat.eqb_neq; lia).
    destruct Ok as (val & -> & _). cbv zeta. destruct (length (reports j (s_log s)) =? njobs (JMap f xs c)), val; reflexivity.
Qed.
Print Assumptions C55_callback_once_partial.

(* map_async over an empty iterable is ready at once but never calls back *)
Theorem C55_empty_map_refuted : forall A V E procs (f : A -> outcome E V) c plen pf,
  0 < plen ->
  let s := run procs [LMap f [] c plen pf] in
  exists r, dget 0 (s_objs s) = Some r /\ obj_get r = Some (GList E []) /\ map_callbacks r = [].
Proof.
  intros A V E procs f c plen pf Hp. unfold run. cbn [fold_left step]. unfold map_chunksize. cbn [length].
  destruct c as [z|]; cbn [bind Nat.eqb].
  - cbn. eauto.
  - replace (plen =? 0) with false by (symmetry; apply Nat.eqb_neq; lia). cbn. eauto.
Qed.
Print Assumptions C55_empty_map_refuted.

Example C55_nonvacuous :
  let s := run 1 [LApply (fun x : nat => @Bad nat nat x) 4 (fun _ => None); LTake _ _ _ 0; LFinish _ _ _ 0; LResult _ _ _] in
  exists r, dget 0 (s_objs s) = Some r /\ map_callbacks r = [GRaise _ 4].
Proof. vm_compute. eauto. Qed.
