(* C20 - C23: ordered server, model server, gradient server. *)
From Verif Require Import Lib.Rat Model.Servers Spec.ServerSpec Proofs.ServerProofs Proofs.GradServerProofs.
From Coq Require Import Permutation.
Open Scope nat_scope.

(* ---- C20 ---- *)
(* every history: what a push answers, and a failed push changes nothing *)
Theorem C20_push_success : forall K A (EK : Eqb K) depth (qs : list (oreq K A)) k v ver prev,
  let st := fst (os_run depth [] qs) in
  exists b, snd (os_push depth st k v ver prev) = Ok b /\
    (b = true <-> os_pull st k None = Ok None \/ exists x, os_pull st k None = Ok (Some (x, prev))) /\
    (b = false -> fst (os_push depth st k v ver prev) = st).
Proof.
  intros K A EK depth qs k v ver prev st. assert (W : OW depth st) by (apply OW_run, OW_nil).
  destruct (OW_push k v ver prev W) as (_ & b & E & IFF & NC). exists b. split; auto. split; auto. rewrite IFF.
  unfold os_pull. destruct (dget k st) as [r|] eqn:G; [|split; auto].
  destruct (W k r G) as [NE _]. destruct (snoc_cases r) as [|(l & [w x] & ->)]; [congruence|]. rewrite olast_snoc. split.
  - intros (y & Q). injection Q as -> _. right. eauto.
  - intros [Q|(y & Q)]; [discriminate|]. injection Q as _ ->. eauto.
Qed.
Print Assumptions C20_push_success.

(* every history without version reuse: all answers are those of a compare-and-swap log *)
Theorem C20_compare_and_swap_partial : forall K A (EK : Eqb K) depth (qs : list (oreq K A)),
  no_reuse (S depth) (fun _ => []) qs ->
  snd (os_run depth [] qs) = snd (spec_run (S depth) (fun _ => []) qs).
Proof. intros K A EK depth qs NR. apply (os_run_spec (depth := depth) qs); auto. apply OInv_nil. Qed.
Print Assumptions C20_compare_and_swap_partial.

Example C20_nonvacuous :
  let qs := [OPush 5 70 1 0; OPush 5 71 2 1; OPush 5 72 2 1; OPull 5 None; OPush 5 73 2 2; OPush 5 74 9 2; OPull 5 None; OPull 5 (Some 1); OPull 6 None] in
  no_reuse 2 (fun _ => []) qs /\
  snd (os_run 1 [] qs) = [APush true; APush true; APush false; APull (Some (71, 2)); APush true; APush true; APull (Some (74, 9)); APull None; APull None].
Proof.
  split; [|vm_compute; reflexivity]. cbn. repeat split; auto; try discriminate; intros _; auto; right; lia.
Qed.

(* The unrestricted statement is false: a push that reuses an older retained version number
   succeeds, but pull keeps returning the previous value. *)
Theorem C20_version_reuse_refuted : exists (qs : list (oreq nat nat)) v ver prev,
  let st := fst (os_run 1 [] qs) in
  snd (os_push 1 st 5 v ver prev) = Ok true /\
  os_pull (fst (os_push 1 st 5 v ver prev)) 5 None <> Ok (Some (v, ver)).
Proof. exists [OPush 5 70 1 0; OPush 5 71 2 1], 72, 1, 2. vm_compute. split; auto. discriminate. Qed.
Print Assumptions C20_version_reuse_refuted.

(* ---- C21 ---- *)
Theorem C21_bounded : forall K A (EK : Eqb K) depth (qs : list (oreq K A)) k r,
  dget k (fst (os_run depth [] qs)) = Some r -> 1 <= length r <= depth + 1.
Proof.
  intros K A EK depth qs k r E. assert (W : OW depth (fst (os_run depth [] qs))) by (apply OW_run, OW_nil).
  destruct (W k r E) as [NE LE]. destruct r; [congruence|cbn in *; lia].
Qed.
Print Assumptions C21_bounded.

Theorem C21_most_recent : forall K A (EK : Eqb K) depth (qs : list (oreq K A)) k,
  no_reuse (S depth) (fun _ => []) qs ->
  let st := fst (os_run depth [] qs) in
  let log := fst (spec_run (S depth) (fun _ => []) qs) k in
  NoDup (map fst log) /\
  (log = [] -> forall w, os_pull st k w = Ok None) /\
  (forall w v, In (w, v) (lastn (depth + 1) log) -> os_pull st k (Some w) = Ok (Some (v, w))) /\
  (forall w, ~ In w (map fst (lastn (depth + 1) log)) -> os_pull st k (Some w) = Ok None).
Proof.
  intros K A EK depth qs k NR st log. destruct (os_run_spec (depth := depth) qs (OInv_nil depth) NR) as [_ I].
  specialize (I k). fold st log in I. destruct I as [ND I]. rewrite (Nat.add_comm depth 1). cbn [Nat.add]. unfold os_pull.
  assert (ND2 : NoDup (map fst (lastn (S depth) log))).
  { unfold lastn. rewrite <- (firstn_skipn (length log - S depth) log), map_app in ND.
    clear - ND. revert ND. generalize (firstn (length log - S depth) log). intros a. induction a as [|x r IH]; cbn; auto.
    intros Q. inversion Q; auto. }
  split; auto. destruct (dget k st) as [r|] eqn:E.
  - destruct I as [NE ->]. split; [congruence|]. split.
    + intros w v IN. now rewrite (dget_In _ _ _ ND2 IN).
    + intros w NI. now rewrite (proj2 (dget_None w (lastn (S depth) log)) NI).
  - split; auto. rewrite I. cbn. split; [tauto|auto].
Qed.
Print Assumptions C21_most_recent.

Example C21_nonvacuous :
  let st := fst (os_run 2 [] [OPush 5 70 1 0; OPush 5 71 2 1; OPush 5 72 3 2; OPush 5 73 7 3]) in
  dget 5 st = Some [(2, 71); (3, 72); (7, 73)] /\ os_pull st 5 (Some 1) = Ok None /\ os_pull st 5 (Some 3) = Ok (Some (72, 3)).
Proof. vm_compute. auto. Qed.

(* ---- C22 ---- *)
(* [accepts] lists the accepted pushes (version, parameters) of a run, oldest first. *)
Theorem C22_versions_without_gaps : forall A depth (par : nat -> A) acts,
  let es := snd (ms_run depth (ms_init par) acts) in
  map fst (accepts es) = seq 1 (length (accepts es)) /\ ~ In EvErr es.
Proof.
  intros A depth par acts es. destruct (ms_run_inv acts (ms_init_inv depth par)) as (I & NE & _).
  cbn [app] in I. split; auto. apply (mi_v I).
Qed.
Print Assumptions C22_versions_without_gaps.

(* one more step after any run *)
Theorem C22_push_pull : forall A depth (par : nat -> A) acts a,
  let s := fst (ms_run depth (ms_init par) acts) in
  let log := accepts (snd (ms_run depth (ms_init par) acts)) in
  let s' := fst (ms_step depth s a) in let ev := snd (ms_step depth s a) in
  (* versions of clients never decrease and never exceed the newest one *)
  (forall i, ver_of (ms_cl s i) <= ver_of (ms_cl s' i)) /\
  (forall i, ver_of (ms_cl s i) <= length log) /\
  (* a push is accepted iff the client's version is the newest; then its parameters become
     the next version; a rejected push leaves the server alone *)
  (forall i pof, a = MPush i pof -> cl_wait (ms_cl s i) = false ->
     (ver_of (ms_cl s i) = length log ->
        ev = EvAccept (S (length log)) (cl_par (ms_cl s i)) /\ cl_par (ms_cl s' i) = cl_par (ms_cl s i) /\
        cl_ver (ms_cl s' i) = Some (S (length log)) /\ cl_wait (ms_cl s' i) = false) /\
     (ver_of (ms_cl s i) <> length log -> ev = EvReject /\ ms_srv s' = ms_srv s /\ cl_wait (ms_cl s' i) = pof)) /\
  (* the pull after a rejected push, and pull(), leave the client at the newest version; the
     parameters are the newest accepted ones unless pull() found the version up to date *)
  (forall i, (a = MPullFail i /\ cl_wait (ms_cl s i) = true) \/ (a = MPull i /\ cl_wait (ms_cl s i) = false /\ log <> []) ->
     cl_ver (ms_cl s' i) = Some (length log) /\ cl_wait (ms_cl s' i) = false /\
     (cl_wait (ms_cl s i) = true \/ cl_ver (ms_cl s i) <> Some (length log) -> newest_of log = Some (length log, cl_par (ms_cl s' i)))).
Proof.
  intros A depth par acts a s log s' ev. destruct (ms_run_inv acts (ms_init_inv depth par)) as (I & NE & _). cbn [app] in I.
  fold s log in I. destruct (ms_step_inv a I) as (_ & _ & MO & P1 & P2).
  split; [exact MO|]. split; [exact (mi_c I)|]. split; [exact P1|exact P2].
Qed.
Print Assumptions C22_push_pull.

Example C22_nonvacuous :
  let acts := [MTrain 0 10; MPush 0 true; MTrain 1 20; MPush 1 true; MPush 0 true; MPullFail 1; MTrain 1 21; MPush 1 false; MPull 0] in
  let s := fst (ms_run 1 (ms_init (fun _ => 0)) acts) in
  accepts (snd (ms_run 1 (ms_init (fun _ => 0)) acts)) = [(1, 10); (2, 10); (3, 21)] /\
  cl_par (ms_cl s 0) = 21 /\ cl_ver (ms_cl s 0) = Some 3.
Proof. vm_compute. auto. Qed.

(* ---- C23 ---- *)
(* every interleaving [acts] of client pushes and reducer thread steps, any number n of
   reducers, any primary *)
Theorem C23_each_gradient_once : forall m bsz maxq primary n acts, 0 < bsz ->
  (forall a, In a acts -> match a with GPush i _ => i < n | GStep i _ => i < n end) ->
  let s := g_run m bsz maxq primary g_init acts in
  (* secondary queues: FIFO, nothing lost, nothing duplicated *)
  (forall i, map fst (q_out (r_s (s i))) ++ q_items (r_s (s i)) = pushed_to i acts) /\
  (* the primary's master queue received exactly the results sent by the reducers *)
  Permutation (map fst (q_out (r_m (s primary))) ++ q_items (r_m (s primary))) (flat_map (fun i => sent (s i)) (seq 0 n)) /\
  (* completed batches, for both queues of every reducer: the k-th reduced batch consists of
     exactly the gradients taken out for batch k, has bsz members, and its result is their
     reduction; batches are taken in order *)
  forall i q reds,
   (q = r_s (s i) /\ reds = r_reds (s i)) \/ (q = r_m (s i) /\ reds = r_redm (s i)) ->
    map fst reds = map (fun k => batch_of k (q_out q)) (seq 0 (q_batches q)) /\
    (forall b d, In (b, d) reds -> length b = bsz /\ reduce_batch m b = Ok d) /\
    (forall j1 j2 k1 k2 g1 g2, j1 < j2 -> nth_error (q_out q) j1 = Some (g1, FBatch k1) ->
        nth_error (q_out q) j2 = Some (g2, FBatch k2) -> k1 <= k2).
Proof.
  intros m bsz maxq primary n acts B H s.
  assert (H' : forall a, In a acts -> act_of a < n) by (intros a I; specialize (H a I); destruct a; exact H).
  destruct (g_run_inv m maxq primary B acts H') as [R S NP M]. fold s in R, S, NP, M.
  split; [exact S|]. split; [exact M|]. intros i.
  destruct (R i) as (pm & ps & QM & QS & _). intros q reds [[-> ->]|[-> ->]].
  - destruct QS as [A1 A2 A3 A4 A5]. split; [now symmetry|]. split; [exact A5|exact A4].
  - destruct QM as [A1 A2 A3 A4 A5]. split; [now symmetry|]. split; [exact A5|exact A4].
Qed.
Print Assumptions C23_each_gradient_once.

(* batch in progress: the gradients taken out but not yet reduced *)
Theorem C23_in_progress : forall m bsz maxq primary n acts i, 0 < bsz ->
  (forall a, In a acts -> match a with GPush i _ => i < n | GStep i _ => i < n end) ->
  let r := g_run m bsz maxq primary g_init acts i in
  (forall g k, In (g, FBatch k) (q_out (r_s r)) -> k <= q_batches (r_s r)) /\
  match r_pc r with
  | PGetS b => batch_of (q_batches (r_s r)) (q_out (r_s r)) = b /\ bsz <= length b + qsize (r_s r)
  | PDead => True
  | _ => batch_of (q_batches (r_s r)) (q_out (r_s r)) = []
  end.
Proof.
  intros m bsz maxq primary n acts i B H r.
  assert (H' : forall a, In a acts -> act_of a < n) by (intros a I; specialize (H a I); destruct a; exact H).
  destruct (g_run_inv m maxq primary B acts H') as [R _ _ _]. destruct (R i) as (pm & ps & QM & QS & PM & PS & _).
  fold r in QS, PS. destruct QS as [A1 A2 A3 A4 A5]. split; [exact A3|]. unfold progs in PS. rewrite A2. clearbody r. destruct (r_pc r); auto.
  destruct PS as (-> & ? & ?). auto.
Qed.
Print Assumptions C23_in_progress.

(* gradients are discarded only from a queue holding more than max_queue_size *)
Theorem C23_discard_only_on_overflow : forall m bsz maxq primary s a i,
  let s' := g_step m bsz maxq primary s a in
  (forall g, q_out (r_s (s' i)) = q_out (r_s (s i)) ++ [(g, FDiscard)] -> maxq < qsize (r_s (s i))) /\
  (forall g, q_out (r_m (s' i)) = q_out (r_m (s i)) ++ [(g, FDiscard)] -> maxq < qsize (r_m (s i))).
Proof. intros. apply discard_overflow. Qed.
Print Assumptions C23_discard_only_on_overflow.

(* the reduction is the key-wise, entry-wise sum or mean *)
Theorem C23_reduction : forall m batch d, (forall g, In g batch -> NoDup (dkeys g)) -> reduce_batch m batch = Ok d ->
  forall k, (dget k d = None <-> forall g, In g batch -> dget k g = None) /\
    forall t, dget k d = Some t ->
      (forall g t', In g batch -> dget k g = Some t' -> length t' = length t) /\
      forall j x, nth_error t j = Some x ->
        x = match m with RSum => qsum (contributions k j batch)
                       | RMean => (qsum (contributions k j batch) / nq (length (contributions k j batch)))%Qc end.
Proof. exact reduce_batch_ok. Qed.
Print Assumptions C23_reduction.

Example C23_nonvacuous :
  let g x : gdict := [(0, [nq x; nq 1])] in
  let acts := map (fun x => GPush 1 (g x)) [1; 2; 3; 4; 5; 6] ++ repeat (GStep 1 false) 20 ++ repeat (GStep 0 false) 20 in
  let s := g_run RSum 2 4 0 g_init acts in
  map snd (q_out (r_s (s 1))) = [FDiscard; FDiscard; FBatch 0; FBatch 0; FBatch 1; FBatch 1] /\
  map snd (r_reds (s 1)) = [[(0, [nq 7; nq 2])]; [(0, [nq 11; nq 2])]] /\
  map snd (r_redm (s 0)) = [[(0, [nq 18; nq 4])]].
Proof. vm_compute. auto. Qed.

Lemma olast_dset_old K A (EK : Eqb K) (l : list (K * A)) ver v newest old :
  olast l = Some (newest, old) -> In ver (dkeys l) -> ver <> newest -> olast (dset ver v l) = Some (newest, old).
Proof.
  induction l as [|[a x] l IH]; intros O I N; [discriminate|]. cbn [dset].
  destruct (eqb_spec ver a) as [->|Na].
  - destruct l as [|y l]; [injection O as -> ->; congruence|]. exact O.
  - destruct I as [I|I]; [cbn in I; congruence|]. destruct l as [|y l]; [destruct I|].
    specialize (IH O I N). destruct (dset ver v (y :: l)) eqn:Q; [discriminate|]. exact IH.
Qed.
(* in general, for every history of calls *)
Theorem C20_reused_version_lost_refuted : forall K A (EK : Eqb K) depth (qs : list (oreq K A)) k v ver x newest old,
  let st := fst (os_run depth [] qs) in
  os_pull st k None = Ok (Some (old, newest)) -> os_pull st k (Some ver) = Ok (Some (x, ver)) -> ver <> newest ->
  snd (os_push depth st k v ver newest) = Ok true /\
  os_pull (fst (os_push depth st k v ver newest)) k None = Ok (Some (old, newest)).
Proof.
  intros K A EK depth qs k v ver x newest old st P Pv N. assert (W : OW depth st) by (apply OW_run, OW_nil).
  unfold os_pull in P, Pv. destruct (dget k st) as [ref|] eqn:G; [|discriminate]. destruct (W k ref G) as [NE LE].
  assert (I : In ver (dkeys ref)).
  { destruct (dget ver ref) as [y|] eqn:E; [|discriminate]. apply dget_Some_In in E. apply (in_map fst) in E. exact E. }
  unfold os_push. rewrite G. destruct (olast ref) as [[w y]|] eqn:O; [|discriminate]. injection P as -> ->.
  rewrite Nat.eqb_refl. cbn [fst snd]. split; auto.
  pose proof (olast_dset_old _ _ _ ref ver v newest old O I N) as O2.
  assert (LL : length (dset ver v ref) = length ref).
  { clear -I. induction ref as [|[a y] ref IH]; [destruct I|]. cbn [dset]. destruct (eqb_spec ver a); auto.
    destruct I as [I|I]; [cbn in I; congruence|]. cbn. now rewrite IH. }
  rewrite LL. destruct (Nat.ltb_spec (depth + 1) (length ref)); [lia|].
  unfold os_pull. rewrite dget_dset_same. now rewrite O2.
Qed.
Print Assumptions C20_reused_version_lost_refuted.
