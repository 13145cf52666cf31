(* C17 - C19, C53: distributed buffers. *)
From Verif Require Import Lib.Rat Model.Buffer Model.WeightTree Model.PrioritizedBuffer Model.DistBuffer
  Spec.WeightTreeSpec Spec.BufferSpec Spec.PrioritizedSpec Spec.DistSpec
  Proofs.BufferProofs Proofs.RnnProofs Proofs.DistProofs Proofs.DistGroupProofs.
Open Scope nat_scope.

(* C17: full statement minus clear() between sampling and updating (see the refutation below).
   d is any reachable member (any history, clears included); us/all is any sampling request on
   it; then any stores, samples and updates follow (d2); finally the delayed update of that
   sample arrives.  A slot is "rewritten" if one of the writes in between hit it. *)
Theorem C17_stale_updates_ignored_partial : forall T (ok : T -> bool) norm pw beta inc cap d H us all d2 H2 n batch idx vers ws ps,
  (forall x, (0 < norm x)%Qc) -> 2 <= cap -> dreach ok norm pw beta inc cap d H -> unit_draws us ->
  snd (dp_sample pw inc d us all) = Ok (n, batch, idx, vers, ws) ->
  dmoves ok norm pw inc cap (fst (dp_sample pw inc d us all)) H d2 H2 -> length ps = length idx ->
  snd (dp_update norm d2 ps idx vers) = Ok tt /\
  let d3 := fst (dp_update norm d2 ps idx vers) in
  (forall k, dstored d3 k = dstored d2 k) /\
  (forall k, ~ In k idx \/ rewritten cap (total H) (total H2) k -> dleaf d3 k = dleaf d2 k) /\
  (forall k, In k idx -> ~ rewritten cap (total H) (total H2) k ->
     dstored d2 k = dstored d k /\
     exists j x, nth_error idx j = Some k /\ nth_error ps j = Some x /\ nth_error batch j = dstored d k /\ dleaf d3 k = norm x).
Proof. exact (fun T ok norm pw beta inc cap d H us all d2 H2 n batch idx vers ws ps N => stale_updates ok norm pw beta inc N cap d H us all d2 H2 n batch idx vers ws ps). Qed.
Print Assumptions C17_stale_updates_ignored_partial.

Definition okd (_ : nat) := true.
Definition normd (x : Qc) : Qc := (Qcabs x + 1)%Qc.
Definition pwd (x _ : Qc) : Qc := (/ x)%Qc.
Definition halfd : Qc := (1 / (1 + 1))%Qc.
Definition newd cap : dpbuf nat := dp_new halfd cap.
Definition storedd d ep ps : dpbuf nat := fst (dp_store okd normd d ep ps).

(* capacity 4: sample slots 0..3 of [10;20;30;40], overwrite slots 0 and 1, apply the delayed
   update: only slots 2 and 3 change *)
Example C17_nonvacuous :
  let d0 := storedd (newd 4) [10; 20; 30; 40] (Some [nq 1; nq 1; nq 1; nq 1]) in
  let us := [halfd; halfd; halfd; halfd] in
  let d1 := fst (dp_sample pwd halfd d0 us (nq 8)) in
  let d2 := storedd d1 [50; 60] (Some [nq 4; nq 5]) in
  match snd (dp_sample pwd halfd d0 us (nq 8)) with
  | Ok (n, batch, idx, vers, _) =>
      let d3 := fst (dp_update normd d2 [nq 9; nq 9; nq 9; nq 9] idx vers) in
      idx = [0; 1; 2; 3] /\ vers = [1; 1; 1; 1] /\ batch = [10; 20; 30; 40] /\
      map (dleaf d2) [0; 1; 2; 3] = [nq 5; nq 6; nq 2; nq 2] /\
      map (dleaf d3) [0; 1; 2; 3] = [nq 5; nq 6; nq 10; nq 10]
  | Err _ => False
  end.
Proof. vm_compute. auto 10. Qed.

(* The full statement (quantifying over clear() too) is false: clear() zeroes the version
   table, so a later store reuses the sampled version and the stale update hits the new
   transition. *)
Theorem C17_clear_aba_refuted : exists d0 us all n batch idx vers ws ps,
  dreach okd normd pwd halfd halfd 4 d0 [[1; 2]] /\ unit_draws us /\
  snd (dp_sample pwd halfd d0 us all) = Ok (n, batch, idx, vers, ws) /\ length ps = length idx /\
  let d1 := fst (dp_sample pwd halfd d0 us all) in
  let d2 := storedd (dp_clear halfd d1) [3; 4] (Some [nq 1; nq 1]) in
  let d3 := fst (dp_update normd d2 ps idx vers) in
  In 0 idx /\ nth_error batch 0 = Some 1 /\ dstored d2 0 = Some 3 /\
  dleaf d2 0 = nq 2 /\ dleaf d3 0 = nq 10.
Proof.
  exists (storedd (newd 4) [1; 2] (Some [nq 1; nq 1])), [halfd; halfd], (nq 4).
  do 5 eexists. exists [nq 9; nq 9].
  split. { unfold storedd. apply (dr_move _ _ _ _ _ _ (newd 4) []); [constructor|].
    apply (dm_store okd normd pwd halfd 4 (newd 4) [] [1; 2]); [discriminate|reflexivity|repeat constructor|].
    intros l E. injection E as <-. repeat constructor. }
  split. { intros u [<-|[<-|[]]]; split; [intros Q; discriminate|reflexivity|intros Q; discriminate|reflexivity]. }
  split; [vm_compute; reflexivity|]. split; [reflexivity|]. vm_compute. auto 10.
Qed.
Print Assumptions C17_clear_aba_refuted.

(* In general: with clear() between sampling and updating, a sampled slot takes the stale priority exactly when it has been
   written as often after the clear as it had been before the sample, though it holds another transition. *)
Definition writes (cap N k : nat) : nat := length (filter (fun n => n mod cap =? k) (seq 0 N)).
Lemma writes_wcount cap N k : wcount cap N k = writes cap N k.
Proof.
  induction N as [|N IH]; [reflexivity|]. unfold writes in *. rewrite seq_S, filter_app, app_length, <- IH.
  replace (S N) with (N + 1) by lia. rewrite wcount_app. f_equal. cbn [modseq seq map count_occ filter Nat.add].
  destruct (Nat.eq_dec (N mod cap) k), (Nat.eqb_spec (N mod cap) k); try contradiction; reflexivity.
Qed.
Theorem C17_after_clear_refuted : forall T (ok : T -> bool) norm pw beta inc cap d H us all d2 H2 n batch idx vers ws ps k,
  (forall x, (0 < norm x)%Qc) -> 2 <= cap -> dreach ok norm pw beta inc cap d H -> unit_draws us ->
  snd (dp_sample pw inc d us all) = Ok (n, batch, idx, vers, ws) ->
  dmoves ok norm pw inc cap (dp_clear beta (fst (dp_sample pw inc d us all))) [] d2 H2 -> length ps = length idx ->
  In k idx ->
  let d3 := fst (dp_update norm d2 ps idx vers) in
  (writes cap (total H2) k = writes cap (total H) k ->
     exists j x, nth_error idx j = Some k /\ nth_error ps j = Some x /\ dleaf d3 k = norm x) /\
  (writes cap (total H2) k <> writes cap (total H) k -> dleaf d3 k = dleaf d2 k).
Proof.
  intros T ok norm pw beta inc cap d H us all d2 H2 n batch idx vers ws ps k N C R U E M LP IK. cbv zeta.
  rewrite <- !writes_wcount.
  destruct (dreach_inv ok norm pw beta inc N cap d H C R) as (f & I).
  pose proof (DInv_clear beta cap _ H f (DInv_sample pw inc cap d H f us all I)) as I1.
  destruct (dmoves_inv ok norm pw beta inc N cap _ _ _ _ _ C I1 M) as (f2 & K & I2 & Q). cbn [app] in Q. subst K.
  assert (NZ : length us <> 0).
  { intros Z. unfold dp_sample in E. rewrite Z in E. cbn in E. injection E as _ _ <- _ _. destruct IK. }
  assert (NZ2 : dp_size d <> 0).
  { intros Z. unfold dp_sample in E. rewrite Z, orb_true_r in E. cbn in E. injection E as _ _ <- _ _. destruct IK. }
  assert (NO : length us <> 1).
  { intros O. unfold dp_sample in E. rewrite O in E. cbn [Nat.eqb orb] in E. destruct (Nat.eqb_spec (dp_size d) 0); [lia|].
    destruct (pb_sample_index _ _ _ _ _) as [p1 [[? ?]|?]]; cbn in E; discriminate. }
  destruct (dp_sample_ok pw inc cap d H f us all I U NZ2 ltac:(lia)) as (batch' & idx' & vers' & ws' & E' & LB & LI & LVE & LW & IS & PT).
  assert (idx' = idx /\ vers' = vers) as (-> & ->) by (split; congruence).
  pose proof (Verif.Proofs.PrioritizedProofs.size_eq _ _ _ (Verif.Proofs.PrioritizedProofs.pi_b _ _ _ _ (dv_p _ _ _ _ I))) as SZ. fold (dp_size d) in SZ. fold (total H) in SZ.
  destruct (dp_update_ok norm pw beta N cap d2 H2 f2 ps idx vers I2 LP ltac:(congruence)) as (f3 & E3 & I3 & B3 & CASE).
  { intros i Hi. apply IS in Hi. lia. }
  { intros v Hv. apply In_nth_error in Hv as (j & Hj).
    assert (JL : j < length idx) by (rewrite LI, <- LVE; apply nth_error_Some; congruence).
    destruct (nth_error idx j) as [i|] eqn:EI; [|apply nth_error_None in EI; lia].
    destruct (PT j i EI) as [V _]. assert (v = wcount cap (total H) i) as -> by congruence.
    apply nth_error_In in EI. pose proof (IS i EI) as S. apply wcount_pos; [lia|lia|]. unfold total. unfold total in SZ. lia. }
  rewrite (dleaf_f _ _ _ _ I3), (dleaf_f _ _ _ _ I2). split.
  - intros W. destruct (CASE k) as [(j & x & A1 & A2 & A3 & A4)|[Z _]]; [eauto|].
    exfalso. apply In_nth_error in IK as (j & J). apply (Z j J). destruct (PT j k J) as [V _]. rewrite V. congruence.
  - intros W. destruct (CASE k) as [(j & x & A1 & A2 & A3 & A4)|[_ Z]]; auto.
    exfalso. destruct (PT j k A1) as [V _]. congruence.
Qed.
Print Assumptions C17_after_clear_refuted.
Example C17_after_clear_nonvacuous : writes 4 2 1 = writes 4 4 1 /\ writes 4 6 1 = 2.
Proof. split; reflexivity. Qed.

(* C18.  (1) what a distributed sample returns lines up, position by position, with the
   (member, index, version) triples recorded in its index dictionary; (2) the messages of
   update_priority contain exactly the pairs (triple j, priority j); (3) after delivering
   them, a slot has a new priority iff it was sampled, and it is one of the priorities
   given for it. *)
Theorem C18_sample_alignment : forall T (ok : T -> bool) norm pw beta inc (g : group T) n draw g1 len batch ix isw,
  (forall x, (0 < norm x)%Qc) -> NoDup (map fst g) -> (forall m d, In (m, d) g -> member_ok ok norm pw beta inc d) ->
  (forall k j, (0 <= draw k j)%Qc /\ (draw k j < 1)%Qc) ->
  g_sample pw inc g n draw = (g1, Ok (len, batch, ix, isw)) ->
  length batch = len /\ length (origins ix) = len /\ length isw = len /\ NoDup (map fst ix) /\
  forall j m i v, nth_error (origins ix) j = Some (m, (i, v)) ->
     exists d, In (m, d) g /\ nth_error batch j = dstored d i /\ nth_error (dp_ver d) i = Some v.
Proof.
  intros T ok norm pw beta inc g n draw g1 len batch ix isw N ND MO D E.
  destruct (g_sample_acc ok norm pw beta inc N g n draw g1 _ ND MO D E) as [(A1 & A2 & A3) A4 A5 A6].
  repeat split; auto.
Qed.
Print Assumptions C18_sample_alignment.

Theorem C18_messages : forall (ix : dindex) prios,
  (forall m idx ver, In (m, (idx, ver)) ix -> length idx = length ver) -> length prios = length (origins ix) ->
  requests (messages prios 0 ix) = combine (origins ix) prios /\
  map fst (messages prios 0 ix) = map fst ix.
Proof.
  intros ix prios B L. destruct (messages_requests (fun x _ => x) 0%Qc ix B prios 0 ltac:(cbn; auto)) as (R1 & R2 & _). auto.
Qed.
Print Assumptions C18_messages.

Theorem C18_round_trip : forall T (ok : T -> bool) norm pw beta inc (g : group T) n draw g1 len batch ix isw prios,
  (forall x, (0 < norm x)%Qc) -> NoDup (map fst g) -> (forall m d, In (m, d) g -> member_ok ok norm pw beta inc d) ->
  (forall k j, (0 <= draw k j)%Qc /\ (draw k j < 1)%Qc) ->
  g_sample pw inc g n draw = (g1, Ok (len, batch, ix, isw)) -> length prios = len ->
  snd (g_update norm g1 prios ix) = Ok tt /\
  forall m d1, dget m g1 = Some d1 -> exists d2, dget m (fst (g_update norm g1 prios ix)) = Some d2 /\
    forall k, (exists j v x, nth_error (origins ix) j = Some (m, (k, v)) /\ nth_error prios j = Some x /\ dleaf d2 k = norm x)
           \/ ((forall j v, nth_error (origins ix) j <> Some (m, (k, v))) /\ dleaf d2 k = dleaf d1 k).
Proof.
  exact (fun T ok norm pw beta inc g n draw g1 len batch ix isw prios N =>
    round_trip ok norm pw beta inc N g n draw g1 len batch ix isw prios).
Qed.
Print Assumptions C18_round_trip.

(* members 7 (two items), 8 (empty), 9 (two items of larger priority) *)
Definition group3 : group nat :=
  [(7, storedd (newd 4) [10; 20] (Some [nq 1; nq 1])); (8, newd 4); (9, storedd (newd 4) [30; 40] (Some [nq 2; nq 2]))].
Example C18_nonvacuous :
  match g_sample pwd halfd group3 5 (fun _ _ => halfd) with
  | (g1, Ok (len, batch, ix, _)) =>
      len = 5 /\ batch = [10; 20; 30; 30; 40] /\
      origins ix = [(7, (0, 1)); (7, (1, 1)); (9, (0, 1)); (9, (0, 1)); (9, (1, 1))] /\
      match g_update normd g1 [nq 4; nq 5; nq 6; nq 7; nq 8] ix with
      | (g2, Ok _) => map (fun q => map (dleaf (snd q)) [0; 1]) g2 = [[nq 5; nq 6]; [nq 0; nq 0]; [nq 8; nq 9]]
      | _ => False
      end
  | _ => False
  end.
Proof. vm_compute. auto 10. Qed.

(* Finding: a member whose share is exactly 1 makes the whole distributed sample raise *)
Theorem C18_share_of_one_refuted :
  (forall m d, In (m, d) group3 -> member_ok okd normd pwd halfd halfd d) /\
  snd (g_sample pwd halfd group3 2 (fun _ _ => halfd)) = Err EType.
Proof.
  split; [|vm_compute; reflexivity].
  assert (M : forall a b p, member_ok okd normd pwd halfd halfd (storedd (newd 4) [a; b] (Some [p; p]))).
  { intros a b p. exists 4, [[a; b]]. split; [repeat constructor|]. unfold storedd. apply (dr_move _ _ _ _ _ _ (newd 4) []); [constructor|].
    apply (dm_store okd normd pwd halfd 4 (newd 4) [] [a; b]); [discriminate|reflexivity|repeat constructor|].
    intros l E. injection E as <-. repeat constructor. }
  intros m d [E|[E|[E|[]]]]; injection E as <- <-; try apply M.
  exists 4, []. split; [repeat constructor|constructor].
Qed.
Print Assumptions C18_share_of_one_refuted.

(* C53: size of a distributed prioritized sample *)
Theorem C53_distributed_sample_size : forall T (ok : T -> bool) norm pw beta inc (g : group T) n draw g1 len batch ix isw,
  (forall x, (0 < norm x)%Qc) -> (forall m d, In (m, d) g -> member_ok ok norm pw beta inc d) ->
  (forall k j, (0 <= draw k j)%Qc /\ (draw k j < 1)%Qc) -> 0 < n ->
  (nq n * tiny < qsum (map (fun q => dp_weight_sum (snd q)) g))%Qc ->
  g_sample pw inc g n draw = (g1, Ok (len, batch, ix, isw)) -> n <= len < n + length g.
Proof.
  exact (fun T ok norm pw beta inc g n draw g1 len batch ix isw N =>
    g_sample_count ok norm pw beta inc N g n draw g1 len batch ix isw).
Qed.
Print Assumptions C53_distributed_sample_size.

Example C53_nonvacuous :
  qsum (map (fun q => dp_weight_sum (snd q)) group3) = nq 10 /\
  match snd (g_sample pwd halfd group3 4 (fun _ _ => halfd)) with
  | Ok (len, batch, _, _) => len = 5 /\ batch = [10; 20; 30; 30; 40] | Err _ => False end.
Proof. vm_compute. auto. Qed.

(* C19.  A member is described by its capacity and the episodes it was asked to store. *)
Theorem C19_all_size : forall T (ok : T -> bool) (ms : list (nat * list (list T))),
  (forall m, In m ms -> 0 < fst m /\ forall e, In e (snd m) -> length e <= fst m) ->
  db_all_size (map (fun m => b_run ok (b_new (fst m)) (map (@BStore T) (snd m))) ms) =
  list_sum (map (fun m => Nat.min (total (accepted ok (snd m))) (fst m)) ms).
Proof. intros T ok ms H. exact (db_size_ok ok ms H). Qed.
Print Assumptions C19_all_size.

(* [pick k] is what member k's random generator selects: for sampling without (with)
   replacement min(held, ceil(n/p)) positions of the transitions it holds. *)
Theorem C19_sample_is_concatenation : forall T (ok : T -> bool) (ms : list (nat * list (list T))) n given pick,
  (forall m, In m ms -> 0 < fst m /\ forall e, In e (snd m) -> length e <= fst m) -> ms <> [] ->
  let held m := concat (retained (fst m) (accepted ok (snd m))) in
  let p := length ms in
  let c := local_size n p in
  (forall k m, nth_error ms k = Some m -> length (pick k) = Nat.min (length (held m)) c /\
     forall i, In i (pick k) -> i < length (held m)) ->
  (n <= c * p < n + p) /\
  exists parts,
    length parts = p /\
    (forall k m b, nth_error ms k = Some m -> nth_error parts k = Some b -> index_all (held m) (pick k) = Ok b) /\
    db_sample (map (fun m => b_run ok (b_new (fst m)) (map (@BStore T) (snd m))) ms) n given pick =
      (if negb given && (length (concat parts) =? 0) then Err EIndex else Ok (length (concat parts), concat parts)) /\
    length (concat parts) = list_sum (map (fun m => Nat.min (length (held m)) c) ms) /\
    ((forall m, In m ms -> c <= length (held m)) -> n <= length (concat parts) < n + p).
Proof.
  intros T ok ms n given pick H NE held p c PK.
  assert (P : 0 < p) by (unfold p; destruct ms; [congruence|cbn; lia]).
  destruct (local_size_bounds n p P) as (B1 & B2 & B3). fold c in B1, B2, B3.
  assert (BB : n <= c * p < n + p) by (destruct (Nat.eq_dec n 0) as [Z|NZ]; [rewrite (B3 Z); lia|lia]).
  split; auto.
  destruct (db_ask_ok ok c pick ms 0 H) as (bs & E & L & PT). 2: unfold mem in L. { intros j m J i Q. apply (proj2 (PK j m J)). exact Q. }
  exists bs. split; [exact L|]. split; auto.
  assert (LS : map (@length T) bs = map (fun m => Nat.min (length (held m)) c) ms).
  { apply nth_error_ext. intros j. rewrite !nth_error_map.
    destruct (nth_error ms j) as [m|] eqn:J; destruct (nth_error bs j) as [b|] eqn:B; cbn; auto.
    - f_equal. rewrite <- (proj1 (PK j m J)). eapply index_all_len. apply (PT j m b J B).
    - apply nth_error_None in B. assert (j < length ms) by (apply nth_error_Some; congruence). lia.
    - apply nth_error_None in J. assert (j < length bs) by (apply nth_error_Some; congruence). lia. }
  assert (LC : length (concat bs) = list_sum (map (fun m => Nat.min (length (held m)) c) ms)).
  { rewrite <- LS. clear. induction bs as [|b r IH]; cbn; auto. rewrite app_length, IH. reflexivity. }
  split.
  - unfold db_sample. rewrite map_length. fold p. destruct (Nat.eqb_spec p 0); [lia|]. fold c.
    change (map (fun m => b_run ok (b_new (fst m)) (map (@BStore T) (snd m))) ms) with (map (mbuf ok) ms).
    rewrite E. cbn [bind].
    assert (L2 : length (map (fun m => Nat.min (length (mret ok m)) c) ms) = length bs) by (rewrite map_length; auto).
    assert (ES : map snd (combine (map (fun m => Nat.min (length (mret ok m)) c) ms) bs) = bs /\
                 map fst (combine (map (fun m => Nat.min (length (mret ok m)) c) ms) bs) = map (fun m => Nat.min (length (mret ok m)) c) ms).
    { revert L2. generalize (map (fun m => Nat.min (length (mret ok m)) c) ms). clear.
      induction bs as [|b r IH]; intros [|x l] Q; cbn; try discriminate; auto. injection Q as Q. destruct (IH l Q) as [A B]. now rewrite A, B. }
    destruct ES as [-> ->]. change (list_sum (map (fun m => Nat.min (length (mret ok m)) c) ms)) with (list_sum (map (fun m => Nat.min (length (held m)) c) ms)).
    rewrite <- LC. reflexivity.
  - split; auto. intros A. assert (EC : length (concat bs) = c * p).
    { rewrite LC. unfold p. clearbody c. clear - A. induction ms as [|m r IH]; [cbn; lia|]. cbn [map list_sum fold_right length].
      change (fold_right Nat.add 0 (map (fun m => Nat.min (length (held m)) c) r)) with (list_sum (map (fun m => Nat.min (length (held m)) c) r)).
      rewrite IH by (intros; apply A; now right). pose proof (A m (or_introl eq_refl)). lia. }
    rewrite EC. exact BB.
Qed.
Print Assumptions C19_sample_is_concatenation.

Example C19_nonvacuous :
  let g := map (fun m => b_run okd (b_new (fst m)) (map (@BStore nat) (snd m))) [(4, [[1; 2]; [3; 4]; [5]]); (3, [[6; 7; 8]])] in
  db_all_size g = 7 /\ db_sample g 3 false (fun k => [1; 0]) = Ok (4, [4; 3; 7; 6]).
Proof. vm_compute. auto. Qed.

(* Skewed members are not compensated for: 4 transitions are available and 4 requested, but
   only 3 come back, because the first member holds just one. *)
Theorem C19_skewed_members_refuted :
  let g := map (fun m => b_run okd (b_new (fst m)) (map (@BStore nat) (snd m))) [(4, [[1]]); (4, [[2; 3; 4]])] in
  db_all_size g = 4 /\ db_sample g 4 false (fun k => if k =? 0 then [0] else [0; 1]) = Ok (3, [1; 2; 3]).
Proof. vm_compute. auto. Qed.
Print Assumptions C19_skewed_members_refuted.

(* sampling from an empty distributed buffer without explicit sample_attrs raises *)
Theorem C19_empty_raises : forall T (k : nat) n pick, 0 < k -> (forall j, pick j = []) ->
  db_sample (repeat (b_new 1 : buffer T) k) n false pick = Err EIndex.
Proof.
  intros T k n pick K P. unfold db_sample. rewrite repeat_length. destruct (Nat.eqb_spec k 0); [lia|].
  assert (G : forall m j q, db_ask m pick j (repeat (b_new 1 : buffer T) q) = Ok (repeat (0, []) q)).
  { intros m j q. revert j. induction q as [|q IHq]; intros j; cbn [repeat db_ask]; auto. unfold sample_random. rewrite P. cbn. rewrite IHq. reflexivity. }
  rewrite G. cbn [bind]. assert (C : concat (map snd (repeat (0, @nil T) k)) = []) by (clear; induction k; cbn; auto).
  rewrite C. reflexivity.
Qed.
Print Assumptions C19_empty_raises.

(* in general: one member with a share of one makes the whole request fail, however large it is *)
Theorem C18_any_share_of_one_refuted : forall T pw inc (g : group T) n draw m d,
  In (m, d) g -> 0 < n -> 0 < dp_size d -> share n (all_weight_sum g) (dp_weight_sum d) = 1 ->
  exists e, snd (g_sample pw inc g n draw) = Err e.
Proof.
  intros T pw inc g n draw m d I N SZ SH. unfold g_sample. destruct (Nat.eqb_spec n 0); [lia|]. cbv zeta.
  generalize dependent (all_weight_sum g). intros all SH.
  assert (A : forall k, exists e, In (m, Err e) (snd (ask pw inc n all draw k g))).
  { clear -I SZ SH. induction g as [|[m' d'] g IH]; intros k; [destruct I|]. cbn [ask].
    destruct I as [E|I].
    - injection E as -> ->. rewrite SH. cbn [seq map]. unfold dp_sample. cbn [length Nat.eqb orb].
      destruct (Nat.eqb_spec (dp_size d) 0); [lia|].
      destruct (pb_sample_index pw inc (dp_p d) [draw k 0] (Some all)) as [p1 [[idx ws]|e]];
        destruct (ask pw inc n all draw (S k) g); cbn [snd]; eexists; left; reflexivity.
    - destruct (IH I (S k)) as (e & H). destruct (dp_sample pw inc d' _ all). destruct (ask pw inc n all draw (S k) g). cbn [snd] in *.
      exists e. now right. }
  destruct (A 0) as (e & H). destruct (ask pw inc n all draw 0 g) as [g1 answers]. cbn [snd] in *.
  revert H. generalize (0, @nil T, @nil (nat * (list nat * list nat)), @nil Qc). clear.
  induction answers as [|[m' [[[[[len b] ix] v] w]|e']] r IH]; intros acc H; cbn [collect].
  - destruct H.
  - destruct H as [H|H]; [discriminate|]. destruct (len =? 0); [now apply IH|]. destruct acc as [[[al ab] ai] aw]. now apply IH.
  - eauto.
Qed.
Print Assumptions C18_any_share_of_one_refuted.

(* in general: with a request that divides evenly, one member below its share makes the sample too small,
   however much the other members hold *)
Theorem C19_any_skewed_member_refuted : forall T (ok : T -> bool) (ms : list (nat * list (list T))) n given pick q,
  (forall m, In m ms -> 0 < fst m /\ forall e, In e (snd m) -> length e <= fst m) -> ms <> [] ->
  let held m := concat (retained (fst m) (accepted ok (snd m))) in
  n = q * length ms ->
  (forall k m, nth_error ms k = Some m -> length (pick k) = Nat.min (length (held m)) q /\
     forall i, In i (pick k) -> i < length (held m)) ->
  (exists m, In m ms /\ length (held m) < q) ->
  forall len batch,
    db_sample (map (fun m => b_run ok (b_new (fst m)) (map (@BStore T) (snd m))) ms) n given pick = Ok (len, batch) ->
    len = length batch /\ len < n.
Proof.
  intros T ok ms n given pick q H NE held En PK (m & Im & Lm) len batch E.
  assert (P : 0 < length ms) by (destruct ms; [congruence|cbn; lia]).
  destruct (local_size_bounds n (length ms) P) as (B1 & B2 & B3).
  assert (C : local_size n (length ms) = q).
  { destruct (Nat.eq_dec n 0) as [Z|NZ]; [rewrite (B3 Z); nia|]. specialize (B2 ltac:(lia)). nia. }
  destruct (C19_sample_is_concatenation T ok ms n given pick H NE) as (_ & parts & _ & _ & Q & LC & _).
  { rewrite C. exact PK. }
  fold held in LC. rewrite C in LC. rewrite Q in E. destruct (negb given && _); [discriminate|]. injection E as <- <-.
  split; auto. rewrite LC, En. clear -Im Lm.
  assert (U : forall l : list (nat * list (list T)), list_sum (map (fun m => Nat.min (length (held m)) q) l) <= q * length l).
  { induction l as [|x l IH]; [cbn; lia|].
    change (Nat.min (length (held x)) q + list_sum (map (fun m => Nat.min (length (held m)) q) l) <= q * S (length l)). lia. }
  apply in_split in Im as (l1 & l2 & ->). rewrite map_app, list_sum_app, app_length.
  change (list_sum (map (fun m => Nat.min (length (held m)) q) l1) +
    (Nat.min (length (held m)) q + list_sum (map (fun m => Nat.min (length (held m)) q) l2)) < q * (length l1 + S (length l2))).
  pose proof (U l1). pose proof (U l2). nia.
Qed.
Print Assumptions C19_any_skewed_member_refuted.
