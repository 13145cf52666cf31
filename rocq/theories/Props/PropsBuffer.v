(* C01 - C05: the plain replay buffer. *)
From Verif Require Import Lib.Base Model.Buffer Spec.BufferSpec Proofs.BufferProofs Proofs.BufferDict.

(* The buffer after a sequence of store_episode calls. *)
Notation after ok cap eps := (b_run ok (b_new cap) (map BStore eps)).

(* Sanity of the specification: [retained] is the longest suffix that fits. *)
Theorem C01_spec_retained_is_longest_suffix : forall T cap (hist : list (list T)),
  (exists d, hist = d ++ retained cap hist) /\ total (retained cap hist) <= cap /\
  (forall d k, hist = d ++ k -> total k <= cap -> length k <= length (retained cap hist)).
Proof. exact (fun T => @retained_longest_suffix T). Qed.
Print Assumptions C01_spec_retained_is_longest_suffix.

(* sample_method_all returns exactly the transitions of the retained episodes, in
   chronological order, after any history of (accepted or rejected) stores. *)
Theorem C01_all_returns_exactly_retained : forall T (ok : T -> bool) cap eps,
  0 < cap -> (forall e, In e eps -> length e <= cap) ->
  sample_all (after ok cap eps)
  = Ok (total (retained cap (accepted ok eps)), concat (retained cap (accepted ok eps))).
Proof. exact (fun T ok cap eps C L => sample_all_inv (run_inv ok eps C L)). Qed.
Print Assumptions C01_all_returns_exactly_retained.

(* and an acceptable episode is never refused, in any reachable state *)
Theorem C01_store_accepts : forall T (ok : T -> bool) cap eps ep,
  0 < cap -> (forall e, In e eps -> length e <= cap) ->
  ep <> [] -> forallb ok ep = true -> length ep <= cap ->
  snd (b_store_episode ok (after ok cap eps) ep) = Ok tt.
Proof.
  exact (fun T ok cap eps ep C L NE OK LE =>
    match b_store_inv ok (run_inv ok eps C L) NE OK LE with
    | ex_intro _ b' (conj E _) => f_equal snd E
    end).
Qed.
Print Assumptions C01_store_accepts.

(* also after any mixture of stores, refused stores (including oversized ones) and clears *)
Theorem C01_store_accepts_any_history : forall T (ok : T -> bool) cap (os : list (bop T)) ep,
  0 < cap -> ep <> [] -> forallb ok ep = true -> length ep <= cap ->
  snd (b_store_episode ok (b_run ok (b_new cap) os) ep) = Ok tt.
Proof. exact (fun T => @run_any_accepts T). Qed.
Print Assumptions C01_store_accepts_any_history.

Example C01_nonvacuous :
  let eps := [[1;2;3]; [4;5]; [6;7]; [8]] in
  sample_all (after (fun _ => true) 5 eps) = Ok (5, [4;5;6;7;8]) /\
  retained 5 eps = [[4;5];[6;7];[8]].
Proof. vm_compute. auto. Qed.

Theorem C02_size : forall T (ok : T -> bool) cap eps,
  0 < cap -> (forall e, In e eps -> length e <= cap) ->
  b_size (after ok cap eps) = Nat.min (total (accepted ok eps)) cap /\
  exists n batch, sample_all (after ok cap eps) = Ok (n, batch) /\ n = length batch /\
                  n <= b_size (after ok cap eps).
Proof.
  intros T ok cap eps C L. pose proof (run_inv ok eps C L) as I. split.
  - exact (b_size_inv I).
  - exists (total (retained cap (accepted ok eps))), (concat (retained cap (accepted ok eps))).
    split; [exact (sample_all_inv I)|]. split; [reflexivity|].
    rewrite (b_size_inv I).
    destruct (retained_longest_suffix cap (accepted ok eps)) as ((d & E) & LE & _).
    assert (total (accepted ok eps) = total d + total (retained cap (accepted ok eps)))
      by (rewrite E at 1; apply total_app). lia.
Qed.
Print Assumptions C02_size.
Theorem C02_size_bounded_any_history : forall T (ok : T -> bool) cap (os : list (bop T)),
  0 < cap -> b_size (b_run ok (b_new cap) os) <= cap.
Proof. exact (fun T => @run_any_size T). Qed.
Print Assumptions C02_size_bounded_any_history.

Example C02_nonvacuous : b_size (after (fun n => Nat.ltb n 9) 3 [[1;2];[9;1];[5];[6]]) = 3.
Proof. reflexivity. Qed.

(* random_unique / random: [pick] is whatever the generator chose; its contract is
   that of random.sample (min(len,n) pairwise different positions of the key list)
   or random.choices (the same without "pairwise different"). *)
Theorem C03_random_draws_retained : forall T (ok : T -> bool) cap eps n pick,
  0 < cap -> (forall e, In e eps -> length e <= cap) ->
  let keep := concat (retained cap (accepted ok eps)) in
  length pick = Nat.min (length keep) n ->
  (forall i, In i pick -> i < length keep) ->
  exists xs, sample_random (after ok cap eps) n pick = Ok (length xs, xs) /\
             length xs = Nat.min (length keep) n /\
             (forall j i, nth_error pick j = Some i -> nth_error xs j = nth_error keep i).
Proof.
  intros T ok cap eps n pick C L keep LP P.
  destruct (sample_random_inv n pick (run_inv ok eps C L) P) as (xs & E1 & E2).
  fold keep in E2.
  destruct (index_all_ok keep pick P) as (ys & E & LY & G).
  assert (xs = ys) by congruence. subst ys. exists xs.
  rewrite E1. unfold total. fold keep. rewrite <- LP, <- LY. repeat split; auto. 
Qed.
Print Assumptions C03_random_draws_retained.

(* With distinct picks no storage position is used twice: the handles behind
   different picks are different. *)
Theorem C03_random_unique_distinct_positions : forall T (ok : T -> bool) cap eps pick hs,
  0 < cap -> (forall e, In e eps -> length e <= cap) ->
  NoDup pick ->
  index_all (dkeys (b_ten (after ok cap eps))) pick = Ok hs ->
  NoDup hs /\ (forall h, In h hs -> h < b_size (after ok cap eps)).
Proof. exact (fun T => @run_pick_distinct T). Qed.
Print Assumptions C03_random_unique_distinct_positions.

Example C03_nonvacuous :
  sample_random (after (fun _ => true) 4 [[1;2];[3];[4;5]]) 2 [2; 0] = Ok (2, [5; 3]).
Proof. reflexivity. Qed.

(* C04 is violated: clear() forgets the stored data but keeps the handle
   dictionaries, so every non-empty draw after it raises IndexError. *)
Theorem C04_clear_then_sample_refuted :
  exists (eps : list (list nat)),
    sample_all (b_clear (after (fun _ => true) 4 eps)) <> Ok (0, []) /\
    sample_random (b_clear (after (fun _ => true) 4 eps)) 1 [0] = Err EIndex.
Proof. exists [[7]]. split; [discriminate | reflexivity]. Qed.
Print Assumptions C04_clear_then_sample_refuted.

(* it is not one unlucky history: it happens whenever anything was stored *)
Theorem C04_clear_then_sample_always_raises : forall T (ok : T -> bool) cap eps,
  0 < cap -> (forall e, In e eps -> length e <= cap) ->
  retained cap (accepted ok eps) <> [] ->
  sample_all (b_clear (after ok cap eps)) = Err EIndex /\
  (forall n pick, pick <> [] ->
     (forall i, In i pick -> i < total (retained cap (accepted ok eps))) ->
     sample_random (b_clear (after ok cap eps)) n pick = Err EIndex).
Proof. exact (fun T => @run_clear_raises T). Qed.
Print Assumptions C04_clear_then_sample_always_raises.

(* what does hold: size() is 0 after clear() in every state *)
Theorem C04_clear_size_partial : forall T (b : buffer T), b_size (b_clear b) = 0.
Proof. reflexivity. Qed.
Print Assumptions C04_clear_size_partial.
(* consequence for the documented A2C/PPO usage "store, update (which clears), store,
   update": two stored episodes, clear, a shorter episode - a draw fails *)
Example C04_on_policy_cycle_fails :
  let b := b_step (fun _ => true) (b_clear (after (fun _ => true) 10 [[1;2;3];[4;5;6]])) (BStore [7]) in
  (* picks 0 and 3 are legal outcomes of random.sample over the 4 keys *)
  length (b_ten b) = 4 /\ b_size b = 1 /\ sample_random b 2 [0; 3] = Err EIndex.
Proof. cbv zeta. repeat split. Qed.

Theorem C05_rejected_store_keeps_samples_partial : forall T (ok : T -> bool) cap eps ep,
  (* empty episode or missing attributes; the oversized case is refuted below *)
  0 < cap -> (forall e, In e eps -> length e <= cap) ->
  ep = [] \/ forallb ok ep = false ->
  snd (b_store_episode ok (after ok cap eps) ep) = Err EValue /\
  let b' := fst (b_store_episode ok (after ok cap eps) ep) in
  b_st b' = b_st (after ok cap eps) /\ b_ten b' = b_ten (after ok cap eps) /\
  b_eth b' = b_eth (after ok cap eps).
Proof. exact (fun T => @run_reject T). Qed.
Print Assumptions C05_rejected_store_keeps_samples_partial.
Example C05_nonvacuous :
  snd (b_store_episode (fun n => Nat.ltb n 5) (after (fun n => Nat.ltb n 5) 4 [[1;2]]) [3;9]) = Err EValue.
Proof. reflexivity. Qed.

Theorem C05_oversized_store_refuted :
  exists (eps : list (list nat)) ep,
    let b := after (fun _ => true) 2 eps in
    snd (b_store_episode (fun _ => true) b ep) = Err EValue /\
    sample_all b = Ok (2, [1; 2]) /\
    sample_all (fst (b_store_episode (fun _ => true) b ep)) = Ok (2, [5; 4]).
Proof. exists [[1;2]], [3;4;5]. vm_compute. auto. Qed.
Print Assumptions C05_oversized_store_refuted.

(* In general an oversized episode is refused, but its last [cap] transitions are
   what the old handles now point to. *)
Theorem C05_oversized_store_corrupts : forall T (ok : T -> bool) cap eps ep,
  0 < cap -> (forall e, In e eps -> length e <= cap) ->
  forallb ok ep = true -> cap < length ep -> 
  let b := after ok cap eps in
  let b' := fst (b_store_episode ok b ep) in
  snd (b_store_episode ok b ep) = Err EValue /\ b_ten b' = b_ten b /\
  (forall h, In h (dkeys (b_ten b')) -> exists x, nth_error (st_data (b_st b')) h = Some x /\ In x ep).
Proof. exact (fun T => @run_over T). Qed.
Print Assumptions C05_oversized_store_corrupts.
