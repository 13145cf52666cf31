(* C12 - C14, C51: the prioritized replay buffer. *)
From Coq Require Import Field.
From Verif Require Import Lib.Rat Model.Buffer Model.WeightTree Model.PrioritizedBuffer
  Spec.BufferSpec Spec.WeightTreeSpec Spec.PrioritizedSpec Proofs.PrioritizedProofs.
Open Scope nat_scope.

(* [norm] (the priority normalization) only has to be positive, as (|p|+eps)^alpha is. *)

Theorem C12_stratified_sampling : forall T (ok : T -> bool) norm pw beta inc cap p k H us,
  (forall x, (0 < norm x)%Qc) -> 1 <= cap ->
  reach ok norm pw beta inc cap p k H -> b_size (pb_b p) <> 0 ->
  2 <= length us -> unit_draws us ->
  exists batch idx ws,
    snd (pb_sample pw inc p us) = Ok (length us, batch, idx, ws) /\
    length batch = length us /\ length idx = length us /\ length ws = length us /\
    forall k u, nth_error us k = Some u -> exists i x, nth_error idx k = Some i /\
      i < b_size (pb_b p) /\ (0 < leaf p i)%Qc /\
      nth_error batch k = Some x /\ stored p i = Some x /\
      let q := query_point (wt_sum (pb_t p)) u k (length us) in
      (q = 0%Qc /\ i = 0) \/ ((prefix (leaf p) i < q)%Qc /\ (q <= prefix (leaf p) (S i))%Qc).
Proof. exact (fun T ok norm pw beta inc cap p k H us N => reach_sample_ok ok norm pw beta inc N cap p k H us). Qed.
Print Assumptions C12_stratified_sampling.

Theorem C12_indexes_sorted : forall T (ok : T -> bool) norm pw beta inc cap p k H us,
  (forall x, (0 < norm x)%Qc) -> 1 <= cap ->
  reach ok norm pw beta inc cap p k H -> b_size (pb_b p) <> 0 ->
  2 <= length us -> unit_draws us ->
  forall n batch idx ws, snd (pb_sample pw inc p us) = Ok (n, batch, idx, ws) ->
  forall j a b, nth_error idx j = Some a -> nth_error idx (S j) = Some b -> a <= b.
Proof. exact (fun T ok norm pw beta inc cap p k H us N => reach_sample_sorted ok norm pw beta inc N cap p k H us). Qed.
Print Assumptions C12_indexes_sorted.

Definition ok1 (_ : nat) := true.
Definition norm1 (x : Qc) : Qc := (Qcabs x + 1)%Qc.
Definition pw1 (x _ : Qc) : Qc := (/ x)%Qc.
Definition half : Qc := (1 / (1 + 1))%Qc.
Definition run1 cap os : pbuf nat := pb_run ok1 norm1 pw1 half half (pb_new half cap) os.

Example C12_nonvacuous :
  let p := run1 4 [PStore [10; 20; 30] (Some [nq 0; nq 2; nq 1])] in
  b_size (pb_b p) = 3 /\ wt_sum (pb_t p) = nq 6 /\
  match snd (pb_sample pw1 half p [half; half; half]) with
  | Ok (n, batch, idx, _) => n = 3 /\ batch = [10; 20; 30] /\ idx = [0; 1; 2]
  | Err _ => False
  end.
Proof. vm_compute. auto. Qed.

(* the case n = 1 is outside the property and fails *)
Theorem C12_single_sample_refuted : forall T (ok : T -> bool) norm pw beta inc cap p k H us,
  (forall x, (0 < norm x)%Qc) -> 1 <= cap ->
  reach ok norm pw beta inc cap p k H -> b_size (pb_b p) <> 0 ->
  length us = 1 -> unit_draws us -> snd (pb_sample pw inc p us) = Err EType.
Proof.
  intros T ok norm pw beta inc cap p k H us N C R NZ L U.
  destruct (reach_inv ok norm pw beta inc N cap p k H C R) as (f & I).
  assert (NE : us <> []) by (intros ->; discriminate).
  destruct (pb_sample_inv pw inc cap p _ f us I NZ NE U) as (_ & _ & _ & X & _). auto.
Qed.
Print Assumptions C12_single_sample_refuted.
(* nothing is asked for or nothing is there: an empty sample, and the buffer (beta included) stays as it is *)
Theorem C12_nothing : forall T pw inc (p : pbuf T) us, us = [] \/ b_size (pb_b p) = 0 ->
  pb_sample pw inc p us = (p, Ok (0, [], [], [])).
Proof.
  intros T pw inc p us H. unfold pb_sample. destruct H as [-> | ->]; [reflexivity|]. now rewrite orb_true_r.
Qed.
Print Assumptions C12_nothing.

(* C13 is false: after the second store only [4;5] is retained (the plain buffer
   returns nothing else), but slots 1 and 2 keep the priorities of 2 and 3. *)
Theorem C13_evicted_sampled_refuted :
  exists p k H us n batch idx ws,
    reach ok1 norm1 pw1 half half 4 p k H /\ unit_draws us /\
    snd (pb_sample pw1 half p us) = Ok (n, batch, idx, ws) /\
    sample_all (pb_b p) = Ok (2, [4; 5]) /\ concat (retained 4 H) = [4; 5] /\
    In 2 batch /\ In 3 batch.
Proof.
  exists (run1 4 [PStore [1; 2; 3] None; PStore [4; 5] None]), 0, [[1;2;3];[4;5]], [half; half; half; half].
  do 4 eexists. split.
  { unfold run1, pb_run, fold_left, pb_step.
    apply (reach_store ok1 norm1 pw1 half half 4 _ 0 [[1;2;3]] [4;5]); auto; try discriminate; try (cbn; lia).
    apply (reach_store ok1 norm1 pw1 half half 4 _ 0 [] [1;2;3]); auto; try discriminate; try (cbn; lia).
    apply reach_new. }
  split. { intros u Hu. assert (u = half) as -> by (cbn in Hu; intuition congruence). split; [discriminate|reflexivity]. }
  split; [vm_compute; reflexivity|]. split; [vm_compute; reflexivity|]. split; [vm_compute; reflexivity|].
  split; vm_compute; auto.
Qed.
Print Assumptions C13_evicted_sampled_refuted.

(* In every reachable buffer every stored transition can be sampled, evicted or not, provided that a part of its
   interval lies below the limit of the query points (1e-6 below the total). *)
Theorem C13_any_slot_refuted : forall T (ok : T -> bool) norm pw beta inc cap p k H i x,
  (forall x, (0 < norm x)%Qc) -> 1 <= cap ->
  reach ok norm pw beta inc cap p k H -> stored p i = Some x ->
  (prefix (leaf p) i < wt_sum (pb_t p) - Q2Qc (QArith_base.Qmake 1 1000000))%Qc ->
  exists us batch idx ws, length us = 2 /\ unit_draws us /\
    snd (pb_sample pw inc p us) = Ok (2, batch, idx, ws) /\ In i idx /\ In x batch.
Proof.
  intros T ok norm pw beta inc cap p k H i x N C R St Lt. set (ti := Q2Qc (QArith_base.Qmake 1 1000000)) in *.
  assert (Ti : (0 < ti)%Qc) by reflexivity.
  assert (Si : i < b_size (pb_b p)) by (apply nth_error_Some; unfold stored in St; congruence).
  assert (NZ : b_size (pb_b p) <> 0) by lia.
  destruct (reach_inv ok norm pw beta inc N cap p k H C R) as (f & I).
  assert (Pf : forall j, (0 <= leaf p j)%Qc) by (intros j; rewrite (leaf_f cap p _ f I); eapply f_nonneg; eauto).
  assert (Li : (0 < leaf p i)%Qc) by (rewrite (leaf_f cap p _ f I); apply (pi_pos _ _ _ _ I); auto).
  assert (PS : forall j, prefix (leaf p) (S j) = (prefix (leaf p) j + leaf p j)%Qc).
  { intros j. apply Verif.Proofs.WeightTreeProofs.prefix_S. }
  assert (PM : forall a b, a <= b -> (prefix (leaf p) a <= prefix (leaf p) b)%Qc).
  { intros a b L. induction L; [apply Qcle_refl|]. rewrite PS. specialize (Pf m). qcl. }
  assert (P0 : (0 <= prefix (leaf p) i)%Qc) by (apply (PM 0 i); lia).
  set (tot := wt_sum (pb_t p)) in *. set (M := Qcmin (prefix (leaf p) (S i)) (tot - ti)%Qc).
  assert (M1 : (prefix (leaf p) i < M)%Qc) by (unfold M; rewrite PS; unfold Qcmin; qdec; qcl).
  assert (M2 : (M <= prefix (leaf p) (S i))%Qc) by (unfold M, Qcmin; qdec; qcl).
  assert (M3 : (M <= tot - ti)%Qc) by (unfold M, Qcmin; qdec; qcl).
  clearbody M. assert (TP : (0 < tot)%Qc) by qcl.
  set (v := (nq 2 * M / tot)%Qc).
  assert (V : (v * tot)%Qc = (nq 2 * M)%Qc) by (unfold v; field; intros Q; rewrite Q in TP; discriminate).
  assert (N2 : nq 2 = (1 + 1)%Qc) by reflexivity.
  assert (V0 : (0 < v)%Qc).
  { unfold v, Qcdiv. apply Qcmul_pos; [apply Qcmul_pos; [reflexivity|qcl]|]. now apply Qcinv_pos. }
  assert (V2 : (v < nq 2)%Qc).
  { apply Qcnot_le_lt. intros Q. apply (Qcmult_le_compat_r _ _ tot) in Q; [|qcl]. rewrite V, N2 in Q.
    assert (((1 + 1) * tot)%Qc = (tot + tot)%Qc) as E1 by ring. assert (((1 + 1) * M)%Qc = (M + M)%Qc) as E2 by ring.
    rewrite E1, E2 in Q. qcl. }
  assert (KU : exists kk u, kk < 2 /\ (0 <= u)%Qc /\ (u < 1)%Qc /\ (nq kk + u)%Qc = v).
  { rewrite N2 in V2. destruct (Qclt_le_dec v 1) as [B|B].
    - exists 0, v. split; [lia|]. split; [qcl|]. split; auto. rewrite nq_0. ring.
    - exists 1, (v - 1)%Qc. split; [lia|]. split; [qcl|]. split; [qcl|]. change (nq 1) with 1%Qc. ring. }
  destruct KU as (kk & u & Kk & U0 & U1 & E).
  assert (U : unit_draws [u; u]) by (intros y [<-|[<-|[]]]; auto).
  destruct (reach_sample_ok ok norm pw beta inc N cap p k H [u; u] C R NZ (le_n 2) U) as (batch & idx & ws & Es & _ & _ & _ & PT).
  exists [u; u], batch, idx, ws. split; auto. split; auto. split; auto.
  assert (Eu : nth_error [u; u] kk = Some u) by (destruct kk as [|[|kk]]; auto; lia).
  destruct (PT kk u Eu) as (i' & y & Ei & _ & _ & Ey & Sy & Q). cbv zeta in Q.
  assert (QP : query_point (wt_sum (pb_t p)) u kk (length [u; u]) = M).
  { unfold query_point. fold tot ti. cbn [length]. rewrite E, V.
    assert ((nq 2 * M / nq 2)%Qc = M) as -> by (field; discriminate).
    unfold Qcmin, Qcmax. qdec; auto; apply Qcle_antisym; qcl. }
  rewrite QP in Q. destruct Q as [[Q _]|[Q1 Q2]]; [exfalso; rewrite Q in M1; qcl|].
  assert (i' = i) as ->.
  { destruct (Nat.lt_trichotomy i' i) as [L|[L|L]]; auto; exfalso.
    - specialize (PM (S i') i L). qcl.
    - specialize (PM (S i) i' L). qcl. }
  split; [eapply nth_error_In; eauto|]. rewrite St in Sy. injection Sy as ->. eapply nth_error_In; eauto.
Qed.
Print Assumptions C13_any_slot_refuted.
(* slot 1 of the buffer above holds the evicted 2 and satisfies the condition *)
Example C13_any_slot_nonvacuous :
  let p := run1 4 [PStore [1; 2; 3] None; PStore [4; 5] None] in
  stored p 1 = Some 2 /\ (prefix (leaf p) 1 < wt_sum (pb_t p) - Q2Qc (QArith_base.Qmake 1 1000000))%Qc.
Proof. split; reflexivity. Qed.

(* what does hold: a sampled transition is one of the last cap transitions written, and
   as long as nothing had to be evicted it belongs to a retained episode.
   Missing: retention by whole episodes once the buffer wrapped. *)
Theorem C13_recent_partial : forall T (ok : T -> bool) norm pw beta inc cap p k H us,
  (forall x, (0 < norm x)%Qc) -> 1 <= cap ->
  reach ok norm pw beta inc cap p k H -> b_size (pb_b p) <> 0 ->
  2 <= length us -> unit_draws us ->
  forall n batch idx ws, snd (pb_sample pw inc p us) = Ok (n, batch, idx, ws) ->
  forall x, In x batch ->
    (exists m, nth_error (concat H) m = Some x /\ length (concat H) <= m + cap) /\
    (total H <= cap -> In x (concat (retained cap H))).
Proof.
  intros T ok norm pw beta inc cap p k H us N C R NZ L U n batch idx ws E x X.
  destruct (reach_inv ok norm pw beta inc N cap p k H C R) as (f & I).
  destruct (reach_sample_ok ok norm pw beta inc N cap p k H us C R NZ L U) as (b' & i' & w' & E' & LB & _ & _ & PT).
  assert (b' = batch) by congruence. subst b'.
  apply In_nth_error in X as (j & J).
  assert (JL : j < length us) by (rewrite <- LB; apply nth_error_Some; congruence).
  destruct (nth_error us j) as [u|] eqn:Eu; [|apply nth_error_None in Eu; lia].
  destruct (PT _ _ Eu) as (i & y & _ & _ & _ & By & Sy & _).
  assert (y = x) by congruence. subst y.
  pose proof (stored_recent cap p _ f i x I Sy) as S. split; auto.
  intros TL. rewrite retained_all by auto. destruct S as (m & M & _). eapply nth_error_In; eauto.
Qed.
Print Assumptions C13_recent_partial.
Example C13_nonvacuous :
  let p := run1 4 [PStore [1; 2] None; PStore [3] None] in
  match snd (pb_sample pw1 half p [half; half; half]) with
  | Ok (_, batch, _, _) => batch = [1; 2; 3]
  | Err _ => False
  end.
Proof. vm_compute. auto. Qed.

Theorem C14_beta_closed_form : forall T (ok : T -> bool) norm pw beta inc cap p k H,
  (forall x, (0 < norm x)%Qc) -> 1 <= cap -> (beta <= 1)%Qc -> (0 <= inc)%Qc ->
  reach ok norm pw beta inc cap p k H -> pb_curr p = Qcmin 1 (beta + nq k * inc)%Qc.
Proof. exact (fun T ok norm pw beta inc cap p k H N => curr_beta_closed ok norm pw beta inc N cap p k H). Qed.
Print Assumptions C14_beta_closed_form.

(* for any beta at all: a sampling call never lowers it (once at most 1) and leaves it at most 1,
   and no other call except clear() changes it *)
Theorem C14_beta_monotone_bounded : forall T (ok : T -> bool) norm pw beta inc cap p k H us,
  (forall x, (0 < norm x)%Qc) -> 1 <= cap -> (beta <= 1)%Qc -> (0 <= inc)%Qc ->
  reach ok norm pw beta inc cap p k H -> b_size (pb_b p) <> 0 -> us <> [] -> unit_draws us ->
  (pb_curr p <= pb_curr (fst (pb_sample pw inc p us)))%Qc /\
  (pb_curr (fst (pb_sample pw inc p us)) <= 1)%Qc /\
  (forall ep ps, pb_curr (fst (pb_store ok norm p ep ps)) = pb_curr p) /\
  (forall ps idx, pb_curr (fst (pb_update norm p ps idx)) = pb_curr p) /\
  pb_curr (pb_clear beta p) = beta.
Proof.
  intros T ok norm pw beta inc cap p k H us N C B I0 R NZ NE U.
  pose proof (curr_beta_closed ok norm pw beta inc N cap p k H C B I0 R) as E.
  destruct (reach_inv ok norm pw beta inc N cap p k H C R) as (f & I).
  destruct (pb_sample_inv pw inc cap p _ f us I NZ NE U) as (_ & E2 & _).
  rewrite E2. repeat split.
  - rewrite E. unfold Qcmin. qdec; qcl.
  - unfold Qcmin. qdec; qcl.
  - intros ep ps. unfold pb_store. destruct (b_store_episode ok (pb_b p) ep) as [b1 [u|e]]; auto.
    destruct (dget (b_cnt b1 - 1) (b_eth b1)); auto. destruct (wt_update_batch _ _ _); auto.
  - intros ps idx. unfold pb_update. destruct (wt_update_batch _ _ _); auto.
Qed.
Print Assumptions C14_beta_monotone_bounded.
Example C14_nonvacuous :
  pb_curr (run1 4 [PStore [1; 2] None]) = half /\
  pb_curr (run1 4 [PStore [1; 2] None; PSample [half; half]]) = 1%Qc /\
  pb_curr (run1 4 [PStore [1; 2] None; PSample [half; half]; PSample [half; half]]) = 1%Qc /\
  pb_curr (run1 4 [PStore [1; 2] None; PSample [half; half]; PClear]) = half.
Proof. repeat split; vm_compute; reflexivity. Qed.

(* C51: importance-sampling weights are in (0,1], the largest is exactly 1, and a larger
   priority never gets a larger weight; [pw x b] = x^(-b) is positive and antitone. *)
Theorem C51_is_weights_normalized : forall T (ok : T -> bool) norm pw beta inc cap p k H us,
  (forall x, (0 < norm x)%Qc) -> 1 <= cap ->
  reach ok norm pw beta inc cap p k H -> b_size (pb_b p) <> 0 ->
  2 <= length us -> unit_draws us ->
  (forall x b, (0 < x)%Qc -> (0 < pw x b)%Qc) ->
  (forall x y b, (0 < x)%Qc -> (x <= y)%Qc -> (pw y b <= pw x b)%Qc) ->
  forall n batch idx ws, snd (pb_sample pw inc p us) = Ok (n, batch, idx, ws) ->
  (forall w, In w ws -> (0 < w)%Qc /\ (w <= 1)%Qc) /\ In 1%Qc ws /\
  (forall a b i j wi wj, nth_error idx a = Some i -> nth_error idx b = Some j ->
     nth_error ws a = Some wi -> nth_error ws b = Some wj -> (leaf p i <= leaf p j)%Qc -> (wj <= wi)%Qc).
Proof. exact (fun T ok norm pw beta inc cap p k H us N => reach_is_weights ok norm pw beta inc N cap p k H us). Qed.
Print Assumptions C51_is_weights_normalized.
(* and they are (size * P(i)) ^ (-beta) up to one common factor *)
Theorem C51_is_weights_formula : forall T (ok : T -> bool) norm pw beta inc cap p k H us,
  (forall x, (0 < norm x)%Qc) -> 1 <= cap ->
  reach ok norm pw beta inc cap p k H -> b_size (pb_b p) <> 0 ->
  2 <= length us -> unit_draws us ->
  forall n batch idx ws, snd (pb_sample pw inc p us) = Ok (n, batch, idx, ws) ->
  exists m, forall a i, nth_error idx a = Some i ->
    nth_error ws a = Some (pw (nq (b_size (pb_b p)) * (leaf p i / wt_sum (pb_t p))) (pb_curr p) / m)%Qc.
Proof. exact (fun T ok norm pw beta inc cap p k H us N => reach_is_formula ok norm pw beta inc N cap p k H us). Qed.
Print Assumptions C51_is_weights_formula.
Example C51_nonvacuous :
  let p := run1 4 [PStore [10; 20; 30] (Some [nq 0; nq 2; nq 1])] in
  match snd (pb_sample pw1 half p [half; half; half]) with
  | Ok (_, _, _, ws) => ws = [1; 1 / nq 3; half]%Qc
  | Err _ => False
  end.
Proof. vm_compute. repeat (f_equal; try (apply Qc_is_canon; reflexivity)). Qed.
