(* C50, C67, C68, C69, C70: TRPO. *)
From Coq Require Import Field.
From Verif Require Import Lib.Rat Model.Trpo Proofs.ReturnsProofs Proofs.TrpoProofs.
Set Implicit Arguments.
Local Open Scope Qc_scope.

(* ---------------- C50 ---------------- *)
Theorem C50_line_search : forall (loss kl : list vec -> Qc) limit step m n,
  length step = length (List.concat m) ->
  let cand j := set_flat m (vadd (List.concat m) (scale (half_pow j) step)) in
  let ok j := kl (cand j) <= limit /\ loss (cand j) < loss m in
  let (m', success) := line_search loss kl limit step m n in
  if success then exists i, (i < n)%nat /\ m' = cand i /\ ok i /\ forall j, (j < i)%nat -> ~ ok j
  else m' = m /\ forall j, (j < n)%nat -> ~ ok j.
Proof.
  intros loss kl limit step m n L cand ok. unfold line_search.
  change (List.concat m) with (get_flat m) in L. rewrite concat_length in L.
  pose proof (@search_spec loss kl limit step m n L 0%nat m eq_refl) as H. cbn zeta in H.
  destruct (search loss kl limit step (get_flat m) (loss m) m 0 n) as [m' []].
  - destruct H as (i & A & B & C & D). exists i. repeat split; try lia; auto; try apply C.
    intros j Hj. apply D. lia.
  - destruct H as (A & B). split; auto. intros j Hj. apply B. lia.
Qed.
Print Assumptions C50_line_search.
(* The candidate has the parameters old + 0.5^i * step and keeps all tensor shapes. *)
Theorem C50_candidate : forall m (step : vec) i, length step = length (List.concat m) ->
  let c := set_flat m (vadd (List.concat m) (scale (half_pow i) step)) in
  map (@length Qc) c = map (@length Qc) m
  /\ forall k, nth k (List.concat c) 0 = nth k (List.concat m) 0 + Qcpower (1 / (1 + 1)) i * nth k step 0.
Proof.
  intros m step i L c. change (List.concat m) with (get_flat m) in *.
  assert (Lc : length (vadd (get_flat m) (scale (half_pow i) step)) = total m).
  { unfold vadd. rewrite zipw_length; rewrite ?scale_length, <- ?concat_length; auto. }
  split; [now apply set_flat_shape|]. intros k. unfold c.
  change (List.concat (set_flat m (vadd (get_flat m) (scale (half_pow i) step))))
    with (get_flat (set_flat m (vadd (get_flat m) (scale (half_pow i) step)))).
  rewrite get_set_flat by auto.
  assert (P : half_pow i = Qcpower (1 / (1 + 1)) i).
  { clear. induction i as [|i IH]; cbn [half_pow Qcpower]; [reflexivity|]. rewrite IH. ring. }
  rewrite P. generalize (Qcpower (1 / (1 + 1)) i). intros q. clear - L. revert k step L.
  generalize (get_flat m). intros v. induction v as [|x v IH]; intros k [|y w] L; cbn in L; try discriminate.
  - destruct k; cbn; ring.
  - destruct k as [|k]; cbn; [ring|]. apply IH. lia.
Qed.
Print Assumptions C50_candidate.
Example C50_nonvacuous :
  let loss m := match m with [[x]; [y]] => x * x + y * y | _ => 0 end in
  let kl m := match m with [[x]; [y]] => Qcabs (x - nq 4) | _ => 0 end in
  let '(m', b) := line_search loss kl (nq 3) [- nq 12; 0] [[nq 4]; [1]] 5 in
  b = true /\ map (map this) m' = [[this (nq 1)]; [this 1]]
  /\ snd (line_search loss kl (nq 3) [nq 12; 0] [[nq 4]; [1]] 5) = false.
Proof. vm_compute. repeat split. Qed.

(* ---------------- C69 ---------------- *)
Lemma half_pow_pos i : 0 < half_pow i.
Proof. induction i; cbn [half_pow]; [reflexivity|]. apply Qcmul_pos; auto. reflexivity. Qed.
Lemma half_pow_S i : half_pow (S i) < half_pow i.
Proof.
  pose proof (half_pow_pos i). cbn [half_pow].
  assert (E : half_pow i = half_pow i * (1 / (1 + 1)) + half_pow i * (1 / (1 + 1))) by (field; discriminate).
  assert (0 < half_pow i * (1 / (1 + 1))) by (apply Qcmul_pos; auto; reflexivity).
  qcl.
Qed.
Lemma half_pow_mono i j : (i < j)%nat -> half_pow j < half_pow i.
Proof. induction 1 as [|j H IH]; [apply half_pow_S|]. pose proof (half_pow_S j). qcl. Qed.
(* a loss that is below the starting loss exactly from the exponent t on *)
Definition late (t : nat) (m : list vec) : Qc :=
  match m with [[x]] => if (Qcltb 0 x && Qcleb x (half_pow t))%bool then - (1) else 0 | _ => 0 end.
Lemma late_spec t n : let (m', b) := line_search (late t) (fun _ => 0) 0 [1] [[0]] n in
  b = (t <? n)%nat.
Proof.
  pose proof (C50_line_search (late t) (fun _ => 0) 0 [1] [[0]] n eq_refl) as H. cbn zeta in H.
  assert (E : forall j, late t (set_flat [[0]] (vadd (List.concat [[0]]) (scale (half_pow j) [1]))) < late t [[0]]
              <-> (t <= j)%nat).
  { intros j. cbn [List.concat app set_flat length vadd zipw scale map firstn skipn late].
    replace (0 + half_pow j * 1) with (half_pow j) by ring.
    destruct (Qcltb_spec 0 0) as [C|_]; [exfalso; qcl|]. cbn [andb].
    destruct (Qcltb_spec 0 (half_pow j)) as [_|C]; [|exfalso; apply C; apply half_pow_pos]. cbn [andb].
    destruct (Qcleb_spec (half_pow j) (half_pow t)) as [C|C].
    - split; [|reflexivity]. intros _. destruct (Nat.le_gt_cases t j) as [|G]; auto.
      apply half_pow_mono in G. exfalso. qcl.
    - split; [intros F; exfalso; qcl|]. intros G. exfalso. apply C.
      destruct (Nat.eq_dec t j) as [->|]; [qcl|]. assert (t < j)%nat as G' by lia. apply half_pow_mono in G'. qcl. }
  destruct (line_search (late t) (fun _ => 0) 0 [1] [[0]] n) as [m' []].
  - destruct H as (i & A & _ & [_ C] & _). apply E in C. symmetry. apply Nat.ltb_lt. lia.
  - destruct H as (_ & H). destruct (Nat.ltb_spec t n) as [G|]; auto. exfalso.
    apply (H t G). split; [qcl|]. apply E. lia.
Qed.
(* The number of tries is 10 whatever line_search_backtracks says: with a smaller setting an update
   beyond the setting is accepted, with a larger one an update within the setting is missed. *)
Theorem C69_refuted : forall b,
  ((b < 10)%nat -> exists loss kl limit step m,
     snd (update_search loss kl limit step b m) = true /\ snd (line_search loss kl limit step m b) = false)
  /\ ((10 < b)%nat -> exists loss kl limit step m,
     snd (update_search loss kl limit step b m) = false /\ snd (line_search loss kl limit step m b) = true).
Proof.
  intros b. split; intros H.
  - exists (late 9), (fun _ => 0), 0, [1], [[0]]. unfold update_search.
    pose proof (late_spec 9 10) as A. pose proof (late_spec 9 b) as B.
    destruct (line_search (late 9) (fun _ => 0) 0 [1] [[0]] 10) as [m1 b1].
    destruct (line_search (late 9) (fun _ => 0) 0 [1] [[0]] b) as [m2 b2]. cbn [snd]. subst.
    split; [reflexivity|]. apply Nat.ltb_ge. lia.
  - exists (late 10), (fun _ => 0), 0, [1], [[0]]. unfold update_search.
    pose proof (late_spec 10 10) as A. pose proof (late_spec 10 b) as B.
    destruct (line_search (late 10) (fun _ => 0) 0 [1] [[0]] 10) as [m1 b1].
    destruct (line_search (late 10) (fun _ => 0) 0 [1] [[0]] b) as [m2 b2]. cbn [snd]. subst.
    split; [reflexivity|]. apply Nat.ltb_lt. lia.
Qed.
Print Assumptions C69_refuted.
(* Missing for the full claim: other settings than the default. *)
Theorem C69_partial : forall loss kl limit step m,
  update_search loss kl limit step 10 m = line_search loss kl limit step m 10.
Proof. reflexivity. Qed.
Print Assumptions C69_partial.

(* ---------------- C67 ---------------- *)
(* the squared distance of two vectors *)
Definition dist2 (a b : vec) : Qc :=
  sumn (fun i => (nth i a 0 - nth i b 0) * (nth i a 0 - nth i b 0)) 0 (length a).
Definition inner (a b : vec) : Qc := sumn (fun i => nth i a 0 * nth i b 0) 0 (length a).
Lemma dot_inner (a b : vec) : length a = length b -> dot a b = inner a b.
Proof.
  unfold inner. revert b. induction a as [|x a IH]; intros [|y b] H; cbn in *; try discriminate; auto.
  rewrite IH by lia. f_equal. rewrite sumn_shift. reflexivity.
Qed.
Lemma dot_dist2 (a b : vec) : length a = length b -> dot (vsub a b) (vsub a b) = dist2 a b.
Proof.
  unfold dist2. revert b. induction a as [|x a IH]; intros [|y b] H; cbn in *; try discriminate; auto.
  unfold vsub in IH. rewrite IH by lia. f_equal. rewrite sumn_shift. reflexivity.
Qed.
(* For a linear operator: the returned x has a squared residual |b - A x|^2 below the threshold, unless
   none of the iterates x_1 ... x_n reaches it. *)
Theorem C67_residual : forall (A : vec -> vec) eps threshold b n x,
  linear A (length b) ->
  conjugate_gradients A eps threshold b n = Some x ->
  let res y := dist2 b (A y) in
  length x = length b /\
  (res x < threshold
   \/ forall k y, (0 < k <= n)%nat -> conjugate_gradients A eps threshold b k = Some y -> threshold <= res y).
Proof.
  intros A eps threshold b n x Lin H res.
  set (z := map (fun _ : Qc => 0) b).
  assert (Lz : length z = length b) by apply map_length.
  assert (Zz : forall x, In x z -> x = 0).
  { unfold z. intros y Hy. apply in_map_iff in Hy as (? & <- & _). reflexivity. }
  assert (EA : vsub b (A z) = b).
  { rewrite (@zeros_A A (length b) z) by auto. apply vsub_zeros; rewrite ?map_length; auto.
    intros y Hy. apply in_map_iff in Hy as (? & <- & _). reflexivity. }
  assert (R : forall k, conjugate_gradients A eps threshold b k
                        = cg_loop A eps threshold k z (vsub b (A z)) b (res2 A b z)).
  { intros k. unfold conjugate_gradients, res2. rewrite EA. reflexivity. }
  rewrite R in H. destruct (@cg_loop_spec A eps threshold b Lin n z b Lz eq_refl x H) as [L G].
  assert (Q : forall y, length y = length b -> res2 A b y = res y).
  { intros y Ly. unfold res2, res. apply dot_dist2. destruct Lin as [LA _]. now rewrite LA. }
  split; [exact L|]. destruct G as [G|G]; [left; rewrite <- Q by exact L; exact G|right].
  intros k y Hk Hy. rewrite R in Hy. destruct (@cg_loop_spec A eps threshold b Lin k z b Lz eq_refl y Hy) as [Ly _].
  rewrite <- Q by exact Ly. eapply G; eauto.
Qed.
Print Assumptions C67_residual.
(* the first iterate: the step along b of length b.b / (b.Ab + eps), when the divisors are not zero (else there is no result) *)
Theorem C67_first : forall (A : vec -> vec) eps threshold b,
  length (A b) = length b ->
  let c := inner b (A b) + eps in
  conjugate_gradients A eps threshold b 1
  = if Qc_eq_dec c 0 then None else if Qc_eq_dec (inner b b + eps) 0 then None
    else Some (map (fun x => inner b b / c * x) b).
Proof.
  intros A eps threshold b L c. unfold conjugate_gradients, c. cbn [cg_loop].
  rewrite (@dot_inner b (A b)), (@dot_inner b b) by auto. unfold qdiv at 1. destruct (Qc_eq_dec _ 0); auto.
  unfold qdiv. destruct (Qc_eq_dec _ 0); auto.
  assert (E : vadd (map (fun _ => 0) b) (scale (inner b b / (inner b (A b) + eps)) b)
              = map (fun x => inner b b / (inner b (A b) + eps) * x) b).
  { generalize (inner b b / (inner b (A b) + eps)) as k. clear. intros k. unfold vadd, scale.
    induction b as [|x b IH]; auto. cbn. rewrite IH. f_equal. ring. }
  rewrite E. destruct (Qcltb _ _); reflexivity.
Qed.
Print Assumptions C67_first.
Example C67_nonvacuous :
  let A (x : vec) := match x with [u; v] => [nq 2 * u + v; u + nq 3 * v] | _ => [] end in
  let cg n := option_map (map this) (conjugate_gradients A 0 (1 / nq 1000) [nq 1; nq 2] n) in
  cg 1%nat = Some [QArith_base.Qmake 5 18; QArith_base.Qmake 5 9]
  /\ cg 5%nat = Some [QArith_base.Qmake 1 5; QArith_base.Qmake 3 5].
Proof. split; vm_compute; reflexivity. Qed.

(* ---------------- C68 ---------------- *)
(* KL(N(m1, exp l1) || N(m0, exp l0)) of one dimension *)
Definition gauss_kl (exp : Qc -> Qc) (m1 l1 m0 l0 : Qc) : Qc :=
  l0 - l1 + (exp l1 * exp l1 + (m1 - m0) * (m1 - m0)) / ((1 + 1) * (exp l0 * exp l0)) - 1 / (1 + 1).
(* compare_kl misses the logarithmic term ... *)
Theorem C68_difference : forall exp dims,
  compare_kl exp dims
  = qsum (map (fun d => gauss_kl exp (snd (fst d)) (snd (snd d)) (fst (fst d)) (fst (snd d))) dims)
    + qsum (map (fun d => snd (snd d) - fst (snd d)) dims).
Proof.
  intros exp dims. unfold compare_kl. rewrite <- qsum_map_plus. f_equal. apply map_ext.
  intros [[mo mn] [lo ln]]. unfold term, kl_term, gauss_kl. cbn [fst snd]. ring.
Qed.
Print Assumptions C68_difference.
(* ... so that it is negative, and any limit is respected, whenever the deviations shrink and the
   means stay. *)
Theorem C68_refuted : forall (exp : Qc -> Qc) dims, dims <> [] -> (forall x, 0 < exp x) ->
  (forall d, In d dims -> fst (fst d) = snd (fst d) /\ exp (snd (snd d)) < exp (fst (snd d))) ->
  compare_kl exp dims < 0.
Proof.
  intros exp dims N P H. unfold compare_kl.
  assert (G : forall d, In d dims -> term exp d < 0).
  { intros [[mo mn] [lo ln]] Hd. destruct (H _ Hd) as [E L]. cbn [fst snd] in *. subst mn.
    unfold term, kl_term. cbn [fst snd].
    pose proof (P lo) as Plo. pose proof (P ln) as Pln.
    assert (Psq : 0 < exp lo * exp lo) by now apply Qcmul_pos.
    assert (Pd : 0 < (1 + 1) * (exp lo * exp lo)) by (apply Qcmul_pos; auto; reflexivity).
    assert (Pi : 0 < / ((1 + 1) * (exp lo * exp lo))) by now apply Qcinv_pos.
    assert (Pg : 0 < (exp lo * exp lo - exp ln * exp ln)).
    { replace (exp lo * exp lo - exp ln * exp ln) with ((exp lo - exp ln) * (exp lo + exp ln)) by ring.
      apply Qcmul_pos; qcl. }
    assert (Pp : 0 < (exp lo * exp lo - exp ln * exp ln) * / ((1 + 1) * (exp lo * exp lo))) by now apply Qcmul_pos.
    replace (ln - ln + (exp ln * exp ln + (mo - mo) * (mo - mo)) / ((1 + 1) * (exp lo * exp lo)) - 1 / (1 + 1))
      with (- ((exp lo * exp lo - exp ln * exp ln) * / ((1 + 1) * (exp lo * exp lo)))).
    - qcl.
    - field. split; [discriminate|]. intros Z. rewrite Z in Psq. qcl. }
  destruct dims as [|d r]; [congruence|]. cbn [map qsum].
  assert (qsum (map (term exp) r) <= 0).
  { assert (G' : forall d, In d r -> term exp d < 0) by (intros; apply G; now right).
    clear - G'. induction r as [|a r IH]; cbn [map qsum]; [qcl|].
    pose proof (G' a (or_introl eq_refl)). assert (qsum (map (term exp) r) <= 0) by (apply IH; intros; apply G'; now right). qcl. }
  pose proof (G d (or_introl eq_refl)). qcl.
Qed.
Print Assumptions C68_refuted.
(* With unchanged deviations it is the divergence, in both directions, and not negative.
   Missing: changed deviations. *)
Theorem C68_partial : forall (exp : Qc -> Qc) dims, (forall x, 0 < exp x) ->
  (forall d, In d dims -> fst (snd d) = snd (snd d)) ->
  compare_kl exp dims = qsum (map (fun d => gauss_kl exp (fst (fst d)) (fst (snd d)) (snd (fst d)) (snd (snd d))) dims)
  /\ 0 <= compare_kl exp dims.
Proof.
  intros exp dims P H. unfold compare_kl.
  assert (G : forall d, In d dims ->
     term exp d = gauss_kl exp (fst (fst d)) (fst (snd d)) (snd (fst d)) (snd (snd d)) /\ 0 <= term exp d).
  { intros [[mo mn] [lo ln]] Hd. specialize (H _ Hd). cbn [fst snd] in *. subst ln.
    unfold term, kl_term, gauss_kl. cbn [fst snd]. pose proof (P lo) as Plo.
    assert (Psq : 0 < exp lo * exp lo) by now apply Qcmul_pos.
    assert (Nz : exp lo <> 0) by now apply Qcpos_neq.
    split; [field; split; first [exact Nz|discriminate]|].
    assert (Pi : 0 < / ((1 + 1) * (exp lo * exp lo))) by (apply Qcinv_pos; apply Qcmul_pos; auto; reflexivity).
    replace (lo - lo + (exp lo * exp lo + (mn - mo) * (mn - mo)) / ((1 + 1) * (exp lo * exp lo)) - 1 / (1 + 1))
      with ((mn - mo) * (mn - mo) * / ((1 + 1) * (exp lo * exp lo))) by (field; split; first [exact Nz|discriminate]).
    apply Qcmul_nonneg; [|qcl].
    destruct (Qclt_le_dec (mn - mo) 0) as [C|C].
    - replace ((mn - mo) * (mn - mo)) with ((mo - mn) * (mo - mn)) by ring. apply Qcmul_nonneg; qcl.
    - apply Qcmul_nonneg; auto. }
  split.
  - f_equal. apply map_ext_in. intros d Hd. apply G. exact Hd.
  - apply qsum_nonneg. intros x Hx. apply in_map_iff in Hx as (d & <- & Hd). apply G. exact Hd.
Qed.
Print Assumptions C68_partial.
Example C68_nonvacuous :
  let exp (x : Qc) := if Qcltb x 0 then 1 / (1 + 1) else 1 in
  this (compare_kl exp [((1, 1), (0, - (1)))]) = QArith_base.Qmake (-3) 8
  /\ this (compare_kl exp [((0, 1), (0, 0))]) = QArith_base.Qmake 1 2.
Proof. split; vm_compute; reflexivity. Qed.

(* ---------------- C70 ---------------- *)
(* The Fisher information of a categorical distribution in its probabilities is 1 / p; get_fim returns p. *)
Theorem C70_refuted : forall ps i p, nth_error ps i = Some p -> 0 < p -> p < 1 ->
  nth_error (get_fim ps) i <> Some (1 / p).
Proof.
  intros ps i p H P L E. unfold get_fim in E. rewrite H in E. injection E as E.
  assert (E2 : p * p = 1).
  { rewrite E at 2. field. now apply Qcpos_neq. }
  assert (0 < p * (1 - p)) by (apply Qcmul_pos; qcl).
  assert (E3 : p * (1 - p) = p - p * p) by ring. qcl.
Qed.
Print Assumptions C70_refuted.
Example C70_nonvacuous : map this (get_fim [1 / nq 4; nq 3 / nq 4]) = [QArith_base.Qmake 1 4; QArith_base.Qmake 3 4].
Proof. reflexivity. Qed.
