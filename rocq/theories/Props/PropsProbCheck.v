(* C210 the check of probability tensors, C211 greedy discrete actions. *)
From Verif Require Import Lib.Rat Model.ProbCheck.

(* total of a list of numbers *)
Fixpoint qtotal (l : list Qc) : Qc := match l with [] => 0%Qc | x :: r => (x + qtotal r)%Qc end.
(* rows of numbers that are not negative and differ from 1 in sum by less than 1e-5 *)
Definition distribution (r : list fl) : Prop :=
  exists qs, r = map Fin qs /\ (forall q, In q qs -> (0 <= q)%Qc) /\ (1 - eps < qtotal qs)%Qc /\ (qtotal qs < 1 + eps)%Qc.

Lemma ltb_true x y : Qcltb x y = true <-> (x < y)%Qc.
Proof. destruct (Qcltb_spec x y); split; auto; try discriminate; contradiction. Qed.
Lemma ltb_false x y : Qcltb x y = false <-> (y <= x)%Qc.
Proof. destruct (Qcltb_spec x y); split; auto; try discriminate; intros; try (now apply Qcle_not_lt); qcl. Qed.
Lemma fsum_fin qs : fsum (map Fin qs) = Fin (qtotal qs).
Proof. induction qs as [|q qs IH]; cbn; auto. unfold fsum in IH. now rewrite IH. Qed.
Lemma abs_lt x e : (Qcabs x < e)%Qc <-> (- e < x)%Qc /\ (x < e)%Qc.
Proof.
  unfold Qcabs. split; [intros H; split; qdec; qcl|]. intros [H1 H2]. qdec; qcl.
Qed.
Lemma row_ok r : (flt (fabs (fadd (fsum r) (Fin (- (1))%Qc))) (Fin eps) && forallb fge0 r)%bool = true <-> distribution r.
Proof.
  split.
  - intros H. apply andb_true_iff in H as [H N]. rewrite forallb_forall in N.
    assert (G : (forall x, In x r -> exists q, x = Fin q /\ (0 <= q)%Qc) \/ fsum r = PInf).
    { clear H. induction r as [|x r IH]; [left; intros x []|].
      destruct (IH ltac:(intros y Y; apply N; right; auto)) as [IH'|IH'].
      - pose proof (N x (or_introl eq_refl)) as Nx. destruct x as [q| | |]; try discriminate.
        + left. intros y [<-|Y]; auto. exists q. split; auto. cbn in Nx. apply negb_true_iff, ltb_false in Nx. exact Nx.
        + right. assert (E : exists q, fsum r = Fin q).
          { clear -IH'. induction r as [|y r IH]; [eexists; reflexivity|]. destruct IH as [q E]; [intros z Z; apply IH'; right; auto|].
            destruct (IH' y (or_introl eq_refl)) as (p & -> & _). cbn. unfold fsum in E. rewrite E. eexists. reflexivity. }
          destruct E as [q E]. cbn. unfold fsum in E. now rewrite E.
      - right. cbn. unfold fsum in IH'. rewrite IH'. pose proof (N x (or_introl eq_refl)) as Nx. destruct x; try discriminate; reflexivity. }
    destruct G as [G|G]; [|rewrite G in H; discriminate].
    assert (Q : exists qs, r = map Fin qs /\ forall q, In q qs -> (0 <= q)%Qc).
    { clear -G. induction r as [|x r IH]; [exists []; split; auto; intros q []|].
      destruct IH as (qs & -> & P); [intros y Y; apply G; right; auto|]. destruct (G x (or_introl eq_refl)) as (q & -> & Pq).
      exists (q :: qs). split; auto. intros p [<-|I]; auto. }
    destruct Q as (qs & -> & P). exists qs. split; auto. split; auto. rewrite fsum_fin in H. cbn in H. apply ltb_true, abs_lt in H as [H1 H2].
    split; qcl.
  - intros (qs & -> & P & L & U). apply andb_true_intro. split.
    + rewrite fsum_fin. cbn. apply ltb_true, abs_lt. split; qcl.
    + apply forallb_forall. intros x I. apply in_map_iff in I as (q & <- & I). cbn. apply negb_true_iff, ltb_false. auto.
Qed.

(* exactly the matrices of distributions are accepted; infinities and nan are refused *)
Theorem C210_exactly_distributions : forall t,
  (assert_output_is_probs t = Ok tt <-> exists rows, t = Mat rows /\ forall r, In r rows -> distribution r) /\
  (assert_output_is_probs t = Ok tt \/ assert_output_is_probs t = Err EValue).
Proof.
  intros [rows|d]; cbn [assert_output_is_probs]; [|split; [split; [discriminate|intros (rows & E & _); discriminate]|auto]].
  split; [|destruct (_ && _)%bool; auto]. destruct (_ && _)%bool eqn:E.
  - split; auto. intros _. exists rows. split; auto. apply andb_true_iff in E as [E1 E2]. rewrite forallb_forall in E1, E2.
    intros r I. apply row_ok, andb_true_intro. auto.
  - split; [discriminate|]. intros (rows' & Q & H). injection Q as <-. exfalso.
    assert (T : forall r, In r rows -> (flt (fabs (fadd (fsum r) (Fin (- (1))%Qc))) (Fin eps) = true /\ forallb fge0 r = true)).
    { intros r I. apply andb_true_iff, row_ok, H, I. }
    rewrite (proj2 (forallb_forall _ rows)) in E by (intros r I; apply T, I).
    rewrite (proj2 (forallb_forall _ rows)) in E by (intros r I; apply T, I). discriminate.
Qed.
Print Assumptions C210_exactly_distributions.
Example C210_nonvacuous :
  let h := Fin (1 / nq 2)%Qc in
  assert_output_is_probs (Mat [[h; h]; [Fin 1%Qc; Fin 0%Qc]]) = Ok tt /\ assert_output_is_probs (Mat [[h; h; h]]) = Err EValue /\
  assert_output_is_probs (Mat [[Fin (nq 2); Fin (- (1))%Qc]]) = Err EValue /\ assert_output_is_probs (Mat [[h; NaN]]) = Err EValue /\
  assert_output_is_probs (Mat [[]]) = Err EValue /\ assert_output_is_probs (OtherDim 1) = Err EValue /\ assert_output_is_probs (Mat []) = Ok tt.
Proof. vm_compute. auto 10. Qed.

(* position i holds a largest element of r *)
Definition at_max (r : list fl) (i : nat) : Prop :=
  exists m, nth_error r i = Some m /\ forall x, In x r -> flt m x = false.
(* an actor whose output is accepted: one action for every row, each a column of the matrix and of positive probability *)
Lemma eps_lt : (eps < 1)%Qc.
Proof. reflexivity. Qed.
Theorem C211_actions : forall argmax t,
  (forall r, r <> [] -> at_max r (argmax r)) -> assert_output_is_probs t = Ok tt ->
  exists rows acts, t = Mat rows /\ act_discrete argmax t = Ok acts /\ length acts = length rows /\
    forall k r a, nth_error rows k = Some r -> nth_error acts k = Some a ->
      a < length r /\ exists p, nth_error r a = Some (Fin p) /\ (0 < p)%Qc /\ (forall q, In (Fin q) r -> (q <= p)%Qc).
Proof.
  intros argmax t AM E. pose proof (proj1 (proj1 (C210_exactly_distributions t)) E) as (rows & -> & D).
  exists rows, (map argmax rows). split; auto. split; [unfold act_discrete; rewrite E; reflexivity|]. split; [apply map_length|].
  intros k r a K Ka. rewrite nth_error_map, K in Ka. cbn in Ka. injection Ka as <-.
  destruct (D r (nth_error_In _ _ K)) as (qs & -> & P & L & U).
  assert (T : (0 < qtotal qs)%Qc) by (pose proof eps_lt; qcl).
  assert (NE : map Fin qs <> []) by (intros Q; destruct qs; [cbn in T; qcl|discriminate]).
  destruct (AM _ NE) as (m & Em & Mx). rewrite nth_error_map in Em.
  split; [rewrite map_length; apply nth_error_Some; intros Q; rewrite Q in Em; discriminate|].
  destruct (nth_error qs (argmax (map Fin qs))) as [p|] eqn:Ep; [|discriminate]. cbn in Em. injection Em as <-.
  exists p. split; [now rewrite nth_error_map, Ep|].
  assert (U1 : forall q, In q qs -> (q <= p)%Qc).
  { intros q I. specialize (Mx (Fin q) (in_map Fin _ _ I)). cbn in Mx. now apply ltb_false in Mx. }
  split.
  - destruct (Qclt_le_dec 0 p) as [|Np]; auto. exfalso.
    assert (Z : (qtotal qs <= 0)%Qc).
    { clear -U1 Np. induction qs as [|x qs IH]; cbn; [qcl|]. assert (x <= p)%Qc by (apply U1; left; auto).
      assert (qtotal qs <= 0)%Qc by (apply IH; intros; apply U1; right; auto). qcl. }
    qcl.
  - intros q I. apply in_map_iff in I as (q' & Q & I). injection Q as ->. auto.
Qed.
Print Assumptions C211_actions.
Definition first_max (r : list fl) : nat :=
  match r with [Fin a; Fin b] => if Qcltb a b then 1 else 0 | _ => 0 end.
Example C211_nonvacuous :
  let h := Fin (1 / nq 2)%Qc in
  act_discrete first_max (Mat [[h; h]; [Fin 0%Qc; Fin 1%Qc]]) = Ok [0; 1] /\ act_discrete first_max (Mat [[h; NaN]]) = Err EValue.
Proof. vm_compute. auto. Qed.
