(* C44 piecewise constant learning rate. *)
From Coq Require Import Sorted.
From Verif Require Import Lib.Base Model.LearningRate.

(* the entry with the last threshold not larger than the step *)
Definition last_reached {R} (m : list (Z * R)) (step : Z) (r : R) : Prop :=
  exists i t, nth_error m i = Some (t, r) /\ (t <= step)%Z /\
    forall j t' r', i < j -> nth_error m j = Some (t', r') -> (step < t')%Z.
Definition ascending {R} (m : list (Z * R)) : Prop := forall i j ti ri tj rj,
  i < j -> nth_error m i = Some (ti, ri) -> nth_error m j = Some (tj, rj) -> (ti <= tj)%Z.

Lemma ascending_tl {R} (a : Z * R) m : ascending (a :: m) -> ascending m.
Proof. intros A i j ti ri tj rj L Hi Hj. apply (A (S i) (S j) ti ri tj rj); auto. lia. Qed.

(* For every step that has reached the first threshold. Missing: earlier steps, see C44_refuted. *)
Theorem C44_partial : forall R t0 (r0 : R) m step, ascending ((t0, r0) :: m) -> (t0 <= step)%Z ->
  forall r, learning_rate ((t0, r0) :: m) step = Ok r <-> last_reached ((t0, r0) :: m) step r.
Proof.
  intros R t0 r0 m. revert t0 r0. induction m as [|[t1 r1] m IH]; intros t0 r0 step A H0 r.
  - cbn. split.
    + intros [= ->]. exists 0, t0. split; auto. split; auto. intros [|j] t' r' L E; [lia|destruct j; discriminate].
    + intros ([|i] & t & E & _ & _); [now injection E as -> ->|destruct i; discriminate].
  - assert (E : learning_rate ((t0, r0) :: (t1, r1) :: m) step =
       if ((t0 <=? step) && (step <? t1))%Z then Ok r0 else learning_rate ((t1, r1) :: m) step) by reflexivity.
    rewrite E. destruct (Z.leb_spec t0 step); [|lia]. cbn [andb]. destruct (Z.ltb_spec step t1) as [L|L].
    + split.
      * intros [= ->]. exists 0, t0. split; auto. split; auto. intros [|[|j]] t' r' Lj Ej; [lia|now injection Ej as <- <-|].
        specialize (A 1 (S (S j)) t1 r1 t' r' ltac:(lia) eq_refl Ej). lia.
      * intros ([|i] & t & Ei & Ht & _); [now injection Ei as -> ->|]. exfalso.
        destruct i as [|i]; [injection Ei as -> ->; lia|].
        specialize (A 1 (S (S i)) t1 r1 t r ltac:(lia) eq_refl Ei). lia.
    + rewrite (IH t1 r1 step (ascending_tl _ _ A) L r). split.
      * intros (i & t & Ei & Ht & Mx). exists (S i), t. split; auto. split; auto.
        intros [|j] t' r' Lj Ej; [lia|]. apply (Mx j t' r'); auto. lia.
      * intros ([|i] & t & Ei & Ht & Mx).
        -- exfalso. specialize (Mx 1 t1 r1 ltac:(lia) eq_refl). lia.
        -- exists i, t. split; auto. split; auto. intros j t' r' Lj Ej. apply (Mx (S j) t' r'); auto. lia.
Qed.
Print Assumptions C44_partial.
(* Before the first threshold the rate of the last entry is returned, although no threshold
   has been reached. *)
Theorem C44_refuted : forall R (m : list (Z * R)) t0 r0 step, ascending ((t0, r0) :: m) -> (step < t0)%Z ->
  learning_rate ((t0, r0) :: m) step = Ok (snd (last ((t0, r0) :: m) (t0, r0))) /\
  (forall r, ~ last_reached ((t0, r0) :: m) step r).
Proof.
  intros R m t0 r0 step A H. split.
  - assert (G : forall d, Forall (fun e => (step < fst e)%Z) m -> learning_rate ((t0, r0) :: m) step = Ok (snd (last ((t0, r0) :: m) d))).
    { clear A. revert t0 r0 H. induction m as [|[t1 r1] m IH]; intros t0 r0 H d F; [reflexivity|].
      inversion F as [|? ? F1 F2]; subst. cbn in F1.
      assert (E : learning_rate ((t0, r0) :: (t1, r1) :: m) step =
        if ((t0 <=? step) && (step <? t1))%Z then Ok r0 else learning_rate ((t1, r1) :: m) step) by reflexivity.
      rewrite E. destruct (Z.leb_spec t0 step); [lia|]. cbn [andb]. rewrite (IH t1 r1 F1 d F2). reflexivity. }
    apply G. apply Forall_forall. intros [t r] I. apply In_nth_error in I as (j & Ej). cbn.
    specialize (A 0 (S j) t0 r0 t r ltac:(lia) eq_refl Ej). lia.
  - intros r (i & t & Ei & Ht & _). destruct i as [|i]; [injection Ei as -> ->; lia|].
    specialize (A 0 (S i) t0 r0 t r ltac:(lia) eq_refl Ei). lia.
Qed.
Print Assumptions C44_refuted.
Theorem C44_empty_map : forall R step, @learning_rate R [] step = Err EIndex.
Proof. reflexivity. Qed.
Print Assumptions C44_empty_map.
Example C44_nonvacuous : map (learning_rate [(0, 3); (10, 2); (10, 5); (20, 1)]%Z) [0; 9; 10; 19; 20; 99; -1]%Z
  = map Ok [3; 3; 5; 5; 1; 1; 1]%Z.
Proof. reflexivity. Qed.
