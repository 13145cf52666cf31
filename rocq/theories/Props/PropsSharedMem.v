(* C167, C168: MADDPG with a process pool, maddpg.py 925-956. *)
From Verif Require Import Lib.Base Model.SharedMem.
Set Implicit Arguments.

(* Position in a nested object: index into a list or tuple, or key of a dictionary *)
Inductive sel (K : Type) := Idx (n : nat) | Key (k : K).
Arguments Idx {K}.

Section S.
  Context {X K : Type}.
  (* [at_path o p o']: o' is the part of o found along p *)
  Inductive at_path : obj X K -> list (sel K) -> obj X K -> Prop :=
  | ap_here o : at_path o [] o
  | ap_list l n o p o' : nth_error l n = Some o -> at_path o p o' -> at_path (OList l) (Idx n :: p) o'
  | ap_tuple l n o p o' : nth_error l n = Some o -> at_path o p o' -> at_path (OTuple l) (Idx n :: p) o'
  | ap_dict d k o p o' : In (k, o) d -> at_path o p o' -> at_path (ODict d) (Key k :: p) o'.

  Lemma move_path (o : obj X K) p o' : at_path o p o' -> at_path (move o) p (move o').
  Proof.
    induction 1 as [o|l n o p o' E A IH|l n o p o' E A IH|d k o p o' I A IH]; cbn.
    - constructor.
    - eapply ap_list; eauto. now apply map_nth_error.
    - eapply ap_tuple; eauto. now apply map_nth_error.
    - eapply ap_dict; eauto. apply in_map_iff. exists (k, o). auto.
  Qed.
  Lemma path_move p : forall (o o' : obj X K), at_path (move o) p o' -> exists o1, at_path o p o1 /\ move o1 = o'.
  Proof.
    induction p as [|c p IH]; intros o o' A; [inversion A; subst; exists o; split; [constructor|auto]|].
    destruct o; cbn in A; inversion A; subst.
    - rewrite nth_error_map in H2. destruct (nth_error l n) as [o1|] eqn:E; [|discriminate]. injection H2 as <-.
      destruct (IH _ _ H4) as (o2 & A2 & E2). exists o2. split; auto. eapply ap_list; eauto.
    - rewrite nth_error_map in H2. destruct (nth_error l n) as [o1|] eqn:E; [|discriminate]. injection H2 as <-.
      destruct (IH _ _ H4) as (o2 & A2 & E2). exists o2. split; auto. eapply ap_tuple; eauto.
    - apply in_map_iff in H2 as ([k1 o1] & E & I). cbn in E. injection E as -> <-.
      destruct (IH _ _ H4) as (o2 & A2 & E2). exists o2. split; auto. eapply ap_dict; eauto.
  Qed.

  (* Every tensor of a batch is found at the same place with the same data, detached and shared, the
     result has no other tensors, and containers keep their kind and length.
     Missing: the other values (next theorem). *)
  Theorem C167_tensors_partial : forall (o : obj X K) p,
    (forall x g s, at_path o p (Tensor x g s) -> at_path (move o) p (Tensor x false true)) /\
    (forall x g s, at_path (move o) p (Tensor x g s) -> g = false /\ s = true /\ exists g0 s0, at_path o p (Tensor x g0 s0)) /\
    (forall l, at_path o p (OList l) -> exists l', at_path (move o) p (OList l') /\ length l' = length l) /\
    (forall l, at_path o p (OTuple l) -> exists l', at_path (move o) p (OTuple l') /\ length l' = length l) /\
    (forall d, at_path o p (ODict d) -> exists d', at_path (move o) p (ODict d') /\ map fst d' = map fst d).
  Proof.
    intros o p. repeat split.
    - intros x g s A. apply move_path in A. exact A.
    - destruct (path_move _ H) as (o1 & A & E). destruct o1; inversion E; auto.
    - destruct (path_move _ H) as (o1 & A & E). destruct o1; inversion E; auto.
    - destruct (path_move _ H) as (o1 & A & E). destruct o1; inversion E; subst; eauto.
    - intros l A. apply move_path in A. cbn in A. eexists. split; [exact A|]. apply map_length.
    - intros l A. apply move_path in A. cbn in A. eexists. split; [exact A|]. apply map_length.
    - intros d A. apply move_path in A. cbn in A. eexists. split; [exact A|]. rewrite map_map. reflexivity.
  Qed.

  (* Every other value, wherever it is in the batch, is replaced by None. *)
  Theorem C167_values_lost_refuted : forall (o : obj X K) p x,
    at_path o p (Other x) -> at_path (move o) p ONone /\ forall p' y, ~ at_path (move o) p' (Other y).
  Proof.
    intros o p x A. split; [exact (move_path A)|]. intros p' y B.
    destruct (path_move _ B) as (o1 & _ & E). destruct o1; discriminate.
  Qed.
End S.
Print Assumptions C167_tensors_partial.
Print Assumptions C167_values_lost_refuted.

(* (state, action, reward, next_state, terminal, custom attributes): the custom attribute 11 with value 5 is lost *)
Example C167_nonvacuous :
  move (OTuple [ODict [(10, Tensor 1 true false)]; Tensor 2 false false; ODict [(11, Other 5); (12, OList [Tensor 3 false false])]])
  = OTuple [ODict [(10, Tensor 1 false true)]; Tensor 2 false true; ODict [(11, ONone); (12, OList [Tensor 3 false true])]].
Proof. reflexivity. Qed.

(* ---- C168 ---- *)
Lemma add_params_one ps d : add_params ps [d] = (if forallb (Nat.eqb d) ps then Ok [d] else Err ERuntime).
Proof.
  induction ps as [|a r IH]; [reflexivity|]. cbn. rewrite (Nat.eqb_sym a d). destruct (Nat.eqb_spec d a) as [->|N]; cbn; [exact IH|reflexivity].
Qed.
Lemma add_models_one ms d : add_models ms [d] = (if forallb (Nat.eqb d) (concat ms) then Ok [d] else Err ERuntime).
Proof.
  induction ms as [|ps r IH]; [reflexivity|]. cbn. rewrite add_params_one, forallb_app.
  destruct (forallb _ ps); cbn; [exact IH|reflexivity].
Qed.
Lemma add_models_nil ms : add_models ms [] = match concat ms with [] => Ok [] | d :: r => if forallb (Nat.eqb d) r then Ok [d] else Err ERuntime end.
Proof.
  induction ms as [|[|d ps] r IH]; cbn; [reflexivity|exact IH|].
  rewrite add_params_one, forallb_app. destruct (forallb (Nat.eqb d) ps); cbn; [apply add_models_one|reflexivity].
Qed.

(* The device type is accepted exactly if all parameters of all actors and critics have it; two different
   types are refused with RuntimeError; models without any parameter end in an IndexError. *)
Theorem C168_device : forall models,
  (forall d, check_parameters_device models = Ok d <->
     (exists ps, In ps models /\ In d ps) /\ (forall ps d', In ps models -> In d' ps -> d' = d)) /\
  (check_parameters_device models = Err ERuntime <->
     exists ps d ps' d', In ps models /\ In d ps /\ In ps' models /\ In d' ps' /\ d <> d') /\
  (check_parameters_device models = Err EIndex <-> forall ps, In ps models -> ps = []) /\
  (forall e, check_parameters_device models = Err e -> e = ERuntime \/ e = EIndex).
Proof.
  intros ms. unfold check_parameters_device. rewrite add_models_nil.
  assert (IC : forall d, In d (concat ms) <-> exists ps, In ps ms /\ In d ps) by (intros; rewrite in_concat; reflexivity).
  destruct (concat ms) as [|d0 r] eqn:C.
  - assert (N : forall ps, In ps ms -> ps = []).
    { intros [|d ps] I; auto. exfalso. apply (proj2 (IC d)). exists (d :: ps). split; [auto|now left]. }
    cbn. repeat split; try discriminate; auto.
    + intros [(ps & I & J) _]. apply N in I. subst. destruct J.
    + intros (ps & d & ps' & d' & I & J & _). apply N in I. subst. destruct J.
    + intros e [= <-]. auto.
  - assert (NE : ~ forall ps, In ps ms -> ps = []).
    { intros H. destruct (proj1 (IC d0)) as (ps & I & J); [now left|]. apply H in I. subst. destruct J. }
    destruct (forallb (Nat.eqb d0) r) eqn:F; cbn.
    + assert (A : forall ps d', In ps ms -> In d' ps -> d' = d0).
      { intros ps d' I J. assert (Q : In d' (d0 :: r)) by (apply IC; eauto). destruct Q as [->|Q]; auto.
        rewrite forallb_forall in F. apply F in Q. now apply Nat.eqb_eq in Q. }
      repeat split; try discriminate.
      * injection H as <-. apply IC. now left.
      * injection H as <-. intros; eapply A; eauto.
      * intros [(ps & I & J) _]. f_equal. symmetry. eapply A; eauto.
      * intros (ps & d & ps' & d' & I & J & I' & J' & Nd). exfalso. apply Nd. rewrite (A _ _ I J), (A _ _ I' J'). reflexivity.
      * intros H. contradiction.
    + assert (B : exists d', In d' r /\ d' <> d0).
      { clear -F. induction r as [|a r IH]; [discriminate|]. cbn in F. destruct (Nat.eqb_spec d0 a) as [->|N].
        - destruct (IH F) as (d' & I & N). exists d'. split; [now right|auto].
        - exists a. split; [now left|congruence]. }
      destruct B as (d' & I' & N').
      destruct (proj1 (IC d0) (or_introl eq_refl)) as (p0 & Ip & Jp).
      destruct (proj1 (IC d') (or_intror I')) as (p1 & Ip1 & Jp1).
      repeat split; try discriminate.
      * intros [_ A]. exfalso. apply N'. rewrite (A _ _ Ip1 Jp1). symmetry. eauto.
      * intros _. exists p1, d', p0, d0. auto.
      * intros H. contradiction.
      * intros e [= <-]. auto.
Qed.
Print Assumptions C168_device.
Example C168_nonvacuous :
  check_parameters_device [[]; [1; 1]; [1]] = Ok 1 /\ check_parameters_device [[1; 1]; [0]] = Err ERuntime /\
  check_parameters_device [[]; []] = Err EIndex.
Proof. repeat split. Qed.
