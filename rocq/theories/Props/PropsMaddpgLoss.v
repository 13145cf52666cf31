(* C162, C163: the losses of MADDPG. *)
From Coq Require Import Lia QArith.
Close Scope Q_scope.
From Verif Require Export Model.MaddpgLoss.
Set Implicit Arguments.

Section Props.
  Variables S A : Type.
  Context {EA : Eqb A}.
  Implicit Types (w : nets S A) (b : list (sample S A)).
  Variable d : sample S A.                  (* only stands for positions outside of the batch *)

  (* ---- specification ---- *)
  (* Lowe et al.: y = r + gamma Q'(x', mu'_1(o'_1), ..., mu'_n(o'_n)), with mu' the target policies, of which each other
     agent uses any sub-policy *)
  Definition target_spec w (visible : list nat) (gamma : Qc) (choice : nat -> nat) (a e : nat) b : Qc :=
    let x := nth a b d in
    (m_reward x + gamma * (if m_term x then 0 else 1) *
      critic_target w a (map (fun i => m_next (nth i b d)) visible)
        (map (fun i => actor_target w i (if i =? a then e else choice i) (m_next (nth i b d))) visible))%Qc.
  (* the policy gradient: Q(x, a_1, ..., mu(o_a), ..., a_n) *)
  Definition policy_spec w (visible : list nat) (a e : nat) b : Qc :=
    critic w a (map (fun i => m_state (nth i b d)) visible)
      (map (fun i => if i =? a then actor w a e (m_state (nth i b d)) else m_action (nth i b d)) visible).

  (* ---- proofs ---- *)
  Lemma mapM_ok {X Y} (f : X -> res Y) (g : X -> Y) l : (forall x, In x l -> f x = Ok (g x)) -> mapM f l = Ok (map g l).
  Proof.
    induction l as [|x l IH]; intros H; cbn; auto. rewrite H by (left; auto). cbn.
    rewrite IH by (intros; apply H; right; auto). auto.
  Qed.
  Lemma at_ok {X} (l : list X) i y : i < length l -> at_ l i = Ok (nth i l y).
  Proof. intros H. unfold at_. rewrite (nth_error_nth' l y H). auto. Qed.
  Lemma next_ok w choice b i : i < length b ->
    at_ (next_actions w choice b) i = Ok (actor w i (choice i) (m_next (nth i b d))).
  Proof.
    intros H. unfold at_, next_actions, act. rewrite nth_error_map.
    assert (E : nth_error (combine (seq 0 (length (map m_next b))) (map m_next b)) i = Some (i, m_next (nth i b d))).
    { rewrite (nth_error_nth' _ (0, m_next d)) by (rewrite combine_length, seq_length, map_length; lia).
      rewrite combine_nth by (rewrite seq_length; auto). rewrite seq_nth by (rewrite map_length; auto).
      rewrite map_nth. auto. }
    rewrite E. auto.
  Qed.
  Lemma index_some a l : In a l -> exists k, index_of a l = Some k.
  Proof.
    induction l as [|x l IH]; intros H; [destruct H|]. cbn. destruct (Nat.eqb_spec x a); [eauto|].
    destruct H as [H|H]; [congruence|]. destruct (IH H) as (k & ->). cbn. eauto.
  Qed.
  Lemma index_none a l : ~ In a l -> index_of a l = None.
  Proof.
    induction l as [|x l IH]; intros H; cbn; auto. destruct (Nat.eqb_spec x a); [exfalso; apply H; left; auto|].
    rewrite IH by (intros K; apply H; right; auto). auto.
  Qed.
  Lemma upd_index {Y} a l k (g : nat -> Y) y : NoDup l -> index_of a l = Some k ->
    upd k y (map g l) = map (fun i => if i =? a then y else g i) l.
  Proof.
    revert k. induction l as [|x l IH]; intros k N H; cbn in H; [discriminate|]. inversion N as [|? ? Nx Nl]; subst.
    cbn [map]. destruct (Nat.eqb_spec x a) as [->|Hx].
    - inversion H; subst. cbn. f_equal. apply map_ext_in. intros i Hi. destruct (Nat.eqb_spec i a); [congruence|auto].
    - destruct (index_of a l) as [k'|]; [|discriminate]. cbn in H. inversion H; subst. cbn. f_equal. apply IH; auto.
  Qed.

  (* what the code computes: the other agents act with their online networks *)
  Theorem C162_exact : forall w visible gamma choice a e b,
    (forall i, In i visible -> i < length b) -> a < length b ->
    value_target w visible gamma choice a e b = Ok (
      let x := nth a b d in
      (m_reward x + gamma * (if m_term x then 0 else 1) *
        critic_target w a (map (fun i => m_next (nth i b d)) visible)
          (map (fun i => (if (i =? a)%nat then actor_target w a e else actor w i (choice i)) (m_next (nth i b d))) visible))%Qc).
  Proof.
    intros w visible gamma choice a e b Hv Ha. unfold value_target.
    erewrite (mapM_ok (fun i => if negb (i =? a) then _ else _)
      (fun i => (if i =? a then actor_target w a e else actor w i (choice i)) (m_next (nth i b d)))).
    2: { intros i Hi. destruct (i =? a); cbn; [rewrite (at_ok _ d) by auto; auto | apply next_ok; auto]. }
    cbn [bind].
    erewrite (mapM_ok _ (fun i => m_next (nth i b d))) by (intros i Hi; rewrite (at_ok _ d) by auto; auto).
    cbn [bind]. rewrite (at_ok _ d) by auto. reflexivity.
  Qed.
  Theorem C162_partial : forall w visible gamma choice a e b,
    (forall i, In i visible -> i < length b) -> a < length b ->
    (forall i, In i visible -> i <> a ->
       actor w i (choice i) (m_next (nth i b d)) = actor_target w i (choice i) (m_next (nth i b d))) ->
    value_target w visible gamma choice a e b = Ok (target_spec w visible gamma choice a e b).
  Proof.
    intros w visible gamma choice a e b Hv Ha Hs. rewrite C162_exact; auto. unfold target_spec. cbv zeta. do 4 f_equal.
    apply map_ext_in. intros i Hi. destruct (Nat.eqb_spec i a) as [->|N]; auto.
  Qed.
  Lemma index_nth {Y} i l k (g : nat -> Y) y : index_of i l = Some k -> nth k (map g l) y = g i.
  Proof.
    revert k. induction l as [|x l IH]; intros k H; cbn in H; [discriminate|]. destruct (Nat.eqb_spec x i) as [->|].
    - inversion H; subst. reflexivity.
    - destruct (index_of i l) as [k'|]; [|discriminate]. cbn in H. inversion H; subst. cbn. apply IH. auto.
  Qed.
  (* if the online policy of another visible agent acts differently from all its target policies, then for some critics
     the target is not that of any choice of target policies *)
  Theorem C162_refuted : forall w visible gamma choice a e b i,
    (forall i, In i visible -> i < length b) -> a < length b -> In i visible -> i <> a ->
    gamma <> 0%Qc -> m_term (nth a b d) = false ->
    (forall k, actor_target w i k (m_next (nth i b d)) <> actor w i (choice i) (m_next (nth i b d))) ->
    exists q, forall choice',
      let w' := MkNets (actor w) (actor_target w) (critic w) q in
      value_target w' visible gamma choice a e b <> Ok (target_spec w' visible gamma choice' a e b).
  Proof.
    intros w visible gamma choice a e b i Hv Ha Hi Ni Hg Ht Hd.
    destruct (index_some i visible Hi) as (k & Hk).
    set (bad := actor w i (choice i) (m_next (nth i b d))).
    exists (fun _ _ l => if eqb (nth k l bad) bad then 1%Qc else 0%Qc). intros choice' w'. rewrite C162_exact; auto.
    unfold target_spec. cbn [critic_target actor_target actor w']. cbv zeta. rewrite Ht, !(index_nth _ _ _ _ Hk).
    destruct (Nat.eqb_spec i a); [congruence|]. fold bad.
    destruct (eqb_spec bad bad) as [_|]; [|congruence].
    destruct (eqb_spec (actor_target w i (choice' i) (m_next (nth i b d))) bad) as [E|_]; [exfalso; apply (Hd _ E)|].
    intros E. apply Hg.
    match type of E with Ok ?u = Ok ?v => assert (u = v) as E' by congruence end.
    apply (f_equal (fun z => (z - m_reward (nth a b d)))%Qc) in E'.
    match type of E' with ?u = ?v => transitivity u; [ring|transitivity v; [exact E'|ring]] end.
  Qed.

  (* ---- C163 ---- *)
  Theorem C163_exact : forall w visible a e b,
    (forall i, In i visible -> i < length b) -> a < length b -> NoDup visible -> In a visible ->
    policy_value w visible a e b = Ok (critic w a (map (fun i => m_state (nth i b d)) visible)
      (map (fun i => if i =? a then actor w a e (m_next (nth a b d)) else m_action (nth i b d)) visible)).
  Proof.
    intros w visible a e b Hv Ha N Hi. unfold policy_value.
    erewrite (mapM_ok _ (fun i => m_state (nth i b d))) by (intros i Hi'; rewrite (at_ok _ d) by auto; auto). cbn [bind].
    erewrite (mapM_ok _ (fun i => m_action (nth i b d))) by (intros i Hi'; rewrite (at_ok _ d) by auto; auto). cbn [bind].
    rewrite (at_ok _ d) by auto. cbn [bind]. destruct (index_some a visible Hi) as (k & Hk). rewrite Hk.
    do 2 f_equal. apply upd_index; auto.
  Qed.
  Theorem C163_partial : forall w visible a e b,
    (forall i, In i visible -> i < length b) -> a < length b -> NoDup visible -> In a visible ->
    actor w a e (m_next (nth a b d)) = actor w a e (m_state (nth a b d)) ->
    policy_value w visible a e b = Ok (policy_spec w visible a e b).
  Proof.
    intros w visible a e b Hv Ha N Hi E. rewrite C163_exact; auto. unfold policy_spec. do 2 f_equal.
    apply map_ext_in. intros i _. destruct (Nat.eqb_spec i a) as [->|]; auto.
  Qed.
  Theorem C163_refuted : forall w visible a e b,
    (forall i, In i visible -> i < length b) -> a < length b -> NoDup visible -> In a visible ->
    actor w a e (m_next (nth a b d)) <> actor w a e (m_state (nth a b d)) ->
    exists q, let w' := MkNets (actor w) (actor_target w) q (critic_target w) in
      policy_value w' visible a e b <> Ok (policy_spec w' visible a e b).
  Proof.
    intros w visible a e b Hv Ha N Hi Hd. destruct (index_some a visible Hi) as (k & Hk).
    set (bad := actor w a e (m_next (nth a b d))).
    exists (fun _ _ l => if eqb (nth k l bad) bad then 1%Qc else 0%Qc). intros w'. rewrite C163_exact; auto.
    unfold policy_spec. cbn [critic actor w']. rewrite !(index_nth _ _ _ _ Hk), Nat.eqb_refl. fold bad.
    destruct (eqb_spec bad bad) as [_|]; [|congruence].
    destruct (eqb_spec (actor w a e (m_state (nth a b d))) bad) as [E|_]; [exfalso; apply Hd; symmetry; exact E|].
    discriminate.
  Qed.
  (* an agent its own critic does not see cannot be trained, though its value loss is fine *)
  Theorem C163_invisible_refuted : forall w visible gamma choice a e b,
    (forall i, In i visible -> i < length b) -> a < length b -> ~ In a visible ->
    policy_value w visible a e b = Err EValue
    /\ (exists y, value_target w visible gamma choice a e b = Ok y)
    /\ current_value w visible a b =
         Ok (critic w a (map (fun i => m_state (nth i b d)) visible) (map (fun i => m_action (nth i b d)) visible)).
  Proof.
    intros w visible gamma choice a e b Hv Ha N. split; [|split].
    - unfold policy_value.
      erewrite (mapM_ok _ (fun i => m_state (nth i b d))) by (intros i Hi'; rewrite (at_ok _ d) by auto; auto). cbn [bind].
      erewrite (mapM_ok _ (fun i => m_action (nth i b d))) by (intros i Hi'; rewrite (at_ok _ d) by auto; auto). cbn [bind].
      rewrite (at_ok _ d) by auto. cbn [bind]. rewrite index_none; auto.
    - eexists. apply C162_exact; auto.
    - unfold current_value.
      erewrite (mapM_ok _ (fun i => m_action (nth i b d))) by (intros i Hi'; rewrite (at_ok _ d) by auto; auto). cbn [bind].
      erewrite (mapM_ok _ (fun i => m_state (nth i b d))) by (intros i Hi'; rewrite (at_ok _ d) by auto; auto). reflexivity.
  Qed.
End Props.
Print Assumptions C162_exact.
Print Assumptions C162_partial.
Print Assumptions C162_refuted.
Print Assumptions C163_exact.
Print Assumptions C163_partial.
Print Assumptions C163_refuted.
Print Assumptions C163_invisible_refuted.

(* two agents with one policy each, states and actions are numbers *)
Definition ex_nets : nets nat nat :=
  MkNets (fun i k s => i + k + s) (fun i k s => 10 + i + k + s)
    (fun _ s l => Q2Qc (Z.of_nat (list_sum s + 100 * list_sum l) # 1)) (fun _ s l => Q2Qc (Z.of_nat (list_sum s + 100 * list_sum l) # 1)).
Definition ex_batch : list (sample nat nat) :=
  [MkSm 1 2 (Q2Qc (5 # 1)) 3 false; MkSm 4 5 (Q2Qc (6 # 1)) 7 false].
(* next states 3 and 7; own target action 13, the other's online action 8 *)
Example C162_nonvacuous :
  value_target ex_nets [0; 1] 1%Qc (fun _ => 0) 0 0 ex_batch = Ok (Q2Qc (2115 # 1))
  /\ target_spec (MkSm 0 0 0%Qc 0 false) ex_nets [0; 1] 1%Qc (fun _ => 0) 0 0 ex_batch = Q2Qc (3115 # 1).
Proof. split; [cbn; f_equal|]; apply Qc_is_canon; reflexivity. Qed.
(* states 1 and 4; own action 3 on the next state instead of 1, the other's recorded action 5 *)
Example C163_nonvacuous :
  policy_value ex_nets [0; 1] 0 0 ex_batch = Ok (Q2Qc (805 # 1))
  /\ policy_spec (MkSm 0 0 0%Qc 0 false) ex_nets [0; 1] 0 0 ex_batch = Q2Qc (605 # 1)
  /\ policy_value ex_nets [1] 0 0 ex_batch = Err EValue.
Proof. split; [cbn; f_equal; apply Qc_is_canon; reflexivity|]. split; [apply Qc_is_canon; reflexivity|reflexivity]. Qed.
