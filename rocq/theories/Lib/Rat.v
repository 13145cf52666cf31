(* Canonical rationals: linear arithmetic tactic and finite sums.
   Nothing in this file models repository code. *)
From Coq Require Import QArith Lqa.
From Coq Require Export Qcanon.
From Verif Require Export Lib.Base.
Set Implicit Arguments.
Close Scope Qc_scope.
Close Scope Q_scope.
Open Scope nat_scope.
Bind Scope Qc_scope with Qc.
Global Arguments Qcplus : simpl never.
Global Arguments Qcmult : simpl never.
Global Arguments Qcminus : simpl never.
Global Arguments Qcopp : simpl never.
Global Arguments Qcdiv : simpl never.
Global Arguments Qcinv : simpl never.
Global Arguments Q2Qc : simpl never.

Lemma this_eq (x y : Qc) : x = y -> (this x == this y)%Q.
Proof. intros ->. reflexivity. Qed.
Lemma this_plus (x y : Qc) : (this (x + y)%Qc == this x + this y)%Q.
Proof. apply Qred_correct. Qed.
Lemma this_mult (x y : Qc) : (this (x * y)%Qc == this x * this y)%Q.
Proof. apply Qred_correct. Qed.
Lemma this_opp (x : Qc) : (this (- x)%Qc == - this x)%Q.
Proof. apply Qred_correct. Qed.
Lemma this_minus (x y : Qc) : (this (x - y)%Qc == this x - this y)%Q.
Proof. unfold Qcminus. rewrite this_plus, this_opp. reflexivity. Qed.
Lemma this_inv (x : Qc) : (this (/ x)%Qc == / this x)%Q.
Proof. apply Qred_correct. Qed.
Lemma this_Q2Qc (q : Q) : (this (Q2Qc q) == q)%Q.
Proof. apply Qred_correct. Qed.
Lemma Qcle_not_lt (x y : Qc) : ~ (x < y)%Qc <-> (y <= x)%Qc.
Proof. split; [apply Qcnot_lt_le | intros H1 H2; apply (Qclt_not_le _ _ H2 H1)]. Qed.

Ltac qc_push1 :=
  repeat match goal with
  | |- context [this (?x + ?y)%Qc] => rewrite (this_plus x y)
  | |- context [this (?x - ?y)%Qc] => rewrite (this_minus x y)
  | |- context [this (?x * ?y)%Qc] => rewrite (this_mult x y)
  | |- context [this (- ?x)%Qc] => rewrite (this_opp x)
  | |- context [this (Q2Qc ?q)] => rewrite (this_Q2Qc q)
  end.

(* Linear arithmetic over Qc: move every Qc (in)equality to Q, then lra. *)
Ltac qc_hyp H :=
  lazymatch type of H with
  | @eq Qc _ _ => apply this_eq in H; revert H
  | (_ <= _)%Qc => unfold Qcle in H; revert H
  | (_ < _)%Qc => unfold Qclt in H; revert H
  | ~ (_ <= _)%Qc => apply Qcnot_le_lt in H; unfold Qclt in H; revert H
  | ~ (_ < _)%Qc => apply Qcnot_lt_le in H; unfold Qcle in H; revert H
  end.
Ltac qcl :=
  intros;
  lazymatch goal with
  | |- @eq Qc _ _ => apply Qc_is_canon
  | |- (_ <= _)%Qc => unfold Qcle
  | |- (_ < _)%Qc => unfold Qclt
  | |- ~ (_ <= _)%Qc => apply Qclt_not_le; unfold Qclt
  | |- ~ (_ < _)%Qc => apply Qcle_not_lt; unfold Qcle
  | |- _ => exfalso
  end;
  repeat match goal with H : _ |- _ => qc_hyp H end;
  qc_push1; unfold Qcle, Qclt in *;
  change (this 0%Qc) with 0%Q; change (this 1%Qc) with 1%Q;
  intros; lra.

Goal forall x y z : Qc, (x + y <= z)%Qc -> (0 < x)%Qc -> z = (1 + 1)%Qc -> (y < 1 + 1)%Qc.
Proof. intros. qcl. Qed.
Goal forall x y z : Qc, x = y -> (y - x + z)%Qc = z.
Proof. intros. qcl. Qed.
Goal forall x y z : Qc, ~ (x < y)%Qc -> ~ (y < x)%Qc -> (x = y)%Qc.
Proof. intros. qcl. Qed.
Goal forall x  : Qc, (x < x)%Qc -> False.
Proof. intros. qcl. Qed.

Definition Qcltb (x y : Qc) : bool := if Qclt_le_dec x y then true else false.
Definition Qcleb (x y : Qc) : bool := if Qclt_le_dec y x then false else true.
Lemma Qcltb_spec x y : reflect (x < y)%Qc (Qcltb x y).
Proof. unfold Qcltb. destruct (Qclt_le_dec x y); constructor; auto. now apply Qcle_not_lt. Qed.
Lemma Qcleb_spec x y : reflect (x <= y)%Qc (Qcleb x y).
Proof. unfold Qcleb. destruct (Qclt_le_dec y x); constructor; auto. now apply Qclt_not_le. Qed.
Definition Qcmin x y := if Qcltb y x then y else x.
Definition Qcmax x y := if Qcltb x y then y else x.
Definition Qcabs (x : Qc) := if Qcltb x 0%Qc then (- x)%Qc else x.
Ltac qdec :=
  repeat match goal with
  | |- context [Qcltb ?a ?b] => destruct (Qcltb_spec a b)
  | |- context [Qcleb ?a ?b] => destruct (Qcleb_spec a b)
  | H : context [Qcltb ?a ?b] |- _ => destruct (Qcltb_spec a b)
  | H : context [Qcleb ?a ?b] |- _ => destruct (Qcleb_spec a b)
  end.

Lemma Qcmax_l x y : (x <= Qcmax x y)%Qc. Proof. unfold Qcmax; qdec; qcl. Qed.
Lemma Qcmax_r x y : (y <= Qcmax x y)%Qc. Proof. unfold Qcmax; qdec; qcl. Qed.
Lemma Qcmin_l x y : (Qcmin x y <= x)%Qc. Proof. unfold Qcmin; qdec; qcl. Qed.
Lemma Qcmin_r x y : (Qcmin x y <= y)%Qc. Proof. unfold Qcmin; qdec; qcl. Qed.

(* nonlinear helpers *)
Lemma Qcmul_nonneg x y : (0 <= x -> 0 <= y -> 0 <= x * y)%Qc.
Proof. intros. rewrite <- (Qcmult_0_l y). apply Qcmult_le_compat_r; auto. Qed.
Lemma Qcmul_pos x y : (0 < x -> 0 < y -> 0 < x * y)%Qc.
Proof. intros. rewrite <- (Qcmult_0_l y). apply Qcmult_lt_compat_r; auto. Qed.
Lemma Qcinv_pos x : (0 < x -> 0 < / x)%Qc.
Proof. unfold Qclt. rewrite this_inv. change (this 0%Qc) with 0%Q. apply Qinv_lt_0_compat. Qed.
Lemma Qcpos_neq x : (0 < x)%Qc -> x <> 0%Qc.
Proof. intros H ->. qcl. Qed.

(* naturals as rationals *)
Definition nq (n : nat) : Qc := Q2Qc (inject_Z (Z.of_nat n)).
Lemma nq_0 : nq 0 = 0%Qc. Proof. reflexivity. Qed.
Lemma nq_1 : nq 1 = 1%Qc. Proof. reflexivity. Qed.
Lemma nq_add a b : nq (a + b) = (nq a + nq b)%Qc.
Proof. apply Qc_is_canon. unfold nq. qc_push1. rewrite Nat2Z.inj_add, inject_Z_plus. reflexivity. Qed.
Lemma nq_S a : nq (S a) = (1 + nq a)%Qc.
Proof. change (S a) with (1 + a). rewrite nq_add. reflexivity. Qed.
Lemma nq_mul a b : nq (a * b) = (nq a * nq b)%Qc.
Proof. apply Qc_is_canon. unfold nq. qc_push1. rewrite Nat2Z.inj_mul, inject_Z_mult. reflexivity. Qed.
Lemma nq_le a b : a <= b -> (nq a <= nq b)%Qc.
Proof. intros H. unfold Qcle, nq. rewrite !this_Q2Qc, <- Zle_Qle. lia. Qed.
Lemma nq_lt a b : a < b -> (nq a < nq b)%Qc.
Proof. intros H. unfold Qclt, nq. rewrite !this_Q2Qc, <- Zlt_Qlt. lia. Qed.
Lemma nq_inj a b : nq a = nq b -> a = b.
Proof. intros H. apply this_eq in H. unfold nq in H. rewrite !this_Q2Qc in H.
       unfold Qeq in H. cbn in H. lia. Qed.
Lemma nq_nonneg a : (0 <= nq a)%Qc. Proof. rewrite <- nq_0. apply nq_le. lia. Qed.
Lemma nq_pos a : 0 < a -> (0 < nq a)%Qc. Proof. intros. rewrite <- nq_0. apply nq_lt. lia. Qed.

(* Sums *)
Fixpoint qsum (l : list Qc) : Qc := match l with [] => 0%Qc | x :: r => (x + qsum r)%Qc end.
Fixpoint sumn (f : nat -> Qc) (a n : nat) : Qc :=   (* f a + ... + f (a+n-1) *)
  match n with O => 0%Qc | S m => (f a + sumn f (S a) m)%Qc end.

Lemma qsum_app l1 l2 : qsum (l1 ++ l2) = (qsum l1 + qsum l2)%Qc.
Proof. induction l1; cbn; [ring | rewrite IHl1; ring]. Qed.
Lemma qsum_nonneg l : (forall x, In x l -> (0 <= x)%Qc) -> (0 <= qsum l)%Qc.
Proof.
  induction l; cbn; intros H; [apply Qcle_refl|].
  pose proof (H a (or_introl eq_refl)). assert (0 <= qsum l)%Qc by auto. qcl.
Qed.
Lemma qsum_map_mult {A} (f : A -> Qc) c l : qsum (map (fun x => (c * f x)%Qc) l) = (c * qsum (map f l))%Qc.
Proof. induction l; cbn; [ring | rewrite IHl; ring]. Qed.
Lemma qsum_map_plus {A} (f g : A -> Qc) l :
  qsum (map (fun x => (f x + g x)%Qc) l) = (qsum (map f l) + qsum (map g l))%Qc.
Proof. induction l; cbn; [ring | rewrite IHl; ring]. Qed.
Lemma sumn_add f a n m : sumn f a (n + m) = (sumn f a n + sumn f (a + n) m)%Qc.
Proof. revert a; induction n; intros a; cbn.
  - rewrite Nat.add_0_r. ring.
  - rewrite IHn. replace (a + S n) with (S a + n) by lia. ring. Qed.
Lemma sumn_ext f g a n : (forall k, a <= k < a + n -> f k = g k) -> sumn f a n = sumn g a n.
Proof. revert a; induction n; intros a H; cbn; auto. rewrite (H a), (IHn (S a)); auto; [intros; apply H; lia|lia]. Qed.
Lemma sumn_zero f a n : (forall k, a <= k < a + n -> f k = 0%Qc) -> sumn f a n = 0%Qc.
Proof. revert a; induction n; intros a H; cbn; auto. rewrite (H a), (IHn (S a)); [ring|intros; apply H; lia|lia]. Qed.
Lemma sumn_nonneg f a n : (forall k, a <= k < a + n -> (0 <= f k)%Qc) -> (0 <= sumn f a n)%Qc.
Proof. revert a; induction n; intros a H; cbn; [apply Qcle_refl|].
  assert (0 <= f a)%Qc by (apply H; lia). assert (0 <= sumn f (S a) n)%Qc by (apply IHn; intros; apply H; lia). qcl. Qed.
Lemma sumn_le f a n m : (forall k, (0 <= f k)%Qc) -> n <= m -> (sumn f a n <= sumn f a m)%Qc.
Proof. intros H L. replace m with (n + (m - n)) by lia. rewrite sumn_add.
  assert (0 <= sumn f (a + n) (m - n))%Qc by (apply sumn_nonneg; auto). qcl. Qed.
Lemma sumn_S_r f a n : sumn f a (S n) = (sumn f a n + f (a + n)%nat)%Qc.
Proof. replace (S n) with (n + 1) by lia. rewrite sumn_add. cbn. ring. Qed.
Lemma sumn_qsum l : sumn (fun k => nth k l 0%Qc) 0 (length l) = qsum l.
Proof.
  assert (G : forall p, sumn (fun k => nth k (p ++ l) 0%Qc) (length p) (length l) = qsum l).
  { induction l as [|x l IH]; intros p; cbn; auto.
    rewrite app_nth2, Nat.sub_diag by lia. cbn. f_equal.
    specialize (IH (p ++ [x])). rewrite app_length, Nat.add_1_r, <- app_assoc in IH. exact IH. }
  apply (G []).
Qed.
