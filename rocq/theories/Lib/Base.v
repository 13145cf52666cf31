(* Common vocabulary: Python exceptions as values, list update, insertion
   ordered dictionaries.  Nothing in this file models repository code. *)
From Coq Require Export List Arith ZArith Lia Bool.
From Coq Require String.
Export ListNotations.
Set Implicit Arguments.

(* Python exception classes that the models distinguish. *)
Inductive err : Set :=
| EValue | EIndex | EKey | EType | ERuntime | EAssert | EAttr | EZeroDiv | EOther.

Inductive res (A : Type) : Type :=
| Ok : A -> res A
| Err : err -> res A.
Arguments Ok {A} _.
Arguments Err {A} _.

Definition bind {A B} (m : res A) (f : A -> res B) : res B :=
  match m with Ok a => f a | Err e => Err e end.

(* Python  [l[i] for i in is]  : IndexError on the first bad index. *)
Fixpoint index_all {A} (l : list A) (is : list nat) : res (list A) :=
  match is with
  | [] => Ok []
  | i :: r =>
      match nth_error l i with
      | None => Err EIndex
      | Some x => bind (index_all l r) (fun xs => Ok (x :: xs))
      end
  end.

(* In-place assignment l[n] = x, for n < len(l); identity otherwise (callers
   check the bound explicitly). *)
Fixpoint upd {A} (n : nat) (x : A) (l : list A) : list A :=
  match l, n with
  | [], _ => []
  | _ :: t, O => x :: t
  | h :: t, S m => h :: upd m x t
  end.

Section Upd.
  Context {A : Type}.
  Lemma upd_length n (x : A) l : length (upd n x l) = length l.
  Proof. revert n; induction l as [|h t IH]; intros [|n]; cbn; auto. Qed.
  Lemma upd_same n (x : A) l : n < length l -> nth_error (upd n x l) n = Some x.
  Proof. revert n; induction l as [|h t IH]; intros [|n] H; cbn in *; try lia; auto.
         apply IH; lia. Qed.
  Lemma upd_other n m (x : A) l : n <> m -> nth_error (upd n x l) m = nth_error l m.
  Proof. revert n m; induction l as [|h t IH]; intros [|n] [|m] H; cbn; auto; try lia. Qed.
  Lemma upd_nth n m (x d : A) l : nth m (upd n x l) d =
     if (Nat.eqb n m && Nat.ltb n (length l))%bool then x else nth m l d.
  Proof.
    revert n m; induction l as [|h t IH]; intros [|n] [|m]; cbn; auto.
    - destruct (Nat.eqb n m); reflexivity.
    - rewrite IH. reflexivity.
  Qed.
  Lemma upd_out n (x : A) l : length l <= n -> upd n x l = l.
  Proof. revert n; induction l as [|h t IH]; intros [|n] H; cbn in *; auto; try lia.
         rewrite IH by lia; auto. Qed.
  Lemma upd_app1 n (x : A) l1 l2 : n < length l1 -> upd n x (l1 ++ l2) = upd n x l1 ++ l2.
  Proof. revert n; induction l1 as [|h t IH]; intros [|n] H; cbn in *; auto; try lia.
         rewrite IH by lia; auto. Qed.
  Lemma upd_app2 n (x : A) l1 l2 : length l1 <= n ->
     upd n x (l1 ++ l2) = l1 ++ upd (n - length l1) x l2.
  Proof. revert n; induction l1 as [|h t IH]; intros n H; cbn in *.
         - now rewrite Nat.sub_0_r.
         - destruct n as [|n]; [lia|]. cbn. rewrite IH by lia. reflexivity. Qed.
  Lemma In_upd n (x y : A) l : In y (upd n x l) -> y = x \/ In y l.
  Proof.
    revert n; induction l as [|h t IH]; intros [|n] H; cbn in *; auto.
    - destruct H; auto.
    - destruct H as [H|H]; auto. destruct (IH _ H); auto.
  Qed.
  Lemma nth_error_ext (l1 l2 : list A) :
    (forall i, nth_error l1 i = nth_error l2 i) -> l1 = l2.
  Proof.
    revert l2; induction l1 as [|h t IH]; intros [|h2 t2] H; auto.
    - specialize (H 0); discriminate.
    - specialize (H 0); discriminate.
    - pose proof (H 0) as H0; cbn in H0; injection H0 as ->. f_equal.
      apply IH. intros i. exact (H (S i)).
  Qed.
End Upd.

Lemma app_eq_split {A} (l1 l2 l3 l4 : list A) :
  length l1 = length l3 -> l1 ++ l2 = l3 ++ l4 -> l1 = l3 /\ l2 = l4.
Proof.
  revert l3; induction l1 as [|x r IH]; intros [|y r3] L E; cbn in *; try discriminate; auto.
  injection E as -> E. destruct (IH r3) as [-> ->]; auto.
Qed.

Lemma index_all_ok {A} (l : list A) is :
  (forall i, In i is -> i < length l) ->
  exists xs, index_all l is = Ok xs /\ length xs = length is /\
             (forall j i, nth_error is j = Some i -> nth_error xs j = nth_error l i).
Proof.
  induction is as [|i r IH]; intros H.
  - exists []; cbn; repeat split; auto. intros [|j] ? E; discriminate.
  - destruct IH as (xs & E & L & G). { intros; apply H; right; auto. }
    cbn. destruct (nth_error l i) as [x|] eqn:N.
    + rewrite E. exists (x :: xs). cbn. repeat split; auto.
      intros [|j] i' Hj; cbn in *; [injection Hj as <-; auto | eauto].
    + exfalso. apply nth_error_None in N. specialize (H i (or_introl eq_refl)). lia.
Qed.

Lemma index_all_map {A} (l : list A) is xs :
  index_all l is = Ok xs -> map (fun i => nth_error l i) is = map Some xs.
Proof.
  revert xs; induction is as [|i r IH]; cbn; intros xs H.
  - injection H as <-; reflexivity.
  - destruct (nth_error l i) as [x|]; [|discriminate].
    destruct (index_all l r) as [ys|]; [|discriminate]. cbn in H. injection H as <-.
    cbn. now rewrite (IH _ eq_refl).
Qed.

Lemma index_all_err {A} (l : list A) is e :
  index_all l is = Err e -> exists i, In i is /\ length l <= i.
Proof.
  induction is as [|i r IH]; cbn; intros H; [discriminate|].
  destruct (nth_error l i) as [x|] eqn:N.
  - destruct (index_all l r) as [ys|]; [discriminate|].
    destruct IH as (j & Hj & L). { cbn in H; exact H. } exists j; auto.
  - exists i; split; auto. now apply nth_error_None.
Qed.

Lemma index_all_bad {A} (l : list A) is i :
  In i is -> length l <= i -> index_all l is = Err EIndex.
Proof.
  induction is as [|j r IH]; cbn; intros I L; [destruct I|]. destruct I as [->|H].
  - now apply nth_error_None in L as ->.
  - destruct (nth_error l j); auto. now rewrite (IH H L).
Qed.

(* ---------------------------------------------------------------- *)
(* Decidable keys and insertion-ordered dictionaries.               *)

Class Eqb (K : Type) := { eqb : K -> K -> bool; eqb_spec : forall x y, reflect (x = y) (eqb x y) }.
#[global] Instance Eqb_nat : Eqb nat := {| eqb := Nat.eqb; eqb_spec := Nat.eqb_spec |}.
#[global] Instance Eqb_Z : Eqb Z := {| eqb := Z.eqb; eqb_spec := Z.eqb_spec |}.
#[global] Instance Eqb_string : Eqb String.string := {| eqb := String.eqb; eqb_spec := String.eqb_spec |}.
#[global] Instance Eqb_pair {A B} `{Eqb A} `{Eqb B} : Eqb (A * B).
Proof.
  refine {| eqb := fun p q => (eqb (fst p) (fst q) && eqb (snd p) (snd q))%bool |}.
  intros [a b] [c d]; cbn.
  destruct (eqb_spec a c), (eqb_spec b d); cbn; constructor; congruence.
Defined.

Section Dict.
  Context {K V : Type} `{Eqb K}.
  Definition dict := list (K * V).
  Definition dkeys (d : list (K * V)) : list K := map fst d.

  (* d.get(k) *)
  Fixpoint dget (k : K) (d : list (K * V)) : option V :=
    match d with
    | [] => None
    | (k', v) :: r => if eqb k k' then Some v else dget k r
    end.
  (* k in d *)
  Definition dmem (k : K) (d : list (K * V)) : bool :=
    match dget k d with Some _ => true | None => false end.
  (* d[k] = v : keeps the position of an existing key, appends a new one *)
  Fixpoint dset (k : K) (v : V) (d : list (K * V)) : list (K * V) :=
    match d with
    | [] => [(k, v)]
    | (k', v') :: r => if eqb k k' then (k', v) :: r else (k', v') :: dset k v r
    end.
  (* d with key k removed (callers check presence when Python would raise) *)
  Fixpoint ddel (k : K) (d : list (K * V)) : list (K * V) :=
    match d with
    | [] => []
    | (k', v') :: r => if eqb k k' then r else (k', v') :: ddel k r
    end.
  (* d.pop(k) / del d[k] : KeyError when absent *)
  Definition dpop (k : K) (d : list (K * V)) : res (list (K * V)) :=
    if dmem k d then Ok (ddel k d) else Err EKey.

  Lemma eqb_refl k : eqb k k = true.
  Proof. destruct (eqb_spec k k); congruence. Qed.
  Lemma eqb_neq k k' : k <> k' -> eqb k k' = false.
  Proof. destruct (eqb_spec k k'); congruence. Qed.

  Lemma dget_None k d : dget k d = None <-> ~ In k (dkeys d).
  Proof.
    unfold dkeys in *; induction d as [|[k' v] r IH]; cbn; [tauto|].
    destruct (eqb_spec k k') as [->|N].
    - split; [discriminate|]. intros C; exfalso; apply C; auto.
    - rewrite IH. split; intros C; [intros [E|E]; [congruence|auto] | tauto].
  Qed.
  Lemma dget_Some_In k v d : dget k d = Some v -> In (k, v) d.
  Proof.
    unfold dkeys in *; induction d as [|[k' v'] r IH]; cbn; [discriminate|].
    destruct (eqb_spec k k') as [->|N]; intros E; [injection E as ->; auto|auto].
  Qed.
  Lemma dget_In k v d : NoDup (dkeys d) -> In (k, v) d -> dget k d = Some v.
  Proof.
    unfold dkeys in *; induction d as [|[k' v'] r IH]; cbn; [tauto|].
    intros ND [E|E].
    - injection E as -> ->. now rewrite eqb_refl.
    - inversion ND as [|? ? N1 N2]; subst. destruct (eqb_spec k k') as [->|N]; auto.
      exfalso; apply N1. apply (in_map fst) in E. exact E.
  Qed.
  Lemma dget_dset_same k v d : dget k (dset k v d) = Some v.
  Proof.
    unfold dkeys in *; induction d as [|[k' v'] r IH]; cbn; [now rewrite eqb_refl|].
    destruct (eqb_spec k k') as [->|N]; cbn; [now rewrite eqb_refl|now rewrite eqb_neq].
  Qed.
  Lemma dget_dset_other k k' v d : k <> k' -> dget k' (dset k v d) = dget k' d.
  Proof.
    intros N; induction d as [|[k1 v'] r IH]; cbn.
    - now rewrite eqb_neq by congruence.
    - destruct (eqb_spec k k1) as [->|N1]; cbn; [now rewrite eqb_neq by congruence|].
      destruct (eqb k' k1); auto.
  Qed.
  Lemma dset_new k v d : ~ In k (dkeys d) -> dset k v d = d ++ [(k, v)].
  Proof.
    unfold dkeys in *; induction d as [|[k' v'] r IH]; cbn; auto. intros N.
    destruct (eqb_spec k k') as [->|N1]; [tauto|]. rewrite IH; tauto.
  Qed.
  Lemma dkeys_dset k v d : In k (dkeys d) -> dkeys (dset k v d) = dkeys d.
  Proof.
    unfold dkeys in *; induction d as [|[k' v'] r IH]; cbn; [tauto|]. intros I.
    destruct (eqb_spec k k') as [->|N1]; cbn; auto. rewrite IH; auto. destruct I; congruence.
  Qed.
  Lemma In_dkeys_dset k k' v d : In k' (dkeys (dset k v d)) <-> k' = k \/ In k' (dkeys d).
  Proof.
    unfold dkeys in *; induction d as [|[k1 v'] r IH]; cbn; [intuition|].
    destruct (eqb_spec k k1) as [->|N1]; cbn; [intuition|]. rewrite IH. intuition.
  Qed.
  Lemma NoDup_dset k v d : NoDup (dkeys d) -> NoDup (dkeys (dset k v d)).
  Proof.
    unfold dkeys in *; induction d as [|[k1 v'] r IH]; cbn; intros ND.
    - repeat constructor; auto.
    - inversion ND as [|? ? N1 N2]; subst. destruct (eqb_spec k k1) as [->|N]; cbn; auto.
      constructor; auto. intros I. apply (proj1 (In_dkeys_dset k k1 v r)) in I as [->|I]; auto.
  Qed.
  Lemma In_ddel p k d : In p (ddel k d) -> In p d.
  Proof.
    unfold dkeys in *; induction d as [|[k1 v'] r IH]; cbn; auto.
    destruct (eqb_spec k k1) as [->|N]; cbn; auto. intros [E|E]; auto.
  Qed.
  Lemma NoDup_ddel k d : NoDup (dkeys d) -> NoDup (dkeys (ddel k d)).
  Proof.
    unfold dkeys in *; induction d as [|[k1 v'] r IH]; cbn; intros ND; auto.
    inversion ND as [|? ? N1 N2]; subst. destruct (eqb_spec k k1) as [->|N]; cbn; auto.
    constructor; auto. intros I. apply N1. apply in_map_iff in I as (p & E & I).
    apply in_map_iff. exists p; split; auto. eapply In_ddel; eauto.
  Qed.
  Lemma dget_ddel_same k d : NoDup (dkeys d) -> dget k (ddel k d) = None.
  Proof.
    unfold dkeys in *; induction d as [|[k1 v'] r IH]; cbn; intros ND; auto.
    inversion ND as [|? ? N1 N2]; subst. destruct (eqb_spec k k1) as [->|N]; cbn.
    - apply dget_None. exact N1.
    - rewrite eqb_neq by auto. auto.
  Qed.
  Lemma dget_ddel_other k k' d : k <> k' -> dget k' (ddel k d) = dget k' d.
  Proof.
    intros N; induction d as [|[k1 v'] r IH]; cbn; auto.
    destruct (eqb_spec k k1) as [->|N1]; cbn; [now rewrite eqb_neq by congruence|].
    destruct (eqb k' k1); auto.
  Qed.
  Lemma dmem_true k d : dmem k d = true <-> In k (dkeys d).
  Proof.
    unfold dmem. destruct (dget k d) eqn:E.
    - split; auto. intros _. destruct (in_dec (fun x y => match eqb_spec x y with
        ReflectT _ e => left e | ReflectF _ n => right n end) k (dkeys d)); auto.
      apply dget_None in n. congruence.
    - apply dget_None in E. split; [discriminate|tauto].
  Qed.
  Lemma dset_length_le k v d : length (dset k v d) <= S (length d).
  Proof.
    unfold dkeys in *; induction d as [|[k1 v'] r IH]; cbn; [lia|]. destruct (eqb k k1); cbn; lia.
  Qed.
End Dict.
Arguments dict : clear implicits.
