(* C212 tensors arrive with their values, C213 tensors that share memory. *)
From Verif Require Import Lib.Base Model.Pickle.

(* every tensor that is sent exists *)
Definition sendable {A} (src : mem A) (refs : list nat) : Prop := forall o, In o refs -> exists v, value src o = Some v.
(* two tensors look at the same storage *)
Definition shares {A} (m : mem A) (o1 o2 : nat) : Prop :=
  exists t1 t2, nth_error (objs m) o1 = Some t1 /\ nth_error (objs m) o2 = Some t2 /\ stor t1 = stor t2.

Record Inv {A} (copy : bool) (src : mem A) (memo : list (nat * nat)) (dst : mem A) : Prop := {
  i_inj : forall o1 o2 o', dget o1 memo = Some o' -> dget o2 memo = Some o' -> o1 = o2;
  i_lt : forall o o', dget o memo = Some o' -> o' < length (objs dst);
  i_copy : copy = true -> length (stors dst) = length (objs dst) /\
    forall p t, nth_error (objs dst) p = Some t -> stor t = p;
  i_shared : copy = false -> stors dst = stors src;
  i_obj : forall o o', dget o memo = Some o' -> exists t t' d, nth_error (objs src) o = Some t /\
    nth_error (stors src) (stor t) = Some d /\ nth_error (objs dst) o' = Some t' /\ nth_error (stors dst) (stor t') = Some d /\
    off t' = off t /\ len t' = len t /\ (copy = false -> t' = t) }.

Lemma nth_error_snoc {B} (l : list B) x : nth_error (l ++ [x]) (length l) = Some x.
Proof. rewrite nth_error_app2 by lia. now rewrite Nat.sub_diag. Qed.
Lemma nth_error_grow {B} (l : list B) x k y : nth_error l k = Some y -> nth_error (l ++ [x]) k = Some y.
Proof. intros E. rewrite nth_error_app1; auto. apply nth_error_Some. congruence. Qed.

Lemma inv_step {A} copy (src : mem A) memo dst o t d :
  Inv copy src memo dst -> dget o memo = None -> nth_error (objs src) o = Some t -> nth_error (stors src) (stor t) = Some d ->
  Inv copy src (dset o (length (objs dst)) memo) (rebuild copy t d dst).
Proof.
  intros [J L C SH O] N E1 E2.
  assert (LO : length (objs (rebuild copy t d dst)) = S (length (objs dst))) by (destruct copy; cbn; rewrite app_length; cbn; lia).
  constructor.
  - intros o1 o2 o' D1 D2. destruct (Nat.eq_dec o1 o) as [->|N1], (Nat.eq_dec o2 o) as [->|N2]; auto.
    + rewrite dget_dset_same in D1. injection D1 as <-. rewrite dget_dset_other in D2 by auto. apply L in D2. lia.
    + rewrite dget_dset_same in D2. injection D2 as <-. rewrite dget_dset_other in D1 by auto. apply L in D1. lia.
    + rewrite dget_dset_other in D1, D2 by auto. eauto.
  - intros o1 o' D. rewrite LO. destruct (Nat.eq_dec o1 o) as [->|N1]; [rewrite dget_dset_same in D; injection D as <-; lia|].
    rewrite dget_dset_other in D by auto. apply L in D. lia.
  - intros ->. destruct (C eq_refl) as [C1 C2]. cbn. rewrite !app_length. cbn. split; [lia|]. intros p t' Q.
    destruct (Nat.lt_ge_cases p (length (objs dst))) as [K|K]; [rewrite nth_error_app1 in Q by auto; auto|].
    rewrite nth_error_app2 in Q by auto. destruct (p - length (objs dst)) as [|z] eqn:Z; [|destruct z; discriminate].
    injection Q as <-. cbn. lia.
  - intros ->. cbn. auto.
  - intros o1 o' D. destruct (Nat.eq_dec o1 o) as [->|N1].
    + rewrite dget_dset_same in D. injection D as <-. destruct copy.
      * exists t, (MkT (length (stors dst)) (off t) (len t)), d. cbn. rewrite !nth_error_snoc. repeat split; auto. discriminate.
      * exists t, t, d. cbn. rewrite nth_error_snoc, (SH eq_refl). repeat split; auto.
    + rewrite dget_dset_other in D by auto. destruct (O _ _ D) as (t0 & t' & d0 & A1 & A2 & A3 & A4 & A5).
      exists t0, t', d0. split; auto. split; auto. destruct copy; cbn; split; auto using nth_error_grow.
Qed.
Lemma travel_ok {A} copy (src : mem A) refs : forall memo dst, sendable src refs -> Inv copy src memo dst ->
  exists memo' dst' refs', travel copy src memo dst refs = Ok (memo', dst', refs') /\ Inv copy src memo' dst' /\
    (forall o o', dget o memo = Some o' -> dget o memo' = Some o') /\
    length refs' = length refs /\
    forall i o o', nth_error refs i = Some o -> nth_error refs' i = Some o' -> dget o memo' = Some o'.
Proof.
  induction refs as [|o r IH]; intros memo dst V I; cbn [travel].
  - exists memo, dst, []. split; auto. split; auto. split; auto. split; auto. intros [|i] ? ? E; discriminate.
  - assert (V' : sendable src r) by (intros x X; apply V; right; auto).
    destruct (dget o memo) as [o'|] eqn:G.
    + destruct (IH memo dst V' I) as (memo' & dst' & refs' & -> & I' & M & LL & K). cbn [bind fst snd].
      exists memo', dst', (o' :: refs'). split; auto. split; auto. split; auto. split; [cbn; lia|].
      intros [|i] a b E1 E2; [injection E1 as <-; injection E2 as <-; auto|eauto].
    + destruct (V o (or_introl eq_refl)) as (v & Q). unfold value in Q.
      destruct (nth_error (objs src) o) as [t|] eqn:E1; [|discriminate]. destruct (nth_error (stors src) (stor t)) as [d|] eqn:E2; [|discriminate].
      cbv zeta. pose proof (inv_step copy src memo dst o t d I G E1 E2) as I1.
      destruct (IH _ _ V' I1) as (memo' & dst' & refs' & -> & I' & M & LL & K). cbn [bind fst snd].
      exists memo', dst', (length (objs dst) :: refs'). split; auto. split; auto. split.
      { intros x x' X. apply M. destruct (Nat.eq_dec x o) as [->|N]; [congruence|]. rewrite dget_dset_other by (intros ZZ; apply N; auto). exact X. }
      split; [cbn; lia|]. intros [|i] a b F1 F2; [injection F1 as <-; injection F2 as <-; apply M, dget_dset_same|eauto].
Qed.
Lemma inv_init {A} copy (src : mem A) : Inv copy src [] (MkM [] (if copy then [] else stors src)).
Proof.
  constructor; try (intros; discriminate).
  - intros ->. split; auto. intros [|p] t E; discriminate.
  - intros ->. reflexivity.
Qed.

(* Whatever is sent, in either mode: as many references arrive, with the same contents, and two of them are the same tensor
   exactly when they were the same before. *)
Theorem C212_values_and_identity : forall A copy (src : mem A) refs, sendable src refs ->
  exists dst refs', transfer copy src refs = Ok (dst, refs') /\ length refs' = length refs /\
    (forall i o o', nth_error refs i = Some o -> nth_error refs' i = Some o' -> value dst o' = value src o) /\
    (forall i j o1 o2 o1' o2', nth_error refs i = Some o1 -> nth_error refs j = Some o2 ->
       nth_error refs' i = Some o1' -> nth_error refs' j = Some o2' -> (o1' = o2' <-> o1 = o2)).
Proof.
  intros A copy src refs V. destruct (travel_ok copy src refs _ _ V (inv_init copy src)) as (memo & dst & refs' & E & I & _ & LL & K).
  exists dst, refs'. unfold transfer. rewrite E. split; auto. split; auto. split.
  - intros i o o' E1 E2. destruct (i_obj _ _ _ _ I o o' (K i o o' E1 E2)) as (t & t' & d & A1 & A2 & A3 & A4 & A5 & A6 & _).
    unfold value, view. now rewrite A1, A2, A3, A4, A5, A6.
  - intros i j o1 o2 o1' o2' E1 E2 F1 F2. pose proof (K i _ _ E1 F1) as K1. pose proof (K j _ _ E2 F2) as K2. split.
    + intros <-. eapply (i_inj _ _ _ _ I); eauto.
    + intros <-. congruence.
Qed.
Print Assumptions C212_values_and_identity.
Lemma nth_skipn {B} n : forall (l : list B) k, nth_error (skipn n l) k = nth_error l (n + k).
Proof. induction n as [|n IH]; intros [|x l] k; cbn; auto. now destruct k. Qed.
Lemma nth_firstn {B} n : forall (l : list B) k, k < n -> nth_error (firstn n l) k = nth_error l k.
Proof. induction n as [|n IH]; intros [|x l] [|k] L; cbn; auto; try lia. apply IH. lia. Qed.
Lemma view_nth {A} (t : tobj) (d : list A) k : k < len t -> nth_error (view t d) k = nth_error d (off t + k).
Proof. intros K. unfold view. now rewrite nth_firstn, nth_skipn. Qed.
(* element by element: element k of a tensor that has arrived is element off + k of the storage of the tensor sent *)
Theorem C212_elements : forall A copy (src : mem A) refs dst refs' i o o' t d, sendable src refs ->
  transfer copy src refs = Ok (dst, refs') -> nth_error refs i = Some o -> nth_error refs' i = Some o' ->
  nth_error (objs src) o = Some t -> nth_error (stors src) (stor t) = Some d -> off t + len t <= length d ->
  exists v, value dst o' = Some v /\ length v = len t /\ forall k, k < len t -> nth_error v k = nth_error d (off t + k).
Proof.
  intros A copy src refs dst refs' i o o' t d V T E E' O D L.
  destruct (C212_values_and_identity A copy src refs V) as (dst0 & refs0 & T0 & _ & H & _). rewrite T in T0. injection T0 as <- <-.
  specialize (H i o o' E E'). exists (view t d). split; [rewrite H; unfold value; now rewrite O, D|].
  split; [unfold view; rewrite firstn_length, skipn_length; lia|]. intros k K. now apply view_nth.
Qed.
Print Assumptions C212_elements.

(* by reference (copy_tensor=False): sharing is kept *)
Theorem C213_by_reference_partial : forall A (src : mem A) refs dst refs', sendable src refs ->
  transfer false src refs = Ok (dst, refs') ->
  forall i j o1 o2 o1' o2', nth_error refs i = Some o1 -> nth_error refs j = Some o2 ->
    nth_error refs' i = Some o1' -> nth_error refs' j = Some o2' -> (shares dst o1' o2' <-> shares src o1 o2).
Proof.
  intros A src refs dst refs' V T i j o1 o2 o1' o2' E1 E2 F1 F2.
  destruct (travel_ok false src refs _ _ V (inv_init false src)) as (memo & dst0 & refs0 & E & I & _ & LL & K).
  unfold transfer in T. rewrite E in T. injection T as -> ->.
  destruct (i_obj _ _ _ _ I o1 o1' (K i _ _ E1 F1)) as (t1 & t1' & d1 & A1 & _ & A3 & _ & _ & _ & A7).
  destruct (i_obj _ _ _ _ I o2 o2' (K j _ _ E2 F2)) as (t2 & t2' & d2 & B1 & _ & B3 & _ & _ & _ & B7).
  rewrite (A7 eq_refl) in A3. rewrite (B7 eq_refl) in B3. unfold shares. split; intros (x & y & X & Y & Q).
  - exists t1, t2. rewrite X in A3. injection A3 as ->. rewrite Y in B3. injection B3 as ->. auto.
  - exists t1, t2. rewrite X in A1. injection A1 as ->. rewrite Y in B1. injection B1 as ->. auto.
Qed.
Print Assumptions C213_by_reference_partial.

(* and what is written to one tensor is seen in the others that look at the same element, and nothing else changes *)
Theorem C213_writes_partial : forall A (src : mem A) refs dst refs' i j o1 o2 o1' o2' t1 t2 d k x, sendable src refs ->
  transfer false src refs = Ok (dst, refs') ->
  nth_error refs i = Some o1 -> nth_error refs j = Some o2 -> nth_error refs' i = Some o1' -> nth_error refs' j = Some o2' ->
  nth_error (objs src) o1 = Some t1 -> nth_error (objs src) o2 = Some t2 -> stor t1 = stor t2 -> nth_error (stors src) (stor t1) = Some d ->
  k < len t1 -> off t1 + k < length d ->
  exists v, value (write dst o1' k x) o2' = Some v /\
    forall m, m < len t2 -> nth_error v m = if off t2 + m =? off t1 + k then Some x else nth_error d (off t2 + m).
Proof.
  intros A src refs dst refs' i j o1 o2 o1' o2' t1 t2 d k x V T E1 E2 F1 F2 O1 O2 S D K L.
  destruct (travel_ok false src refs _ _ V (inv_init false src)) as (memo & dst0 & refs0 & E & I & _ & LL & Km).
  unfold transfer in T. rewrite E in T. injection T as -> ->.
  destruct (i_obj _ _ _ _ I o1 o1' (Km i _ _ E1 F1)) as (u1 & u1' & d1 & A1 & _ & A3 & _ & _ & _ & A7).
  destruct (i_obj _ _ _ _ I o2 o2' (Km j _ _ E2 F2)) as (u2 & u2' & d2 & B1 & _ & B3 & _ & _ & _ & B7).
  rewrite (A7 eq_refl) in A3. rewrite (B7 eq_refl) in B3. rewrite A1 in O1. injection O1 as ->. rewrite B1 in O2. injection O2 as ->.
  pose proof (i_shared _ _ _ _ I eq_refl) as Sh. exists (view t2 (upd (off t1 + k) x d)). split.
  - unfold write. rewrite A3, Sh, D. assert (Kb : (k <? len t1) = true) by (now apply Nat.ltb_lt). rewrite Kb. unfold value. cbn [objs stors].
    rewrite B3, <- S, upd_same; auto. apply nth_error_Some. congruence.
  - intros m M. rewrite view_nth by auto. destruct (Nat.eqb_spec (off t2 + m) (off t1 + k)) as [->|Q]; [now apply upd_same|].
    rewrite upd_other; auto.
Qed.
Print Assumptions C213_writes_partial.

Lemma write_other {A} (m : mem A) o1 o2 k x : ~ shares m o1 o2 -> value (write m o1 k x) o2 = value m o2.
Proof.
  intros N. unfold write. destruct (nth_error (objs m) o1) as [t1|] eqn:E1; auto.
  destruct (nth_error (stors m) (stor t1)) as [d|]; auto. destruct (k <? len t1); auto.
  unfold value. cbn. destruct (nth_error (objs m) o2) as [t2|] eqn:E2; auto.
  rewrite upd_other; auto. intros Q. apply N. exists t1, t2. auto.
Qed.
(* As a copy (the default of dumps, and of what is sent to pools): no two different tensors share memory any longer,
   and what is written to one is not seen in the others, whatever was shared before. *)
Theorem C213_refuted : forall A (src : mem A) refs dst refs', sendable src refs ->
  transfer true src refs = Ok (dst, refs') ->
  forall i j o1 o2 o1' o2', nth_error refs i = Some o1 -> nth_error refs j = Some o2 ->
    nth_error refs' i = Some o1' -> nth_error refs' j = Some o2' -> o1 <> o2 ->
    ~ shares dst o1' o2' /\ forall k x, value (write dst o1' k x) o2' = value dst o2'.
Proof.
  intros A src refs dst refs' V T i j o1 o2 o1' o2' E1 E2 F1 F2 N.
  destruct (travel_ok true src refs _ _ V (inv_init true src)) as (memo & dst0 & refs0 & E & I & _ & LL & K).
  unfold transfer in T. rewrite E in T. injection T as -> ->.
  assert (NS : ~ shares dst o1' o2').
  { intros (x & y & X & Y & Q). destruct (i_copy _ _ _ _ I eq_refl) as [_ C]. apply C in X. apply C in Y.
    apply N. apply (i_inj _ _ _ _ I o1 o2 o1'); [eapply K; eauto|]. replace o1' with o2' by congruence. eapply K; eauto. }
  split; auto. intros k x. now apply write_other.
Qed.
Print Assumptions C213_refuted.

(* two overlapping views of one storage, and one of them again *)
Example C212_nonvacuous :
  let src := MkM [MkT 0 0 3; MkT 0 1 2] [[10; 11; 12]] in
  transfer true src [0; 1; 0] = Ok (MkM [MkT 0 0 3; MkT 1 1 2] [[10; 11; 12]; [10; 11; 12]], [0; 1; 0]) /\
  transfer false src [1; 0] = Ok (MkM [MkT 0 1 2; MkT 0 0 3] [[10; 11; 12]], [0; 1]).
Proof. split; reflexivity. Qed.
Example C213_nonvacuous :
  let src := MkM [MkT 0 0 3; MkT 0 1 2] [[10; 11; 12]] in
  value (write src 0 1 99) 1 = Some [99; 12] /\
  match transfer true src [0; 1] with Ok (dst, _) => value (write dst 0 1 99) 1 = Some [11; 12] | Err _ => False end.
Proof. split; reflexivity. Qed.
