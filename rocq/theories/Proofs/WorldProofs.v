(* Lookup tables: invariants behind C28 and C56. *)
From Verif Require Import Lib.Base Model.World Spec.WorldSpec.
Set Implicit Arguments.

(* ---- owned_by, one request at a time ---- *)
Lemma owned_cons_app q r t gk p :
  owned_by (q ++ [r]) t gk p <->
  (r = QSet t gk p true \/ (owned_by q t gk p /\ forall w p', r <> QUnset w t gk p' true)).
Proof.
  split.
  - intros (i & H & N). destruct (Nat.lt_trichotomy i (length q)) as [L|[L|L]].
    + right. rewrite nth_error_app1 in H by auto. split.
      * exists i. split; auto. intros j w p' Lj Hj. apply (N j w p' Lj). rewrite nth_error_app1; auto.
        apply nth_error_Some. congruence.
      * intros w p' ->. apply (N (length q) w p' L). rewrite nth_error_app2, Nat.sub_diag; auto.
    + left. subst i. rewrite nth_error_app2, Nat.sub_diag in H by auto. cbn in H. congruence.
    + exfalso. rewrite (proj2 (nth_error_None _ _)) in H; [discriminate|]. rewrite app_length; cbn; lia.
  - intros [->|[(i & H & N) R]].
    + exists (length q). rewrite nth_error_app2, Nat.sub_diag by auto. split; auto.
      intros j w p' L H. rewrite (proj2 (nth_error_None _ _)) in H; [discriminate|]. rewrite app_length; cbn; lia.
    + assert (L : i < length q) by (apply nth_error_Some; congruence).
      exists i. rewrite nth_error_app1 by auto. split; auto. intros j w p' Lj Hj.
      destruct (Nat.lt_ge_cases j (length q)) as [L'|L'].
      * rewrite nth_error_app1 in Hj by auto. apply (N j w p'); auto.
      * rewrite nth_error_app2 in Hj by auto. destruct (j - length q) as [|d]; cbn in Hj.
        -- injection Hj as Hj. now apply (R w p').
        -- destruct d; discriminate.
Qed.

(* the tables agree with the request log *)
Definition Agree (l : luts) (q : list req) : Prop :=
  NoDup (dkeys (l_val l)) /\ NoDup (dkeys (l_svc l)) /\
  forall t gk p, dget gk (tget t l) = Some p <-> owned_by q t gk p.

Definition Sound (q : list req) : Prop :=
  forall i r, nth_error q i = Some r -> right_answer (firstn i q) r.

Lemma tget_tput_same t d l : tget t (tput t d l) = d. Proof. now destruct t. Qed.
Lemma tget_tput_other t t' d l : t <> t' -> tget t' (tput t d l) = tget t' l.
Proof. destruct t, t'; congruence || reflexivity. Qed.
Lemma tbl_dec (t t' : tbl) : {t = t'} + {t <> t'}. Proof. decide equality. Qed.
Lemma gk_dec (a b : gkey) : {a = b} + {a <> b}.
Proof. destruct (eqb_spec a b); auto. Qed.

Lemma nodup_tget l t q : Agree l q -> NoDup (dkeys (tget t l)).
Proof. intros (A & B & _). now destruct t. Qed.
Lemma nodup_tput l t d : NoDup (dkeys (l_val l)) -> NoDup (dkeys (l_svc l)) -> NoDup (dkeys d) ->
  NoDup (dkeys (l_val (tput t d l))) /\ NoDup (dkeys (l_svc (tput t d l))).
Proof. intros. destruct t; cbn; auto. Qed.

Lemma agree_set l q t gk p : Agree l q ->
  let r := set_entry t gk p l in
  Agree (fst r) (q ++ [QSet t gk p (snd r)]) /\ right_answer q (QSet t gk p (snd r)).
Proof.
  intros A. pose proof (@nodup_tget l t q A) as ND. destruct A as (N1 & N2 & A). cbn zeta. unfold set_entry.
  destruct (dmem gk (tget t l)) eqn:M; unfold dmem in M; destruct (dget gk (tget t l)) as [p0|] eqn:G; try discriminate.
  - cbn [fst snd]. split.
    + split; [|split]; auto. intros t' gk' p'. rewrite owned_cons_app, <- A. split; [right; split; auto; congruence|].
      intros [?|[? _]]; auto. discriminate.
    + cbn. split; [discriminate|]. intros U. exfalso. apply (U p0), A, G.
  - cbn [fst snd]. split.
    + destruct (@nodup_tput l t (dset gk p (tget t l)) N1 N2) as [N3 N4]; [now apply NoDup_dset|].
      split; [|split]; auto. intros t' gk' p'. rewrite owned_cons_app, <- A.
      destruct (tbl_dec t t') as [<-|Nt].
      * rewrite tget_tput_same. destruct (gk_dec gk gk') as [<-|Nk].
        -- rewrite dget_dset_same. split; [intros [= <-]; auto|]. intros [[= <-]|[H _]]; auto. congruence.
        -- rewrite dget_dset_other by auto. split; [intros ?; right; split; auto; congruence|].
           intros [?|[? _]]; auto. congruence.
      * rewrite tget_tput_other by auto. split; [intros ?; right; split; auto; congruence|].
        intros [?|[? _]]; auto. congruence.
    + cbn. split; auto. intros _ p' H. apply A in H. congruence.
Qed.

Lemma agree_unset l q w t gk p : Agree l q ->
  let r := unset_entry t gk p l in
  Agree (fst r) (q ++ [QUnset w t gk p (snd r)]) /\ right_answer q (QUnset w t gk p (snd r)).
Proof.
  intros A. pose proof (@nodup_tget l t q A) as ND. destruct A as (N1 & N2 & A). cbn zeta. unfold unset_entry.
  assert (Same : Agree l (q ++ [QUnset w t gk p false])).
  { split; [|split]; auto. intros t' gk' p'. rewrite owned_cons_app, <- A.
    split; [right; split; auto; congruence|]. intros [?|[? _]]; auto. discriminate. }
  destruct (dget gk (tget t l)) as [p0|] eqn:G.
  - destruct (Nat.eqb_spec p0 p) as [->|Np]; cbn [fst snd].
    + split.
      * destruct (@nodup_tput l t (ddel gk (tget t l)) N1 N2) as [N3 N4]; [now apply NoDup_ddel|].
        split; [|split]; auto. intros t' gk' p'. rewrite owned_cons_app, <- A.
        destruct (tbl_dec t t') as [<-|Nt].
        -- rewrite tget_tput_same. destruct (gk_dec gk gk') as [<-|Nk].
           ++ rewrite dget_ddel_same by auto. split; [discriminate|]. intros [?|[_ H]]; [discriminate|].
              exfalso. now apply (H w p).
           ++ rewrite dget_ddel_other by auto. split; [intros ?; right; split; auto; congruence|].
              intros [?|[? _]]; auto. discriminate.
        -- rewrite tget_tput_other by auto. split; [intros ?; right; split; auto; congruence|].
           intros [?|[? _]]; auto. discriminate.
      * cbn. rewrite <- A. tauto.
    + split; auto. cbn. rewrite <- A. split; [discriminate|congruence].
  - cbn [fst snd]. split; auto. cbn. rewrite <- A. split; [discriminate|congruence].
Qed.

Lemma agree_get l q t gk : Agree l q ->
  Agree l (q ++ [QGet t gk (get_entry t gk l)]) /\ right_answer q (QGet t gk (get_entry t gk l)).
Proof.
  intros (N1 & N2 & A). split.
  - split; [|split]; auto. intros t' gk' p'. rewrite owned_cons_app, <- A.
    split; [right; split; auto; congruence|]. intros [?|[? _]]; auto. discriminate.
  - cbn. unfold get_entry. destruct (dget gk (tget t l)) eqn:G; [now apply A|]. intros p H. apply A in H. congruence.
Qed.

Lemma unset_not_owner t gk p l : get_entry t gk l <> Some p -> unset_entry t gk p l = (l, false).
Proof.
  unfold get_entry, unset_entry. intro G. destruct (dget gk (tget t l)) as [q|]; auto.
  destruct (Nat.eqb_spec q p) as [->|]; auto. congruence.
Qed.
Lemma unset_owner t gk p l : get_entry t gk l = Some p -> unset_entry t gk p l = (tput t (ddel gk (tget t l)) l, true).
Proof. unfold get_entry, unset_entry. intros ->. now rewrite Nat.eqb_refl. Qed.
Lemma set_taken t gk p q l : get_entry t gk l = Some q -> set_entry t gk p l = (l, false).
Proof. unfold get_entry, set_entry, dmem. now intros ->. Qed.
Lemma set_free t gk p l : get_entry t gk l = None -> set_entry t gk p l = (tput t (dset gk p (tget t l)) l, true).
Proof. unfold get_entry, set_entry, dmem. now intros ->. Qed.

Lemma sound_snoc q r : Sound q -> right_answer q r -> Sound (q ++ [r]).
Proof.
  intros S R i x H. destruct (Nat.lt_ge_cases i (length q)) as [L|L].
  - rewrite nth_error_app1 in H by auto. rewrite firstn_app. replace (i - length q) with 0 by lia.
    cbn. rewrite app_nil_r. now apply S.
  - rewrite nth_error_app2 in H by auto. destruct (i - length q) as [|d] eqn:E.
    + cbn in H. injection H as <-. assert (i = length q) by lia. subst i.
      rewrite firstn_app, firstn_all, Nat.sub_diag. cbn. now rewrite app_nil_r.
    + cbn in H. destruct d; discriminate.
Qed.

Section LutP.
  Variable V : Type.
  Notation lst := (lst V).

  Definition WI (s : lst) : Prop := Agree (w_luts s) (w_log s) /\ Sound (w_log s).

  Ltac easyWI := unfold WI; cbn [set_call set_obj set_luts w_luts w_log]; auto.

  Lemma wi_advance i c (s : lst) : WI s -> WI (advance i c s).
  Proof.
    intros [A S]. destruct c as [t o k v|t o k v|t o k v ok|t o k|t o k|t o k ok|t o k|t o k|t g k h|t g k h|t o k|a]; cbn [advance];
      try (destruct (nth_error (w_objs s) o) as [ob|]; [|split; auto]); try solve [split; auto].
    - pose proof (@agree_set (w_luts s) (w_log s) t (okey ob k) (o_proc ob) A) as H. cbv zeta in H.
      destruct (set_entry t (okey ob k) (o_proc ob) (w_luts s)) as [l ok]. cbn [fst snd] in H. destruct H. easyWI.
      split; auto. now apply sound_snoc.
    - destruct ok; easyWI.
    - pose proof (@agree_unset (w_luts s) (w_log s) OUnpair t (okey ob k) (o_proc ob) A) as H. cbv zeta in H.
      destruct (unset_entry t (okey ob k) (o_proc ob) (w_luts s)) as [l ok]. cbn [fst snd] in H. destruct H. easyWI.
      split; auto. now apply sound_snoc.
    - destruct ok; [|easyWI]. destruct (dpop k (oget t ob)); easyWI.
    - destruct (@agree_get (w_luts s) (w_log s) t (okey ob k) A). easyWI. split; auto. now apply sound_snoc.
    - destruct (dget (h, g) (w_groups s)) as [o|]; [|easyWI]. destruct (nth_error (w_objs s) o) as [ob|]; [|easyWI].
      destruct (dget k (oget t ob)); easyWI.
    - pose proof (@agree_unset (w_luts s) (w_log s) OPurge t (g, k) h A) as H. cbv zeta in H.
      destruct (unset_entry t (g, k) h (w_luts s)) as [l ok]. cbn [fst snd] in H. destruct H. easyWI.
      split; auto. now apply sound_snoc.
    - destruct (@agree_get (w_luts s) (w_log s) t (okey ob k) A). easyWI. split; auto. now apply sound_snoc.
  Qed.

  Lemma wi_step (s : lst) l : WI s -> WI (wstep s l).
  Proof.
    intros I. destruct l as [p g|o|o|c|i]; cbn [wstep].
    - exact I.
    - destruct (nth_error (w_objs s) o) as [ob|]; auto. destruct (dmem (o_proc ob, o_grp ob) (w_groups s)); auto.
    - destruct (nth_error (w_objs s) o) as [ob|]; auto. destruct (o_dead ob); auto.
    - destruct (starts c); auto.
    - destruct (nth_error (w_calls s) i) as [c|]; auto. now apply wi_advance.
  Qed.

  Lemma wi_run ls : WI (wrun (V:=V) ls).
  Proof.
    unfold wrun. assert (I : WI (linit V)).
    { split.
      - split; [constructor|split; [constructor|]]. intros t gk p.
        split; [destruct t; cbn; discriminate|]. intros (i & H & _). destruct i; discriminate.
      - intros i r H. destruct i; discriminate. }
    revert I. generalize (linit V). induction ls as [|l ls IH]; cbn; intros s I; auto. apply IH. now apply wi_step.
  Qed.

  (* how one step changes an owner *)
  Lemma set_entry_owner t gk p l t' gk' q : get_entry t' gk' l = Some q ->
    get_entry t' gk' (fst (set_entry t gk p l)) = Some q.
  Proof.
    unfold get_entry, set_entry. intro H. destruct (dmem gk (tget t l)) eqn:M; cbn; auto.
    destruct (tbl_dec t t') as [<-|Nt]; [|now rewrite tget_tput_other].
    rewrite tget_tput_same. destruct (gk_dec gk gk') as [<-|Nk]; [|now rewrite dget_dset_other].
    unfold dmem in M. rewrite H in M. discriminate.
  Qed.
  Lemma unset_entry_owner t gk p l t' gk' q : NoDup (dkeys (tget t l)) -> get_entry t' gk' l = Some q ->
    get_entry t' gk' (fst (unset_entry t gk p l)) = Some q \/
    (get_entry t' gk' (fst (unset_entry t gk p l)) = None /\ t = t' /\ gk = gk' /\ p = q).
  Proof.
    unfold get_entry, unset_entry. intros ND H. destruct (dget gk (tget t l)) as [p0|] eqn:G; auto.
    destruct (Nat.eqb_spec p0 p) as [->|]; auto. cbn [fst].
    destruct (tbl_dec t t') as [<-|Nt]; [|left; now rewrite tget_tput_other].
    rewrite tget_tput_same. destruct (gk_dec gk gk') as [<-|Nk]; [|left; now rewrite dget_ddel_other].
    right. rewrite dget_ddel_same by auto. repeat split; auto. congruence.
  Qed.

  Lemma owner_step (s : lst) l t gk p : WI s -> get_entry t gk (w_luts s) = Some p ->
    get_entry t gk (w_luts (wstep s l)) = Some p \/
    (get_entry t gk (w_luts (wstep s l)) = None /\ withdraws s l t gk p).
  Proof.
    intros [A _] G. destruct l as [q g|o|o|c|i]; cbn [wstep withdraws]; auto.
    - destruct (nth_error (w_objs s) o) as [ob|]; auto. destruct (dmem (o_proc ob, o_grp ob) (w_groups s)); auto.
    - destruct (nth_error (w_objs s) o) as [ob|]; auto. destruct (o_dead ob); auto.
    - destruct (starts c); auto.
    - destruct (nth_error (w_calls s) i) as [c|]; auto.
      destruct c as [t0 o k v|t0 o k v|t0 o k v ok|t0 o k|t0 o k|t0 o k ok|t0 o k|t0 o k|t0 g k h|t0 g k h|t0 o k|a]; cbn [advance]; auto;
        try (destruct (nth_error (w_objs s) o) as [ob|]; [|auto; fail]); auto.
      + pose proof (@set_entry_owner t0 (okey ob k) (o_proc ob) _ _ _ _ G) as H.
        destruct (set_entry t0 (okey ob k) (o_proc ob) (w_luts s)) as [l' ok]. left. exact H.
      + destruct ok; auto.
      + destruct (@unset_entry_owner t0 (okey ob k) (o_proc ob) _ _ _ _ (@nodup_tget _ t0 _ A) G) as [H|(H & Q1 & Q2 & Q3)];
          destruct (unset_entry t0 (okey ob k) (o_proc ob) (w_luts s)) as [l' ok]; cbn in *; auto.
        right. split; auto. split; auto. exists ob. auto.
      + destruct ok; auto. destruct (dpop k (oget t0 ob)); auto.
      + destruct (dget (h, g) (w_groups s)) as [o|]; auto. destruct (nth_error (w_objs s) o) as [ob|]; auto.
        destruct (dget k (oget t0 ob)); auto.
      + destruct (@unset_entry_owner t0 (g, k) h _ _ _ _ (@nodup_tget _ t0 _ A) G) as [H|(H & Q1 & Q2 & Q3)];
          destruct (unset_entry t0 (g, k) h (w_luts s)) as [l' ok]; cbn in *; auto.
  Qed.
End LutP.
