(* C206 restarting a trial by name, C207 every trial has its own directory. *)
From Verif Require Import Lib.Base Model.TrialName.

(* times datetime.now() can return (in this millennium) *)
Definition real_time (t : dtime) : Prop :=
  1000 <= yr t /\ yr t < 10 * 1000 /\ 1 <= mon t <= 12 /\ 1 <= day t <= dim (yr t) (mon t) /\ hr t <= 23 /\ mi t <= 59 /\ se t <= 59.
Definition same_second (s t : dtime) : Prop :=
  yr s = yr t /\ mon s = mon t /\ day s = day t /\ hr s = hr t /\ mi s = mi t /\ se s = se t.
(* names are made of digits *)
Definition digits_ok (l : list ch) : Prop := forall d, In (D d) l -> d <= 9.

Lemma dim_31 y m : dim y m <= 31.
Proof. unfold dim. repeat (destruct m as [|m]; try lia). destruct (leap y); lia. Qed.
Lemma split_field f r : ~ In U f -> split_us (f ++ U :: r) = f :: split_us r.
Proof.
  induction f as [|c f IH]; intros N; cbn; auto. rewrite IH by (intros I; apply N; right; auto).
  destruct c; auto. exfalso. apply N. left; auto.
Qed.
Lemma split_last f : ~ In U f -> split_us f = [f].
Proof.
  induction f as [|c f IH]; intros N; cbn; auto. rewrite IH by (intros I; apply N; right; auto).
  destruct c; auto. exfalso. apply N. left; auto.
Qed.
Lemma pad2_U n : ~ In U (pad2 n).
Proof. cbn. intros [E|[E|[]]]; discriminate. Qed.
Lemma year_str_U n : ~ In U (year_str n).
Proof.
  unfold year_str. destruct (1000 <=? n), (100 <=? n), (10 <=? n); cbn; intros H;
    repeat (destruct H as [H|H]; [discriminate|]); destruct H.
Qed.
Lemma split_strftime t : split_us (strftime t) =
  [year_str (yr t); pad2 (mon t); pad2 (day t); pad2 (hr t); pad2 (mi t); pad2 (se t)].
Proof.
  unfold strftime. rewrite split_field by apply year_str_U. do 4 (rewrite split_field by apply pad2_U).
  rewrite split_last by apply pad2_U. reflexivity.
Qed.
Lemma ten n : 10 * (n / 10) + n mod 10 = n.
Proof. symmetry. apply Nat.div_mod. discriminate. Qed.
Lemma field_y_str n : 1000 <= n -> field_y (year_str n) = Some n.
Proof.
  intros L. unfold year_str. destruct (Nat.leb_spec 1000 n); [|lia]. cbn [field_y]. f_equal.
  assert (E1 : n / 100 = n / 10 / 10) by (rewrite Nat.div_div by discriminate; reflexivity).
  assert (E2 : n / 1000 = n / 10 / 10 / 10) by (rewrite !Nat.div_div by discriminate; reflexivity).
  rewrite E1, E2. pose proof (ten n). pose proof (ten (n / 10)). pose proof (ten (n / 10 / 10)). lia.
Qed.
Lemma field2_pad n : field2 (pad2 n) = Some n.
Proof. cbn [field2 pad2]. now rewrite ten. Qed.
Lemma field_d_pad n : field_d (pad2 n) = Some n.
Proof. unfold field_d, pad2. cbn [field2]. now rewrite ten. Qed.
Lemma strptime_strftime t : real_time t ->
  strptime (strftime t) = Some (MkDt (yr t) (mon t) (day t) (hr t) (mi t) (se t) 0).
Proof.
  intros (Y & _ & M & Dy & H & I & S). unfold strptime. rewrite split_strftime, field_y_str, !field2_pad, field_d_pad by lia.
  replace (1 <=? yr t) with true by (symmetry; apply Nat.leb_le; lia).
  replace (between 1 (mon t) 12) with true by (symmetry; apply andb_true_intro; split; apply Nat.leb_le; lia).
  replace (between 1 (day t) (dim (yr t) (mon t))) with true by (symmetry; apply andb_true_intro; split; apply Nat.leb_le; lia).
  apply Nat.leb_le in H, I, S. now rewrite H, I, S.
Qed.

(* the name of every trial directory that was created can be used to restart the trial *)
Theorem C206_partial : forall t now, real_time t ->
  exists t', create_time (Some (trial_root t)) now = Ok t' /\ same_second t' t /\ us t' = 0 /\ trial_root t' = trial_root t.
Proof.
  intros t now R. unfold create_time, trial_root. rewrite strptime_strftime by auto. eexists. split; [reflexivity|].
  split; [repeat split|]. split; reflexivity.
Qed.
Print Assumptions C206_partial.

Fixpoint join_us (fs : list (list ch)) : list ch :=
  match fs with [] => [] | [f] => f | f :: r => f ++ U :: join_us r end.
Lemma split_nonempty l : split_us l <> [].
Proof. induction l as [|c l IH]; cbn; [discriminate|]. destruct c; try discriminate; destruct (split_us l); discriminate. Qed.
Lemma join_split l : join_us (split_us l) = l.
Proof.
  induction l as [|c l IH]; auto. cbn [split_us]. pose proof (split_nonempty l) as NE.
  destruct c; try (destruct (split_us l) as [|f fs]; [congruence|]; destruct fs; cbn [join_us app] in *; now rewrite IH).
Qed.
Lemma div10 a b : b <= 9 -> (10 * a + b) / 10 = a /\ (10 * a + b) mod 10 = b.
Proof.
  intros L. split; [symmetry; apply (Nat.div_unique _ 10 a b); lia|symmetry; apply (Nat.mod_unique _ 10 a b); lia].
Qed.

(* what an accepted name means, and when the directory used is the one named *)
Theorem C206_restart_spec_partial : forall name now t, digits_ok name ->
  create_time (Some name) now = Ok t ->
  (trial_root t = name <-> 1000 <= yr t /\ length name = 19 /\ ~ In Sp name).
Proof.
  intros name now t DO E. unfold create_time in E. destruct (strptime name) as [t'|] eqn:P; [|discriminate]. injection E as ->.
  unfold strptime in P. pose proof (join_split name) as J.
  destruct (split_us name) as [|fy [|fm [|fd [|fh [|fi [|fs [|? ?]]]]]]]; try discriminate.
  cbn [join_us] in J. subst name.
  destruct (field_y fy) as [y|] eqn:Ey; [|discriminate]. destruct (field2 fm) as [m|] eqn:Em; [|discriminate].
  destruct (field_d fd) as [d|] eqn:Ed; [|discriminate]. destruct (field2 fh) as [h|] eqn:Eh; [|discriminate].
  destruct (field2 fi) as [i|] eqn:Ei; [|discriminate]. destruct (field2 fs) as [s|] eqn:Es; [|discriminate].
  destruct (_ && _)%bool; [|discriminate]. injection P as <-.
  assert (F2 : forall f n, field2 f = Some n -> (forall e, In (D e) f -> e <= 9) ->
    ~ In Sp f /\ ((length f = 2 /\ f = pad2 n) \/ length f = 1)).
  { intros f n F L. destruct f as [|[a| | |] [|[b| | |] [|? ?]]]; try discriminate; injection F as F.
    - split; [intros [Q|[]]; discriminate|right; reflexivity].
    - assert (Fn : n = 10 * a + b) by lia. clear F. subst n. split; [intros [Q|[Q|[]]]; discriminate|left]. split; auto. unfold pad2.
      destruct (div10 a b) as [-> ->]; [apply L; right; left; auto|]. reflexivity. }
  assert (FD : (~ In Sp fd /\ ((length fd = 2 /\ fd = pad2 d) \/ length fd = 1)) \/ (In Sp fd /\ length fd = 2)).
  { assert (L : forall e, In (D e) fd -> e <= 9).
    { intros e I. apply DO. do 2 (apply in_or_app; right; right). apply in_or_app. left. exact I. }
    destruct fd as [|[a| | |] r]; try discriminate.
    - left. apply F2; auto.
    - destruct r as [|[a| | |] [|? ?]]; try discriminate. right. split; [left; auto|reflexivity]. }
  destruct (F2 fm m Em) as [Nm Dm].
  { intros e I. apply DO. apply in_or_app; right; right. apply in_or_app. left. exact I. }
  destruct (F2 fh h Eh) as [Nh Dh].
  { intros e I. apply DO. do 3 (apply in_or_app; right; right). apply in_or_app. left. exact I. }
  destruct (F2 fi i Ei) as [Ni Di].
  { intros e I. apply DO. do 4 (apply in_or_app; right; right). apply in_or_app. left. exact I. }
  destruct (F2 fs s Es) as [Ns Ds].
  { intros e I. apply DO. do 5 (apply in_or_app; right; right). exact I. }
  assert (FY : length fy = 4 /\ ~ In Sp fy /\ (1000 <= y -> fy = year_str y)).
  { assert (L : forall e, In (D e) fy -> e <= 9) by (intros e I; apply DO; apply in_or_app; left; exact I).
    destruct fy as [|[a| | |] [|[b| | |] [|[c| | |] [|[e| | |] [|? ?]]]]]; try discriminate. injection Ey as Ey.
    split; auto. split; [intros H; repeat (destruct H as [H|H]; [discriminate|]); destruct H|]. intros LE.
    pose proof (L a ltac:(cbn; auto)) as La. pose proof (L b ltac:(cbn; auto)) as Lb.
    pose proof (L c ltac:(cbn; auto)) as Lc. pose proof (L e ltac:(cbn; auto)) as Le.
    assert (R : year_str (10 * (10 * (10 * a + b) + c) + e) = [D a; D b; D c; D e]).
    { set (n := 10 * (10 * (10 * a + b) + c) + e). unfold year_str. replace (1000 <=? n) with true by (symmetry; apply Nat.leb_le; unfold n; lia).
      change 1000 with (10 * 10 * 10). change 100 with (10 * 10). rewrite <- !Nat.div_div by discriminate.
      unfold n. destruct (div10 (10 * (10 * a + b) + c) e Le) as [-> ->]. destruct (div10 (10 * a + b) c Lc) as [-> ->].
      destruct (div10 a b Lb) as [-> ->]. reflexivity. }
    rewrite <- R. f_equal. cbn [Nat.of_num_uint] in *. lia. }
  destruct FY as (Ly & Ny & Qy).
  unfold trial_root. cbn [yr]. split.
  - intros Q. pose proof (f_equal (split_us) Q) as QS. rewrite split_strftime in QS. cbn [yr mon day hr mi se] in QS.
    assert (LQ := f_equal (@length ch) Q). 
    assert (NU2 : forall f n, field2 f = Some n -> ~ In U f).
    { intros f n F I. destruct f as [|[a| | |] [|[b| | |] [|? ?]]]; try discriminate; cbn in I; repeat (destruct I as [I|I]; [discriminate|]); destruct I. }
    assert (NUy : ~ In U fy).
    { intros I. destruct fy as [|[a| | |] [|[b| | |] [|[c| | |] [|[e| | |] [|? ?]]]]]; try discriminate. cbn in I; repeat (destruct I as [I|I]; [discriminate|]); destruct I. }
    assert (NUd : ~ In U fd).
    { intros I. destruct fd as [|[a| | |] r]; try discriminate; [exact (NU2 _ d Ed I)|]. destruct r as [|[a'| | |] [|? ?]]; try discriminate.
      destruct I as [I|[I|[]]]; discriminate. }
    rewrite split_field in QS by auto. rewrite split_field in QS by eauto. rewrite split_field in QS by auto. do 2 (rewrite split_field in QS by eauto).
    rewrite split_last in QS by eauto. injection QS as Q1 Q2 Q3 Q4 Q5 Q6.
    assert (Y : 1000 <= y).
    { rewrite <- Q1 in Ly. unfold year_str in Ly. destruct (Nat.leb_spec 1000 y); auto. destruct (100 <=? y), (10 <=? y); discriminate. }
    split; auto. rewrite <- Q2, <- Q3, <- Q4, <- Q5, <- Q6 in *. split.
    + rewrite !app_length. cbn [length pad2]. rewrite !app_length. cbn [length pad2 app]. rewrite Ly. reflexivity.
    + intros I. repeat (apply in_app_or in I as [I|I]; [|destruct I as [I|I]; [discriminate|]]); try tauto;
        cbn in I; repeat (destruct I as [I|I]; [discriminate|]); destruct I.
  - intros (Y & LN & NS).
    repeat (rewrite app_length in LN; cbn [length] in LN).
    destruct FD as [[Nd Dd]|[I _]]; [|exfalso; apply NS; do 2 (apply in_or_app; right; right); apply in_or_app; auto].
    assert (G : length fm = 2 /\ length fd = 2 /\ length fh = 2 /\ length fi = 2 /\ length fs = 2).
    { destruct Dm as [[? _]|?], Dd as [[? _]|?], Dh as [[? _]|?], Di as [[? _]|?], Ds as [[? _]|?]; lia. }
    destruct G as (G1 & G2 & G3 & G4 & G5).
    destruct Dm as [[_ Em']|?]; [|lia]. destruct Dd as [[_ Ed']|?]; [|lia]. destruct Dh as [[_ Eh']|?]; [|lia].
    destruct Di as [[_ Ei']|?]; [|lia]. destruct Ds as [[_ Es']|?]; [|lia].
    unfold strftime. cbn [yr mon day hr mi se]. now rewrite <- (Qy Y), <- Em', <- Ed', <- Eh', <- Ei', <- Es'.
Qed.
Print Assumptions C206_restart_spec_partial.

(* Names with a field of one digit are accepted, and another directory than the named one is used. *)
Theorem C206_refuted : forall name now t, digits_ok name ->
  create_time (Some name) now = Ok t -> length name < 19 -> trial_root t <> name.
Proof.
  intros name now t DO E L Q. apply (C206_restart_spec_partial name now t DO E) in Q as (_ & Q & _). lia.
Qed.
Print Assumptions C206_refuted.
Definition d2 (a b : nat) : list ch := [D a; D b].
Example C206_nonvacuous :
  let now := MkDt 2026 11 17 5 9 0 7 in
  (* 2021_3_04_05_06_07 and 2021_03_04_05_06_07 *)
  let short := [D 2; D 0; D 2; D 1; U; D 3; U] ++ d2 0 4 ++ U :: d2 0 5 ++ U :: d2 0 6 ++ U :: d2 0 7 in
  let full := [D 2; D 0; D 2; D 1; U; D 0; D 3; U] ++ d2 0 4 ++ U :: d2 0 5 ++ U :: d2 0 6 ++ U :: d2 0 7 in
  length short = 18 /\ create_time (Some short) now = Ok (MkDt 2021 3 4 5 6 7 0) /\ trial_root (MkDt 2021 3 4 5 6 7 0) = full /\
  create_time (Some full) now = Ok (MkDt 2021 3 4 5 6 7 0) /\
  (* 2021_02_29: not a date *)
  create_time (Some ([D 2; D 0; D 2; D 1; U; D 0; D 2; U] ++ d2 2 9 ++ U :: d2 0 5 ++ U :: d2 0 6 ++ U :: d2 0 7)) now = Err EValue.
Proof. vm_compute. auto 10. Qed.

(* two trials share their directory exactly when they were created in the same second *)
Theorem C207_partial : forall s t, real_time s -> real_time t -> (trial_root s = trial_root t <-> same_second s t).
Proof.
  intros s t Rs Rt. split.
  - intros E. unfold trial_root in E. pose proof (strptime_strftime s Rs) as A. pose proof (strptime_strftime t Rt) as B.
    rewrite E, B in A. injection A as ? ? ? ? ? ?. repeat split; auto.
  - intros (A & B & C & D' & E & F). unfold trial_root, strftime. now rewrite A, B, C, D', E, F.
Qed.
Print Assumptions C207_partial.
(* hence to every trial there is another time of creation that gives the same directory *)
Theorem C207_refuted : forall t u, us t <> u ->
  let t' := MkDt (yr t) (mon t) (day t) (hr t) (mi t) (se t) u in
  t <> t' /\ create_time None t = Ok t /\ create_time None t' = Ok t' /\ trial_root t = trial_root t'.
Proof.
  intros t u N t'. split; [intros E; apply N; rewrite E; reflexivity|]. repeat split.
Qed.
Print Assumptions C207_refuted.
Example C207_nonvacuous :
  let a := MkDt 2026 11 17 5 9 0 7 in let b := MkDt 2026 11 17 5 9 0 8 in let c := MkDt 2026 11 17 5 9 1 7 in
  real_time a /\ trial_root a = trial_root b /\ trial_root a <> trial_root c.
Proof. split; [unfold real_time; cbn; lia|]. split; [reflexivity|discriminate]. Qed.

(* the calendar that decides which names are dates, in terms of divisibility: the lengths of the months *)
Theorem C206_calendar : forall y,
  (dim y 2 = 29 <-> (Nat.divide 4 y /\ ~ Nat.divide 100 y) \/ Nat.divide 400 y) /\
  (dim y 2 = 28 \/ dim y 2 = 29) /\
  map (dim y) [1; 3; 4; 5; 6; 7; 8; 9; 10; 11; 12] = [31; 31; 30; 31; 30; 31; 31; 30; 31; 30; 31].
Proof.
  intros y. split; [|split; [cbn [dim]; destruct (leap y); auto|reflexivity]].
  assert (H : forall n, n <> 0 -> (y mod n =? 0) = true <-> Nat.divide n y).
  { intros n N. rewrite Nat.eqb_eq. now apply Nat.mod_divide. }
  pose proof (H 4 ltac:(discriminate)) as H4. pose proof (H 100 ltac:(discriminate)) as H1. pose proof (H 400 ltac:(discriminate)) as H0.
  unfold dim, leap. destruct (y mod 4 =? 0), (y mod 100 =? 0), (y mod 400 =? 0); cbn [andb orb negb]; split; intros K; try discriminate; try reflexivity; 
    try (right; now apply H0); try (left; split; [now apply H4|intros Z; apply H1 in Z; discriminate]);
    exfalso; destruct K as [[K1 K2]|K]; try (apply H0 in K; discriminate); try (apply H4 in K1; discriminate); apply K2; now apply H1.
Qed.
Print Assumptions C206_calendar.
