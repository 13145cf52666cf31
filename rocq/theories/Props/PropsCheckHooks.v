(* C179, C180: the default hooks of check_model *)
From Coq Require Import String QArith Field.
Close Scope Q_scope.
From Verif Require Import Lib.Rat Model.CheckHooks.
Open Scope nat_scope.
Open Scope list_scope.
Set Implicit Arguments.

(* Specification. *)
Definition summary (xs : list Qc) (mi ma me : Qc) : Prop :=
  (In mi xs /\ forall x, In x xs -> mi <= x)%Qc /\ (In ma xs /\ forall x, In x xs -> x <= ma)%Qc /\
  (me * nq (List.length xs) = qsum xs)%Qc.
Definition good (v : value) : Prop := v = Other \/ exists xs, xs <> [] /\ v = Tensor false (map Some xs).
(* what the values of one hook call leave in the writer *)
Inductive writes (s : stage) (step : nat) : list (string * value) -> list item -> Prop :=
| W_nil : writes s step [] []
| W_other n r b : writes s step r b -> writes s step ((n, Other) :: r) b
| W_tensor n xs mi ma me r b : summary xs mi ma me -> writes s step r b ->
    writes s step ((n, Tensor false (map Some xs)) :: r)
      (Scalars (MkEntry n (Some mi) (Some ma) (Some me) step) ::
       (match s with SParam => [Histogram n (map Some xs) step] | _ => [] end) ++ b).
Definition due (iv : intervals) (k : nat) (s : stage) : Prop := exists m, k = m * interval iv s.
Inductive written (iv : intervals) (k : nat) : list (stage * list (string * value)) -> list item -> Prop :=
| WP_nil : written iv k [] []
| WP_due s vs r a b : due iv k s -> writes s k vs a -> written iv k r b -> written iv k ((s, vs) :: r) (a ++ b)
| WP_not s vs r b : ~ due iv k s -> written iv k r b -> written iv k ((s, vs) :: r) b.
Inductive history (iv : intervals) : nat -> list (list (stage * list (string * value))) -> list item -> Prop :=
| H_nil k : history iv k [] []
| H_pass k p r a b : written iv k p a -> history iv (S k) r b -> history iv k (p :: r) (a ++ b).
Definition positive (iv : intervals) : Prop := forall s, 0 < interval iv s.
Definition good_pass (iv : intervals) (k : nat) (p : list (stage * list (string * value))) : Prop :=
  forall s vs n v, In (s, vs) p -> due iv k s -> In (n, v) vs -> good v.

Lemma pick_some f xs x : fold_left (pick f) (map Some xs) (Some x) = Some (fold_left f xs x).
Proof. revert x; induction xs as [|y r IH]; intros x; cbn; auto. Qed.
Lemma min_spec xs x : In (fold_left qmin xs x) (x :: xs) /\ (forall y, In y (x :: xs) -> fold_left qmin xs x <= y)%Qc.
Proof.
  revert x; induction xs as [|y r IH]; intros x; cbn [fold_left].
  - split; [now left|]. intros y [->|[]]. qcl.
  - destruct (IH (qmin x y)) as [I L]. unfold qmin in *. destruct (Qcleb_spec x y) as [Hl|Hl].
    + split; [destruct I as [I|I]; [left; exact I|right; right; exact I]|].
      intros z [<-|[<-|Z]]; [apply L; now left| |apply L; now right].
      pose proof (L x (or_introl eq_refl)). qcl.
    + split; [destruct I as [I|I]; [right; left; exact I|right; right; exact I]|].
      intros z [<-|[<-|Z]]; [|apply L; now left|apply L; now right].
      pose proof (L y (or_introl eq_refl)). qcl.
Qed.
Lemma max_spec xs x : In (fold_left qmax xs x) (x :: xs) /\ (forall y, In y (x :: xs) -> y <= fold_left qmax xs x)%Qc.
Proof.
  revert x; induction xs as [|y r IH]; intros x; cbn [fold_left].
  - split; [now left|]. intros y [->|[]]. qcl.
  - destruct (IH (qmax x y)) as [I L]. unfold qmax in *. destruct (Qcleb_spec x y) as [Hl|Hl].
    + split; [destruct I as [I|I]; [right; left; exact I|right; right; exact I]|].
      intros z [<-|[<-|Z]]; [|apply L; now left|apply L; now right].
      pose proof (L y (or_introl eq_refl)). qcl.
    + split; [destruct I as [I|I]; [left; exact I|right; right; exact I]|].
      intros z [<-|[<-|Z]]; [apply L; now left| |apply L; now right].
      pose proof (L x (or_introl eq_refl)). qcl.
Qed.
Lemma fold_plus xs a : fold_left Qcplus xs a = (a + qsum xs)%Qc.
Proof. revert a; induction xs as [|y r IH]; intros a; cbn; [ring|]. rewrite IH. ring. Qed.
Lemma scalars_good n xs k : xs <> [] -> exists mi ma me, summary xs mi ma me /\
  scalars n false (map Some xs) k = Ok (MkEntry n (Some mi) (Some ma) (Some me) k).
Proof.
  destruct xs as [|x r]; [congruence|intros _].
  exists (fold_left qmin r x), (fold_left qmax r x), (qsum (x :: r) / nq (List.length (x :: r)))%Qc. split.
  - repeat split; try apply min_spec; try apply max_spec. field.
    apply Qcpos_neq. apply nq_pos. cbn. lia.
  - unfold scalars, reduce, mean. cbn [map bind]. rewrite !pick_some. cbn [bind].
    rewrite (pick_some Qcplus (x :: r) 0%Qc : fold_left (pick Qcplus) (Some x :: map Some r) (Some 0%Qc) = _).
    rewrite fold_plus. cbn [List.length]. rewrite map_length. do 3 f_equal. f_equal. ring.
Qed.
Lemma no_nan xs : check_nan (map Some xs) = Ok tt.
Proof. unfold check_nan. induction xs as [|x r IH]; cbn; auto. Qed.
Lemma values_good s k vs1 : (forall n v, In (n, v) vs1 -> good v) -> exists a, writes s k vs1 a /\
  forall vs2 w, check_values s k (vs1 ++ vs2) w = check_values s k vs2 (w ++ a).
Proof.
  induction vs1 as [|[n v] r IH]; intros G.
  - exists []. split; [constructor|]. intros vs2 w. now rewrite app_nil_r.
  - destruct IH as (a & Wa & E); [intros; eapply G; right; eauto|].
    destruct (G n v (or_introl eq_refl)) as [->|(xs & Ne & ->)].
    + exists a. split; [now constructor|]. intros vs2 w. cbn. apply E.
    + destruct (scalars_good n k Ne) as (mi & ma & me & Sm & Es).
      eexists. split; [exact (W_tensor n Sm Wa)|]. intros vs2 w. cbn [app check_values chk_nan chk_range].
      rewrite no_nan, Es. rewrite E. f_equal. rewrite <- app_assoc. cbn. reflexivity.
Qed.
Lemma due_mod iv k s : positive iv -> (due iv k s <-> k mod interval iv s = 0).
Proof.
  intros P. specialize (P s). split.
  - intros (m & ->). apply Nat.mod_mul. lia.
  - intros E. exists (k / interval iv s). rewrite Nat.mul_comm. apply Nat.div_exact; [lia|exact E].
Qed.
Lemma hook_due iv k s vs w : positive iv -> due iv k s -> check_hook iv k s vs w = check_values s k vs w.
Proof.
  intros P D. apply (due_mod k s P) in D. specialize (P s). unfold check_hook.
  destruct (interval iv s) as [|m] eqn:E; [lia|]. now rewrite D.
Qed.
Lemma hook_not iv k s vs w : positive iv -> ~ due iv k s -> check_hook iv k s vs w = (w, Ok tt).
Proof.
  intros P D. rewrite (due_mod k s P) in D. specialize (P s). unfold check_hook.
  destruct (interval iv s) as [|m] eqn:E; [lia|]. destruct (Nat.eqb_spec (k mod S m) 0); tauto.
Qed.
Lemma due_dec iv k s : positive iv -> due iv k s \/ ~ due iv k s.
Proof. intros P. rewrite (due_mod k s P). destruct (Nat.eq_dec (k mod interval iv s) 0); tauto. Qed.
Lemma hooks_good iv k pre : positive iv -> good_pass iv k pre -> exists a, written iv k pre a /\
  forall post w, hooks iv k (pre ++ post) w = hooks iv k post (w ++ a).
Proof.
  intros P. induction pre as [|[s vs] r IH]; intros G.
  - exists []. split; [constructor|]. intros. now rewrite app_nil_r.
  - destruct IH as (b & Wb & E); [intros s' vs' n v I; apply (G s' vs' n v); now right|].
    destruct (due_dec k s P) as [D|D].
    + destruct (@values_good s k vs) as (a & Wa & Ev); [intros n v I; apply (G s vs n v); auto; now left|].
      exists (a ++ b). split; [now constructor|]. intros post w. cbn [app hooks].
      rewrite hook_due by auto. specialize (Ev [] w). rewrite app_nil_r in Ev. rewrite Ev. cbn [check_values].
      rewrite E. now rewrite app_assoc.
    + exists b. split; [now constructor|]. intros post w. cbn [app hooks]. rewrite hook_not by auto. apply E.
Qed.

(* C179: with tensors of floating point numbers that are not empty and have no nan, every pass goes through, and
   minimum, maximum and mean of exactly the values that are due are recorded with the number of the pass. *)
Theorem C179_partial : forall iv ps, positive iv ->
  (forall j p, nth_error ps j = Some p -> good_pass iv (S j) p) ->
  exists items, history iv 1 ps items /\ passes iv ps init = ((List.length ps, items), repeat (Ok tt) (List.length ps)).
Proof.
  intros iv ps P. unfold init.
  assert (Gen : forall ps k w, (forall j p, nth_error ps j = Some p -> good_pass iv (S k + j) p) ->
    exists items, history iv (S k) ps items /\
      passes iv ps (k, w) = ((k + List.length ps, w ++ items), repeat (Ok tt) (List.length ps))).
  { clear ps. induction ps as [|p r IH]; intros k w G.
    - exists []. split; [constructor|]. cbn. now rewrite app_nil_r, Nat.add_0_r.
    - destruct (@hooks_good iv (S k) p P) as (a & Wa & Ea).
      { specialize (G 0 p eq_refl). now rewrite Nat.add_0_r in G. }
      destruct (IH (S k) (w ++ a)) as (b & Hb & Eb).
      { intros j q Q. specialize (G (S j) q Q). replace (S (S k) + j) with (S k + S j) by lia. exact G. }
      exists (a ++ b). split; [now constructor|]. cbn [passes]. unfold forward at 1. cbn [fst snd].
      specialize (Ea [] w). rewrite app_nil_r in Ea. rewrite Ea. cbn [hooks]. rewrite Eb. cbn [List.length repeat].
      rewrite <- app_assoc. replace (k + S (List.length r)) with (S k + List.length r) by lia. reflexivity. }
  intros G. destruct (Gen ps 0 [] G) as (items & Hh & E). exists items. split; auto.
Qed.
Print Assumptions C179_partial.

(* a due value with a nan ends the pass with CheckError; what came before it has been recorded, it has not *)
Theorem C179_nan : forall iv c w pre s vs1 n i l vs2 post, positive iv ->
  good_pass iv (S c) pre -> due iv (S c) s -> (forall n v, In (n, v) vs1 -> good v) -> In None l ->
  exists a b, written iv (S c) pre a /\ writes s (S c) vs1 b /\
  forward iv (pre ++ (s, vs1 ++ (n, Tensor i l) :: vs2) :: post) (c, w) = ((S c, w ++ a ++ b), Err EOther).
Proof.
  intros iv c w pre s vs1 n i l vs2 post P Gp D G1 I.
  destruct (hooks_good P Gp) as (a & Wa & Ea). destruct (@values_good s (S c) vs1 G1) as (b & Wb & Eb).
  exists a, b. split; [auto|split; [auto|]]. unfold forward. cbn [fst snd]. rewrite Ea. cbn [hooks].
  rewrite hook_due by auto. rewrite Eb. cbn [check_values chk_nan]. unfold check_nan.
  assert (existsb is_nan l = true) as -> by (apply existsb_exists; exists None; auto).
  now rewrite <- app_assoc.
Qed.
Print Assumptions C179_nan.

(* REFUTED for integers: every tensor of integers that is due (class numbers, indices of an embedding, counters of
   a normalisation layer) ends the pass with RuntimeError. *)
Theorem C179_integer_refuted : forall iv c w pre s vs1 n xs vs2 post, positive iv ->
  good_pass iv (S c) pre -> due iv (S c) s -> (forall n v, In (n, v) vs1 -> good v) ->
  exists w', forward iv (pre ++ (s, vs1 ++ (n, Tensor true (map Some xs)) :: vs2) :: post) (c, w) = ((S c, w'), Err ERuntime).
Proof.
  intros iv c w pre s vs1 n xs vs2 post P Gp D G1.
  destruct (hooks_good P Gp) as (a & Wa & Ea). destruct (@values_good s (S c) vs1 G1) as (b & Wb & Eb).
  exists ((w ++ a) ++ b). unfold forward. cbn [fst snd]. rewrite Ea. cbn [hooks].
  rewrite hook_due by auto. rewrite Eb. cbn [check_values chk_nan]. rewrite no_nan. cbn [chk_range].
  unfold scalars, mean. destruct xs as [|x r]; cbn [map reduce bind]; reflexivity.
Qed.
Print Assumptions C179_integer_refuted.
(* REFUTED for tensors without elements *)
Theorem C179_empty_refuted : forall iv c w pre s vs1 n i vs2 post, positive iv ->
  good_pass iv (S c) pre -> due iv (S c) s -> (forall n v, In (n, v) vs1 -> good v) ->
  exists w', forward iv (pre ++ (s, vs1 ++ (n, Tensor i []) :: vs2) :: post) (c, w) = ((S c, w'), Err ERuntime).
Proof.
  intros iv c w pre s vs1 n i vs2 post P Gp D G1.
  destruct (hooks_good P Gp) as (a & Wa & Ea). destruct (@values_good s (S c) vs1 G1) as (b & Wb & Eb).
  exists ((w ++ a) ++ b). unfold forward. cbn [fst snd]. rewrite Ea. cbn [hooks].
  rewrite hook_due by auto. rewrite Eb. reflexivity.
Qed.
Print Assumptions C179_empty_refuted.
(* an interval of 0 does not switch the checks off *)
Theorem C179_interval_zero : forall iv c w s vs post, interval iv s = 0 ->
  forward iv ((s, vs) :: post) (c, w) = ((S c, w), Err EZeroDiv).
Proof. intros iv c w s vs post E. unfold forward. cbn [fst snd hooks]. unfold check_hook. now rewrite E. Qed.
Print Assumptions C179_interval_zero.

Open Scope string_scope.
Definition q (n : nat) : option Qc := Some (nq n).
Example C179_nonvacuous :
  let iv := MkInt 1 2 3 in
  let p := [(SInput, [("m.input.x", Tensor false [q 2; q 6; q 1])]); (SOutput, [("m.output.0", Tensor false [q 4])])] in
  map (fun it => match it with Scalars e => (e_name e, option_map this (e_min e), option_map this (e_max e), option_map this (e_mean e), e_step e)
                 | Histogram n _ k => (n, None, None, None, k) end)
      (snd (fst (passes iv [p; p] init))) =
  [("m.input.x", Some (1 # 1), Some (6 # 1), Some (3 # 1), 1%nat);
   ("m.input.x", Some (1 # 1), Some (6 # 1), Some (3 # 1), 2%nat);
   ("m.output.0", Some (4 # 1), Some (4 # 1), Some (4 # 1), 2%nat)]%Q
  /\ snd (passes iv [p; [(SInput, [("m.input.x", Tensor false [q 2; None])])]; [(SInput, [("m.input.x", Tensor true [q 2])])]] init)
     = [Ok tt; Err EOther; Err ERuntime].
Proof. split; vm_compute; reflexivity. Qed.
Close Scope string_scope.

(* C180: parameters are checked once every param_check_interval backward passes *)
Definition is_fwd (e : event) : bool := match e with Fwd _ => true | Bwd => false end.
Definition is_bwd (e : event) : bool := match e with Fwd _ => false | Bwd => true end.
Definition count {A} (f : A -> bool) (l : list A) : nat := List.length (filter f l).
Definition is_histogram (i : item) : bool := match i with Histogram _ _ _ => true | _ => false end.
Definition checks (st : state) : nat := count is_histogram (snd st).
(* every call of the model checks one parameter *)
Definition one_param (l : list event) : Prop := forall calls, In (Fwd calls) l ->
  exists n xs, xs <> [] /\ calls = [(SParam, [(n, Tensor false (map Some xs))])].

Lemma succ_div a b : 0 < b -> S a / b = a / b + (if Nat.eqb (S a mod b) 0 then 1 else 0).
Proof.
  intros Hb. pose proof (Nat.div_mod a b ltac:(lia)). pose proof (Nat.div_mod (S a) b ltac:(lia)).
  pose proof (Nat.mod_upper_bound a b ltac:(lia)). pose proof (Nat.mod_upper_bound (S a) b ltac:(lia)).
  destruct (Nat.eqb_spec (S a mod b) 0) as [E|E]; nia.
Qed.
Lemma program_checks iv l : 0 < iv_param iv -> one_param l ->
  fst (program iv l) = count is_fwd l /\ checks (program iv l) = count is_fwd l / iv_param iv.
Proof.
  intros P. induction l as [|e l IH] using rev_ind; intros O.
  - cbn. split; auto. symmetry. apply Nat.div_0_l. lia.
  - destruct IH as [E1 E2]; [intros c I; apply O; apply in_or_app; now left|].
    unfold program in *. rewrite fold_left_app. cbn [fold_left]. set (st := fold_left (do_event iv) l init) in *.
    unfold count at 1 2. rewrite filter_app, app_length. fold (count is_fwd l). destruct e as [calls|].
    + destruct (O calls) as (n & xs & Ne & ->); [apply in_or_app; right; now left|].
      cbn [filter is_fwd List.length do_event]. unfold forward. cbn [hooks].
      assert (forall w, check_hook iv (S (fst st)) SParam [(n, Tensor false (map Some xs))] w =
        if Nat.eqb (S (fst st) mod iv_param iv) 0 then check_values SParam (S (fst st)) [(n, Tensor false (map Some xs))] w else (w, Ok tt)) as R.
      { intros w. unfold check_hook. cbn [interval]. destruct (iv_param iv) as [|m] eqn:Em; [lia|]. reflexivity. }
      assert (fst st / iv_param iv = checks st) as E3 by (rewrite E1; auto).
      rewrite R. rewrite Nat.add_1_r, <- E1. rewrite succ_div by auto. rewrite E3.
      destruct (Nat.eqb (S (fst st) mod iv_param iv) 0).
      * cbn [check_values chk_nan chk_range]. rewrite no_nan.
        destruct (scalars_good n (S (fst st)) Ne) as (mi & ma & me & _ & ->). cbn [fst snd]. split; [reflexivity|].
        unfold checks, count. cbn [snd]. rewrite filter_app, app_length. reflexivity.
      * cbn [fst snd]. split; [reflexivity|]. unfold checks. cbn [snd]. lia.
    + cbn [filter is_fwd List.length do_event]. rewrite !Nat.add_0_r. split; auto.
Qed.
(* the number of checks is determined by the calls of the model alone *)
Theorem C180_counts_calls : forall iv l, 0 < iv_param iv -> one_param l ->
  checks (program iv l) = count is_fwd l / iv_param iv.
Proof. intros iv l P O. now apply program_checks. Qed.
Print Assumptions C180_counts_calls.
Lemma bwd_only k : count is_fwd (repeat Bwd k) = 0 /\ count is_bwd (repeat Bwd k) = k.
Proof. unfold count. induction k as [|k [A B]]; cbn in *; auto. Qed.
(* REFUTED: evaluation without any backward pass is checked, and any number of backward passes after fewer calls of
   the model than the interval is not. *)
Theorem C180_refuted : forall iv b, 0 < iv_param iv ->
  (exists l, one_param l /\ count is_bwd l = 0 /\ checks (program iv l) = b) /\
  (1 < iv_param iv -> exists l, one_param l /\ count is_bwd l = b /\ count is_fwd l = 1 /\ checks (program iv l) = 0).
Proof.
  intros iv b P. set (c := [(SParam, [("w"%string, Tensor false (map Some [1%Qc]))])]).
  assert (One : forall l, (forall e, In e l -> e = Fwd c \/ e = Bwd) -> one_param l).
  { intros l A calls I. destruct (A _ I) as [E|E]; [|discriminate]. injection E as ->.
    exists "w"%string, [1%Qc]. split; [discriminate|reflexivity]. }
  split.
  - exists (repeat (Fwd c) (b * iv_param iv)).
    assert (O : one_param (repeat (Fwd c) (b * iv_param iv))) by (apply One; intros e I; left; now apply repeat_spec in I).
    split; [exact O|]. split.
    + generalize (b * iv_param iv). intros k. induction k; cbn; auto.
    + rewrite C180_counts_calls by auto.
      assert (forall k, count is_fwd (repeat (Fwd c) k) = k) as -> by (induction k; cbn; auto).
      apply Nat.div_mul. lia.
  - intros L. exists (Fwd c :: repeat Bwd b).
    assert (O : one_param (Fwd c :: repeat Bwd b)) by (apply One; intros e [<-|I]; [now left|right; now apply repeat_spec in I]).
    assert (count is_fwd (Fwd c :: repeat Bwd b) = 1) as E.
    { unfold count. cbn [filter is_fwd List.length]. f_equal. exact (proj1 (bwd_only b)). }
    split; [exact O|]. split; [|split; [exact E|]].
    + exact (proj2 (bwd_only b)).
    + rewrite C180_counts_calls by auto. rewrite E. apply Nat.div_small. lia.
Qed.
Print Assumptions C180_refuted.
(* with one backward pass for every call of the model it is as documented *)
Theorem C180_partial : forall iv l, 0 < iv_param iv -> one_param l -> count is_fwd l = count is_bwd l ->
  checks (program iv l) = count is_bwd l / iv_param iv.
Proof. intros iv l P O E. rewrite <- E. now apply C180_counts_calls. Qed.
Print Assumptions C180_partial.
Example C180_nonvacuous :
  let c := [(SParam, [("w"%string, Tensor false [q 1; q 3])])] in
  checks (program (MkInt 1 1 2) [Fwd c; Bwd; Fwd c; Bwd; Fwd c; Bwd; Fwd c; Bwd]) = 2 /\
  checks (program (MkInt 1 1 2) [Fwd c; Fwd c]) = 1 /\ checks (program (MkInt 1 1 2) [Fwd c; Bwd; Bwd; Bwd]) = 0.
Proof. vm_compute. auto. Qed.
