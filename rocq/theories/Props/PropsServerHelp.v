(* C108-C112: the helpers that create gradient and model servers, the servers of A3C, the schedule of a gradient
   server. *)
From Coq Require Import Ascii Lia QArith Qcanon.
From Verif Require Import Lib.Base Lib.Rat Model.LoadSave Proofs.LoadSaveProofs Model.ServerHelp.
Set Implicit Arguments.

(* ---- what the documentation of grad_server_helper asks for ---- *)
(* entry i of an optional argument; an absent or empty list stands for the default *)
Definition setting {A} (given : option (list A)) (d : A) (i : nat) : option A :=
  match given with None | Some [] => Some d | Some l => nth_error l i end.
Definition rate_of {L} (r : rates L) (i : nat) : option L :=
  match r with Rate x => Some x | Rates l => nth_error l i | RInt _ => None end.
(* server i runs, with the model of creator i, an optimizer over that model with rate i and kwargs i, and a scheduler
   over that optimizer exactly if one was asked for *)
Definition as_configured {M L KW SA SK} (kw0 : KW) (sa0 : SA) (sk0 : SK) (ms : list M) (cls : nat) (lr : rates L)
    (okw : option (list KW)) (sc : option nat) (sargs : option (list SA)) (skw : option (list SK)) (i : nat)
    (s : server M L KW SA SK) : Prop :=
  exists m x kw, nth_error ms i = Some m /\ rate_of lr i = Some x /\ setting okw kw0 i = Some kw /\
    started s = true /\
    match sc with
    | None => managed s = Some (m, MkOptim cls m x kw, None)
    | Some c => exists sa sk, setting sargs sa0 i = Some sa /\ setting skw sk0 i = Some sk /\
        managed s = Some (m, MkOptim cls m x kw, Some (MkSched c (MkOptim cls m x kw) sa sk))
    end.
(* the argument has an entry for each of n servers *)
Definition covers {A} (given : option (list A)) (n : nat) : Prop :=
  match given with None | Some [] => True | Some l => n <= length l end.
Definition rates_cover {L} (r : rates L) (n : nat) : Prop :=
  match r with Rate _ => True | Rates l => n <= length l | RInt _ => False end.

Section Helper.
  Context {M L KW SA SK : Type} (kw0 : KW) (sa0 : SA) (sk0 : SK).
  Local Notation run := (@grad_server_helper M L KW SA SK kw0 sa0 sk0).

  Lemma or_default_length {A} (g : option (list A)) d n : covers g n -> n <= length (or_default g d n).
  Proof. destruct g as [[|x l]|]; cbn; intros; rewrite ?repeat_length; auto. Qed.
  Lemma or_default_nth {A} (g : option (list A)) d n i : i < n -> nth_error (or_default g d n) i = setting g d i.
  Proof.
    destruct g as [[|x l]|]; cbn [or_default setting]; auto; intros H;
      (rewrite nth_error_repeat; [reflexivity|exact H]).
  Qed.
  Lemma setup_none cls : forall ms svs kws lrs sas sks,
    length svs = length ms -> length ms <= length kws -> length ms <= length lrs ->
    length ms <= length sas -> length ms <= length sks ->
    exists out, setup None (@OClass M L KW cls) ms svs kws lrs sas sks = (out, Ok tt) /\ length out = length ms /\
      forall i, i < length ms -> exists m x kw, nth_error ms i = Some m /\ nth_error lrs i = Some x /\
        nth_error kws i = Some kw /\
        nth_error out i = Some (@MkServer M L KW SA SK (Some (m, MkOptim cls m x kw, None)) true).
  Proof.
    induction ms as [|m ms IH]; intros [|sv svs] [|kw kws] [|x lrs] [|sa sas] [|sk sks] H1 H2 H3 H4 H5;
      cbn [length] in *; try lia; cbn [setup call_optim];
      try (exists []; split; [reflexivity|]; split; [reflexivity|]; intros; lia).
    destruct (IH svs kws lrs sas sks) as (out & E & Lo & N); try lia.
    rewrite E. eexists. split; [reflexivity|]. split; [cbn; lia|].
    intros [|i] Hi; [exists m, x, kw; auto|]. apply N. lia.
  Qed.

  (* C108, the provable part: without a scheduler, or with one model *)
  Theorem C108_without_scheduler_partial ms cls lr okw sargs skw :
    rates_cover lr (length ms) -> covers okw (length ms) -> covers sargs (length ms) -> covers skw (length ms) ->
    exists out, run true ms cls lr okw None sargs skw = (out, Ok tt) /\ length out = length ms /\
      forall i s, nth_error out i = Some s -> as_configured kw0 sa0 sk0 ms cls lr okw None sargs skw i s.
  Proof.
    intros Hr Hk Ha Hs. unfold run.
    set (n := length ms) in *.
    set (lrs := match lr with Rate x => repeat x n | Rates l => l | RInt _ => [] end).
    destruct (@setup_none cls ms (repeat fresh n) (or_default okw kw0 n) lrs (or_default sargs sa0 n)
                (or_default skw sk0 n)) as (out & E & Lo & N).
    - apply repeat_length.
    - now apply or_default_length.
    - unfold lrs. destruct lr; cbn in *; rewrite ?repeat_length; auto; lia.
    - now apply or_default_length.
    - now apply or_default_length.
    - exists out. split.
      { unfold lrs in E. destruct lr; cbn in Hr; [exact E|exact E|contradiction]. }
      split; [exact Lo|]. intros i s Hi.
      assert (Li : i < length ms). { rewrite <- Lo. apply nth_error_Some. congruence. }
      destruct (N i Li) as (m & x & kw & A & B & C & D). rewrite D in Hi.
      assert (Es : s = MkServer (Some (m, MkOptim cls m x kw, None)) true) by congruence. subst s.
      exists m, x, kw. split; [exact A|]. split.
      { unfold lrs in B. destruct lr; cbn; auto; [|contradiction]. rewrite nth_error_repeat in B by exact Li. exact B. }
      split; [|auto]. rewrite <- C. symmetry. now apply or_default_nth.
  Qed.

  Theorem C108_one_model_partial m cls lr okw sc sargs skw :
    rates_cover lr 1 -> covers okw 1 -> covers sargs 1 -> covers skw 1 ->
    exists s, run true [m] cls lr okw sc sargs skw = ([s], Ok tt) /\
      as_configured kw0 sa0 sk0 [m] cls lr okw sc sargs skw 0 s.
  Proof.
    intros Hr Hk Ha Hs. unfold as_configured.
    assert (Er : exists x r, match lr with Rate x => Ok (repeat x 1) | Rates l => Ok l | RInt _ => Err EType end
                             = Ok (x :: r) /\ rate_of lr 0 = Some x).
    { destruct lr as [x|[|x r]|]; cbn in *; try lia; eauto; contradiction. }
    assert (D : forall A (g : option (list A)) d, covers g 1 -> exists y r, or_default g d 1 = y :: r /\ setting g d 0 = Some y).
    { intros A [[|y r]|] d _; cbn; eauto. }
    destruct Er as (x & r & Er & R0).
    destruct (D _ okw kw0 Hk) as (kw & kws & Ek & K0). destruct (D _ sargs sa0 Ha) as (sa & sas & Ea & A0).
    destruct (D _ skw sk0 Hs) as (sk & sks & Es & S0).
    unfold run. cbn [length]. rewrite Er, Ek, Ea, Es. destruct sc as [c|]; cbn [setup call_optim repeat];
      (eexists; split; [reflexivity|]; exists m, x, kw; repeat (split; [now auto|])).
    - exists sa, sk. auto.
    - reflexivity.
  Qed.

  (* C108 is false with a scheduler and two models or more, whatever the models, rates and arguments are: line 93
     overwrites the optimizer class, the second round raises a TypeError, and only the first server has a model *)
  Theorem C108_refuted m1 m2 ms cls c lr okw sargs skw :
    let creators := m1 :: m2 :: ms in
    let n := length creators in
    rates_cover lr n -> covers okw n -> covers sargs n -> covers skw n ->
    exists out, run true creators cls lr okw (Some c) sargs skw = (out, Err EType) /\
      (exists s, nth_error out 0 = Some s /\ as_configured kw0 sa0 sk0 creators cls lr okw (Some c) sargs skw 0 s) /\
      forall i, 1 <= i < n -> nth_error out i = Some (MkServer None false).
  Proof.
    intros creators n Hr Hk Ha Hs. unfold as_configured.
    assert (Er : exists x y r, match lr with Rate x => Ok (repeat x n) | Rates l => Ok l | RInt _ => Err EType end
                             = Ok (x :: y :: r) /\ rate_of lr 0 = Some x).
    { destruct lr as [x|[|x [|y r]]|]; cbn in *; try lia; eauto; contradiction. }
    assert (D : forall A (g : option (list A)) d, covers g n -> exists y z r, or_default g d n = y :: z :: r /\ setting g d 0 = Some y).
    { intros A [[|y [|z r]]|] d Hc; cbn in *; eauto; lia. }
    destruct Er as (x & x' & r & Er & R0).
    destruct (D _ okw kw0 Hk) as (kw & kw' & kws & Ek & K0). destruct (D _ sargs sa0 Ha) as (sa & sa' & sas & Ea & A0).
    destruct (D _ skw sk0 Hs) as (sk & sk' & sks & Es & S0).
    unfold run. change (length creators) with n. rewrite Er, Ek, Ea, Es.
    unfold creators, n. cbn [length repeat setup call_optim].
    eexists. split; [reflexivity|]. split.
    - eexists. split; [reflexivity|]. exists m1, x, kw. repeat (split; [now auto|]). exists sa, sk. auto.
    - intros [|[|i]] Hi; try lia; [reflexivity|]. unfold n, creators in Hi. cbn [length] in Hi. cbn [nth_error]. apply nth_error_repeat. change (i < length ms). lia.
  Qed.

  (* ---- C109 ---- *)
  Definition in_service (s : server M L KW SA SK) : Prop := managed s <> None /\ started s = true.
  Theorem C109_complete_arguments_partial ms cls lr okw sc sargs skw :
    (sc = None \/ length ms <= 1) ->
    rates_cover lr (length ms) -> covers okw (length ms) -> covers sargs (length ms) -> covers skw (length ms) ->
    exists out, run true ms cls lr okw sc sargs skw = (out, Ok tt) /\ length out = length ms /\ Forall in_service out.
  Proof.
    intros [-> | Hl] Hr Hk Ha Hs.
    - destruct (@C108_without_scheduler_partial ms cls lr okw sargs skw) as (out & E & Lo & N); auto.
      exists out. split; [exact E|]. split; [exact Lo|]. apply Forall_forall. intros s Hin.
      destruct (In_nth_error _ _ Hin) as (i & Hi). destruct (N _ _ Hi) as (m & x & kw & _ & _ & _ & St & Mg).
      split; congruence.
    - destruct ms as [|m [|m' ms]]; cbn [length] in Hl; try lia.
      + exists []. unfold run. cbn [length repeat]. destruct lr; cbn in Hr; try contradiction; cbn; auto.
      + destruct (@C108_one_model_partial m cls lr okw sc sargs skw) as (s & E & C); auto.
        exists [s]. split; [exact E|]. split; [reflexivity|]. constructor; [|constructor].
        destruct C as (m' & x & kw & _ & _ & _ & St & C). split; [|exact St].
        destruct sc as [c|]; [destruct C as (sa & sk & _ & _ & C)|]; congruence.
  Qed.
  (* in general: the servers beyond the shortest list are returned without a model and without a thread, and no error
     is raised *)
  Lemma setup_short cls : forall ms svs kws lrs sas sks k,
    length svs = length ms -> length lrs = k -> k <= length ms ->
    k <= length kws -> k <= length sas -> k <= length sks ->
    exists out, setup None (@OClass M L KW cls) ms svs kws lrs sas sks = (out, Ok tt) /\ length out = length ms /\
      skipn k out = skipn k svs /\ Forall (fun s : server M L KW SA SK => in_service s) (firstn k out).
  Proof.
    induction ms as [|m ms IH]; intros [|sv svs] kws lrs sas sks k H1 H2 H3 H4 H5 H6; cbn [length] in *; try lia.
    - exists []. assert (k = 0) by lia. subst k. rewrite H. cbn. repeat split; auto.
    - destruct lrs as [|x lrs]; cbn [length] in H2.
      + subst k. exists (sv :: svs). split; [destruct kws; reflexivity|]. cbn; auto.
      + destruct k as [|k]; [lia|].
        destruct kws as [|kw kws], sas as [|sa sas], sks as [|sk sks]; cbn [length] in *; try lia.
        destruct (IH svs kws lrs sas sks k) as (out & E & Lo & Sk & Fk); try lia.
        cbn [setup call_optim]. rewrite E. eexists. split; [reflexivity|]. cbn [length skipn firstn].
        split; [lia|]. split; [exact Sk|]. constructor; [|exact Fk]. split; [discriminate|reflexivity].
  Qed.
  Theorem C109_refuted ms cls lrs okw sargs skw :
    length lrs < length ms -> covers okw (length ms) -> covers sargs (length ms) -> covers skw (length ms) ->
    exists out, run true ms cls (Rates lrs) okw None sargs skw = (out, Ok tt) /\ length out = length ms /\
      (forall i, length lrs <= i < length ms -> nth_error out i = Some (MkServer None false)) /\
      Exists (fun s => ~ in_service s) out.
  Proof.
    intros Hl Hk Ha Hs. unfold run.
    pose proof (or_default_length okw kw0 _ Hk). pose proof (or_default_length sargs sa0 _ Ha).
    pose proof (or_default_length skw sk0 _ Hs).
    destruct (@setup_short cls ms (repeat fresh (length ms)) (or_default okw kw0 (length ms)) lrs
                (or_default sargs sa0 (length ms)) (or_default skw sk0 (length ms)) (length lrs))
      as (out & E & Lo & Sk & _); try lia; auto. { apply repeat_length. }
    exists out. split; [exact E|]. split; [exact Lo|].
    assert (N : forall i, length lrs <= i < length ms -> nth_error out i = Some (MkServer None false)).
    { intros i Hi. replace i with (length lrs + (i - length lrs)) by lia.
      assert (K : forall (l : list (server M L KW SA SK)) k j, nth_error (skipn k l) j = nth_error l (k + j)).
      { induction l as [|a l IHl]; intros [|k] j; cbn; auto. now destruct j. }
      rewrite <- K, Sk, K. apply nth_error_repeat. lia. }
    split; [exact N|]. apply Exists_exists. exists (MkServer None false). split.
    - apply nth_error_In with (n := length lrs). apply N. lia.
    - intros [A _]. now apply A.
  Qed.
End Helper.
Print Assumptions C108_without_scheduler_partial.
Print Assumptions C108_one_model_partial.
Print Assumptions C108_refuted.
Print Assumptions C109_complete_arguments_partial.
Print Assumptions C109_refuted.

(* two models, rates 10 and 20, no scheduler; the same with scheduler class 7; three models with two rates *)
Example C108_nonvacuous :
  grad_server_helper 0 tt tt true [1; 2] 5 (Rates [10; 20]) None None None None
    = ([MkServer (Some (1, MkOptim 5 1 10 0, None)) true; MkServer (Some (2, MkOptim 5 2 20 0, None)) true], Ok tt) /\
  grad_server_helper 0 tt tt true [1; 2] 5 (Rate 10) None (Some 7) None None
    = ([MkServer (Some (1, MkOptim 5 1 10 0, Some (MkSched 7 (MkOptim 5 1 10 0) tt tt))) true; MkServer None false], Err EType).
Proof. split; reflexivity. Qed.
Example C109_nonvacuous :
  grad_server_helper 0 tt tt true [1; 2; 3] 5 (Rates [10; 20]) None None None None
    = ([MkServer (Some (1, MkOptim 5 1 10 0, None)) true; MkServer (Some (2, MkOptim 5 2 20 0, None)) true;
        MkServer None false], Ok tt) /\
  grad_server_helper 0 tt tt true [1; 2; 3] 5 (@RInt nat 1) None None None (@None (list unit)) = (repeat fresh 3, Err EType).
Proof. split; reflexivity. Qed.

(* ---- C110 ---- *)
Lemma show_inj a b : show a = show b -> a = b.
Proof. intros H. rewrite <- (int_show a), <- (int_show b). now rewrite H. Qed.
Lemma no_o_in_show i c : In c (show i) -> c <> "o"%char.
Proof.
  intros H E. subst c. pose proof (of_dec_digits (Nat.to_uint i)) as F. rewrite Forall_forall in F.
  apply F in H. vm_compute in H. discriminate.
Qed.
Lemma plain_not_ordered (p : name) i j : p ++ show i <> (p ++ show j) ++ o_suffix.
Proof.
  rewrite <- app_assoc. intros H. apply app_inv_head in H.
  refine (@no_o_in_show i "o"%char _ eq_refl). rewrite H. apply in_or_app. right. cbn. auto.
Qed.
Lemma ordered_inj (p : name) i j : (p ++ show i) ++ o_suffix = (p ++ show j) ++ o_suffix -> i = j.
Proof. intros H. apply app_inv_tail in H. apply app_inv_head in H. now apply show_inj. Qed.
Lemma plain_inj (p : name) i j : p ++ show i = p ++ show j -> i = j.
Proof. intros H. apply app_inv_head in H. now apply show_inj. Qed.

(* no name of the group starts with the prefix of the helper *)
Definition unused (p : name) (g : list (name * paired)) : Prop :=
  forall r, dget (p ++ r) g = None.

Section Accessors.
  Variables (p : name) (start : nat -> list (name * paired) -> res (list (name * paired))).
  Hypothesis start_spec : forall i g,
    dget ((p ++ show i) ++ o_suffix) g = None -> dget (p ++ show i) g = None ->
    start i g = Ok ((g ++ [((p ++ show i) ++ o_suffix, POrdered i)]) ++ [(p ++ show i, PAccessor i)]).
  Lemma dget_tail k v (g : list (name * paired)) k' : k' <> k -> dget k' (g ++ [(k, v)]) = dget k' g.
  Proof.
    intros H. induction g as [|[a b] g IH]; cbn [app dget].
    - destruct (eqb_spec k' k); [contradiction|reflexivity].
    - now rewrite IH.
  Qed.
  Lemma dget_tail_same k v (g : list (name * paired)) : dget k g = None -> dget k (g ++ [(k, v)]) = Some v.
  Proof.
    induction g as [|[a b] g IH]; cbn [app dget].
    - intros _. now destruct (eqb_spec k k).
    - destruct (eqb k a); [discriminate|auto].
  Qed.
  Lemma start_loop n : forall a g,
    (forall i, i < a -> dget (p ++ show i) g = Some (PAccessor i)) ->
    (forall i, a <= i -> dget (p ++ show i) g = None /\ dget ((p ++ show i) ++ o_suffix) g = None) ->
    exists g', for_each start (seq a n) g = Ok g' /\
      (forall i, i < a + n -> dget (p ++ show i) g' = Some (PAccessor i)).
  Proof.
    induction n as [|n IH]; intros a g Ha Hf.
    - exists g. split; [reflexivity|]. rewrite Nat.add_0_r. exact Ha.
    - destruct (Hf a (le_n a)) as [F1 F2]. cbn [seq for_each]. rewrite start_spec by assumption. cbn [bind].
      replace (a + S n) with (S a + n) by lia. apply IH.
      + intros i Hi. destruct (Nat.eq_dec i a) as [->|Ne].
        * apply dget_tail_same. rewrite dget_tail; [exact F1|]. apply plain_not_ordered.
        * rewrite dget_tail by (intros K; apply plain_inj in K; lia).
          rewrite dget_tail by apply plain_not_ordered. apply Ha. lia.
      + intros i Hi. destruct (Hf i ltac:(lia)) as [G1 G2]. split.
        * rewrite dget_tail by (intros K; apply plain_inj in K; lia). rewrite dget_tail by apply plain_not_ordered. exact G1.
        * rewrite dget_tail by (intros K; symmetry in K; now apply plain_not_ordered in K).
          rewrite dget_tail by (intros K; apply ordered_inj in K; lia). exact G2.
  Qed.
  Lemma collect_loop n : forall a g,
    (forall i, a <= i < a + n -> dget (p ++ show i) g = Some (PAccessor i)) ->
    collect (fun i => get_paired (p ++ show i) g) (seq a n) = Ok (map PAccessor (seq a n)).
  Proof.
    induction n as [|n IH]; intros a g H; [reflexivity|]. cbn [seq collect map].
    unfold get_paired at 1. rewrite H by lia. cbn [bind]. rewrite IH; [reflexivity|]. intros. apply H. lia.
  Qed.
  Lemma accessors_ok n g : unused p g ->
    bind (for_each start (seq 0 n) g) (fun g => collect (fun i => get_paired (p ++ show i) g) (seq 0 n))
      = Ok (map PAccessor (seq 0 n)).
  Proof.
    intros U. destruct (@start_loop n 0 g) as (g' & E & A).
    - intros; lia.
    - intros i _. split; [apply U|]. rewrite <- app_assoc. apply U.
    - rewrite E. cbn [bind]. apply collect_loop. intros i Hi. apply A. lia.
  Qed.
End Accessors.

Lemma pair_new k v g : dget k g = None -> pair_val k v g = Ok (g ++ [(k, v)]).
Proof. intros H. unfold pair_val, dmem. now rewrite H. Qed.
Lemma pair_val_inv k v g g' : pair_val k v g = Ok g' -> dget k g = None /\ g' = g ++ [(k, v)].
Proof. unfold pair_val, dmem. destruct (dget k g); [discriminate|]. intros E. split; congruence. Qed.
Lemma get_last k v g : dget k g = None -> get_paired k (g ++ [(k, v)]) = Ok v.
Proof. intros H. unfold get_paired. now rewrite (dget_tail_same k v g H). Qed.
(* whatever the number of models and the other pairs of the group: one accessor per model, accessor i uses the ordered
   server of server i *)
Theorem C110_model_servers n g : unused model_prefix g ->
  exists l, model_server_helper n g = Ok l /\ length l = n /\ forall i, i < n -> nth_error l i = Some (PAccessor i).
Proof.
  intros U. exists (map PAccessor (seq 0 n)). split.
  - unfold model_server_helper. apply (@accessors_ok model_prefix); [|exact U].
    intros i h H1 H2. unfold start_model_server. rewrite (pair_new _ _ h H1). cbn [bind].
    rewrite (get_last _ _ h H1). cbn [bind]. apply pair_new.
    exact (eq_trans (dget_tail _ h (@plain_not_ordered model_prefix i i)) H2).
  - split; [now rewrite map_length, seq_length|]. intros i Hi. rewrite nth_error_map.
    rewrite (nth_error_nth' _ 0) by now rewrite seq_length. now rewrite seq_nth.
Qed.
Theorem C110_gradient_servers n g : unused grad_prefix g ->
  exists l, grad_server_accessors n g = Ok l /\ length l = n /\ forall i, i < n -> nth_error l i = Some (PAccessor i).
Proof.
  intros U. exists (map PAccessor (seq 0 n)). split.
  - unfold grad_server_accessors. apply (@accessors_ok grad_prefix); [|exact U].
    intros i h H1 H2. unfold start_grad_server. rewrite (pair_new _ _ h H1). cbn [bind]. apply pair_new.
    exact (eq_trans (dget_tail _ h (@plain_not_ordered grad_prefix i i)) H2).
  - split; [now rewrite map_length, seq_length|]. intros i Hi. rewrite nth_error_map.
    rewrite (nth_error_nth' _ 0) by now rewrite seq_length. now rewrite seq_nth.
Qed.
(* calling the helper twice on one group is refused *)
Theorem C110_twice n g i : i < n -> dget (model_prefix ++ show i) g <> None -> model_server_helper n g = Err EKey.
Proof.
  intros Hi U. unfold model_server_helper.
  assert (K : forall m a h, dget (model_prefix ++ show i) h <> None -> a <= i < a + m ->
              for_each start_model_server (seq a m) h = Err EKey).
  { induction m as [|m IH]; intros a h Hu Ha; [lia|]. cbn [seq for_each].
    destruct (start_model_server a h) as [h'|e] eqn:E; cbn [bind]; unfold start_model_server in E.
    2:{ destruct (pair_val (_ ++ o_suffix) (POrdered a) h) as [h1|x] eqn:D1; cbn [bind] in E.
        - apply pair_val_inv in D1. destruct D1 as [D1 ->]. rewrite (get_last _ _ h D1) in E. cbn [bind] in E.
          unfold pair_val in E. destruct (dmem _ _); congruence.
        - unfold pair_val in D1. destruct (dmem _ _); congruence. }
    destruct (pair_val _ (POrdered a) h) as [h1|] eqn:D1; [|discriminate]. cbn [bind] in E.
    apply pair_val_inv in D1. destruct D1 as [D1 ->]. rewrite (get_last _ _ h D1) in E. cbn [bind] in E.
    apply pair_val_inv in E. destruct E as [D2 ->].
    pose proof (eq_trans (eq_sym (dget_tail (POrdered a) h (@plain_not_ordered model_prefix a a))) D2) as D3.
    assert (Ne : a <> i) by (intros Q; apply Hu; rewrite <- Q; exact D3).
    assert (P1 : model_prefix ++ show i <> model_prefix ++ show a) by (intros Q; apply plain_inj in Q; congruence).
    apply IH; [|lia]. intros Q. apply Hu.
    exact (eq_trans (eq_sym (eq_trans (dget_tail _ _ P1) (dget_tail _ h (@plain_not_ordered model_prefix i a)))) Q). }
  now rewrite (K n 0 g U ltac:(lia)).
Qed.
Print Assumptions C110_model_servers.
Print Assumptions C110_gradient_servers.
Print Assumptions C110_twice.
Example C110_nonvacuous :
  model_server_helper 2 [(["x"%char], POrdered 9)] = Ok [PAccessor 0; PAccessor 1] /\
  grad_server_accessors 3 [] = Ok [PAccessor 0; PAccessor 1; PAccessor 2] /\
  unused model_prefix [(["x"%char], POrdered 9)].
Proof. split; [reflexivity|]. split; [reflexivity|]. intros r. reflexivity. Qed.

(* ---- C111: the servers of A3C ---- *)
Section A3cServers.
  Context {C A K M L SA SK : Type} (build : C -> A -> K -> M) (sa0 : SA) (sk0 : SK).
  (* what is asked for: server 0 has an actor built like the local actor, server 1 a critic built like the local critic *)
  Theorem C111_refuted ca aa ka cc ac kc optimizer (la lc : L) sargs skw :
    length sargs = 2 -> length skw = 2 ->
    build ca aa ka <> build cc ac kc ->
    a3c_models build [ca; cc] [aa; ac] [ka; kc] = [build ca aa ka; build cc ac kc] /\
    exists s0 s1, a3c_servers build sa0 sk0 [ca; cc] [aa; ac] [ka; kc] optimizer la lc None sargs skw = ([s0; s1], Ok tt) /\
      (exists o, managed s0 = Some (build cc ac kc, o, None) /\ o_lr o = la) /\
      (exists o, managed s1 = Some (build cc ac kc, o, None) /\ o_lr o = lc) /\
      ~ (exists o s, managed s0 = Some (build ca aa ka, o, s)).
  Proof.
    intros Ha Hk Ne. split; [reflexivity|].
    destruct sargs as [|x [|y [|? ?]]]; try discriminate. destruct skw as [|u [|v [|? ?]]]; try discriminate.
    do 2 eexists. split; [reflexivity|]. cbn. split; [eexists; split; reflexivity|]. split; [eexists; split; reflexivity|].
    intros (o & s & E). apply Ne. congruence.
  Qed.
  (* with a scheduler the set-up fails altogether *)
  Theorem C111_scheduler_refuted ca aa ka cc ac kc optimizer (la lc : L) c sargs skw :
    length sargs = 2 -> length skw = 2 ->
    snd (a3c_servers build sa0 sk0 [ca; cc] [aa; ac] [ka; kc] optimizer la lc (Some c) sargs skw) = Err EType.
  Proof.
    intros Ha Hk. destruct sargs as [|x [|y [|? ?]]]; try discriminate. destruct skw as [|u [|v [|? ?]]]; try discriminate.
    reflexivity.
  Qed.
  (* the creators are right exactly if every model equals the last one *)
  Theorem C111_equal_models_partial cls args kws :
    a3c_creators build cls args kws = a3c_models build cls args kws <->
    forall m m', In m (a3c_models build cls args kws) -> In m' (a3c_models build cls args kws) -> m = m'.
  Proof.
    unfold a3c_creators, a3c_models. set (rounds := zip3 cls args kws). clearbody rounds.
    destruct (rev rounds) as [|f r] eqn:E.
    - apply (f_equal (@rev _)) in E. rewrite rev_involutive in E. subst rounds. cbn. split; [contradiction|reflexivity].
    - assert (Hf : In f rounds). { apply in_rev. rewrite E. now left. }
      split.
      + intros H m m' Hm Hm'.
        assert (Q : forall x, In x (map (build3 build) rounds) -> x = build3 build f).
        { intros x Hx. rewrite <- H in Hx. apply in_map_iff in Hx. destruct Hx as (? & <- & _). reflexivity. }
        rewrite (Q m Hm), (Q m' Hm'). reflexivity.
      + intros H. apply map_ext_in. intros x Hx. apply H; apply in_map; assumption.
  Qed.
End A3cServers.
Print Assumptions C111_refuted.
Print Assumptions C111_scheduler_refuted.
Print Assumptions C111_equal_models_partial.
(* actor class 1 with 4 inputs, critic class 2 with 6 inputs: both servers manage the critic *)
Example C111_nonvacuous :
  a3c_models (fun c a (k : unit) => (c, a)) [1; 2] [4; 6] [tt; tt] = [(1, 4); (2, 6)] /\
  a3c_creators (fun c a (k : unit) => (c, a)) [1; 2] [4; 6] [tt; tt] = [(2, 6); (2, 6)] /\
  (1, 4) <> (2, 6).
Proof. split; [reflexivity|]. split; [reflexivity|discriminate]. Qed.

(* ---- C112: the schedule of a gradient server ---- *)
(* what a scheduled optimizer does: gradient number k is applied with rate k *)
Fixpoint scheduled {P G L} (rate : nat -> L) (optimize : L -> P -> G -> P) (k : nat) (p : P) (gs : list G) : P :=
  match gs with [] => p | g :: r => scheduled rate optimize (S k) (optimize (rate k) p g) r end.
Section Sched.
  Context {P G L : Type} (rate : nat -> L) (optimize : L -> P -> G -> P).
  Local Notation serve := (fold_left (reduce_primary rate optimize)).
  (* the rate is the first one for ever *)
  Lemma serve_params gs : forall s, p_params (serve gs s) = fold_left (optimize (rate (p_sched s))) gs (p_params s).
  Proof. induction gs as [|g gs IH]; intros s; [reflexivity|]. cbn [fold_left]. rewrite IH. reflexivity. Qed.
  Theorem C112_constant_schedule_partial gs p v pushed :
    (forall k, rate k = rate 0) ->
    p_params (serve gs (MkPrimary p v 0 pushed)) = scheduled rate optimize 0 p gs.
  Proof.
    intros H. rewrite serve_params. cbn [p_sched p_params].
    assert (Q : forall l q k, fold_left (optimize (rate 0)) l q = scheduled rate optimize k q l); [|apply Q].
    induction l as [|g l IH]; intros q k; [reflexivity|].
    cbn [fold_left scheduled]. rewrite (H k). apply IH.
  Qed.
  (* every gradient gives one push, with consecutive versions, and the last push is the model *)
  Theorem C112_versions gs : forall s,
    p_version (serve gs s) = p_version s + length gs /\
    exists new, p_pushed (serve gs s) = p_pushed s ++ new /\ length new = length gs /\
      (forall i x, nth_error new i = Some x ->
         x = (fold_left (optimize (rate (p_sched s))) (firstn (S i) gs) (p_params s), p_version s + S i, p_version s + i)).
  Proof.
    induction gs as [|g gs IH]; intros s.
    - cbn. split; [lia|]. exists []. rewrite app_nil_r. split; [reflexivity|]. split; [reflexivity|]. intros [|i] x H; discriminate.
    - cbn [fold_left length]. destruct (IH (reduce_primary rate optimize s g)) as (V & new & E & Ln & N).
      split. { rewrite V. cbn. lia. }
      exists ((optimize (rate (p_sched s)) (p_params s) g, p_version s + 1, p_version s) :: new).
      split. { rewrite E. cbn [reduce_primary p_pushed]. now rewrite <- app_assoc. }
      split; [cbn; lia|]. intros [|i] x H; cbn [nth_error] in H.
      + injection H as <-. cbn. now rewrite Nat.add_0_r.
      + apply N in H. rewrite H. cbn [reduce_primary p_params p_version p_sched firstn fold_left].
        replace (p_version s + 1 + S i) with (p_version s + S (S i)) by lia.
        replace (p_version s + 1 + i) with (p_version s + S i) by lia. reflexivity.
  Qed.
End Sched.
(* with plain gradient descent, any schedule whose second rate differs from its first and any non-zero second gradient *)
Definition sgd (lr p g : Qc) : Qc := (p - lr * g)%Qc.
Theorem C112_refuted (rate : nat -> Qc) p g1 g2 v :
  rate 1 <> rate 0 -> g2 <> 0%Qc ->
  p_params (fold_left (reduce_primary rate sgd) [g1; g2] (MkPrimary p v 0 [])) <> scheduled rate sgd 0 p [g1; g2].
Proof.
  intros Hr Hg E. cbn in E. unfold sgd in E.
  generalize dependent (rate 0). generalize (rate 1). intros r1 r0 Hr E.
  assert (Q : ((r1 - r0) * g2 = 0)%Qc).
  { replace ((r1 - r0) * g2)%Qc with ((p - r0 * g1 - r0 * g2) - (p - r0 * g1 - r1 * g2))%Qc by ring.
    rewrite E. ring. }
  apply Qcmult_integral in Q. destruct Q as [Q|Q]; [|contradiction].
  apply Hr. replace r1 with ((r1 - r0) + r0)%Qc by ring. rewrite Q. ring.
Qed.
Print Assumptions C112_constant_schedule_partial.
Print Assumptions C112_versions.
Print Assumptions C112_refuted.
(* integers as parameters: rates 2, 1, 0, ... *)
Example C112_nonvacuous :
  let opt := fun (l : nat) (p g : nat) => p + l * g in
  p_params (fold_left (reduce_primary (fun k => 2 - k) opt) [1; 1; 1] (MkPrimary 10 0 0 [])) = 16 /\
  scheduled (fun k => 2 - k) opt 0 10 [1; 1; 1] = 13 /\
  p_pushed (fold_left (reduce_primary (fun k => 2 - k) opt) [1; 1] (MkPrimary 10 0 0 [])) = [(12, 1, 0); (14, 2, 1)].
Proof. repeat split. Qed.
