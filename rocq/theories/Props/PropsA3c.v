(* C113-C117: what an A3C frame pushes, pulls and computes. *)
From Coq Require Import Lia Qcanon.
From Verif Require Import Lib.Base Lib.Rat Model.Returns Model.A3c.
Open Scope nat_scope.
Set Implicit Arguments.

Section Update.
  Context {P G B : Type} (zero : G) (add : G -> G -> G) (gradient : P -> B -> res G).
  Hypothesis add_zero : forall g, add zero g = g.
  Local Notation passes := (passes zero add gradient).
  Local Notation update := (a3c_update zero add gradient).

  (* the gradients of the mini batches exist and are gs *)
  Definition gradients (p : P) (bs : list B) (gs : list G) : Prop := Forall2 (fun b g => gradient p b = Ok g) bs gs.

  Lemma passes_params en bs : forall n, prm (fst (passes en bs n)) = prm n.
  Proof.
    induction bs as [|b bs IH]; intros n; [reflexivity|]. cbn.
    destruct (gradient (prm n) b); [|reflexivity]. rewrite IH. now destruct en.
  Qed.
  Lemma passes_off bs gs : forall n, gradients (prm n) bs gs -> passes false bs n = (n, Ok tt).
  Proof.
    revert gs. induction bs as [|b bs IH]; intros gs n H; [reflexivity|]. inversion H as [|? g ? gs' E H']; subst.
    cbn. rewrite E. eapply IH; eassumption.
  Qed.
  (* the gradient that is left is that of the last mini batch *)
  Lemma passes_on bs gs : forall n, gradients (prm n) bs gs ->
    passes true bs n = (MkNet (prm n) (match rev gs with [] => grd n | g :: _ => Some g end), Ok tt).
  Proof.
    revert gs. induction bs as [|b bs IH]; intros gs n H; inversion H as [|? g ? gs' E H']; subst.
    - cbn. now destruct n.
    - cbn [A3c.passes]. rewrite E. rewrite (IH gs') by exact H'. cbn [prm].
      f_equal. f_equal. cbn [rev]. destruct (rev gs') as [|x r]; cbn [app]; [|reflexivity].
      unfold backward, zero_grad. cbn [grd]. destruct (grd n); cbn; now rewrite ?add_zero.
  Qed.

  (* all mini batches have gradients, and there is at least one for each network *)
  Definition runs (f : frame P G) (ba bc : list B) (ga gc : list G) : Prop :=
    gradients (prm (f_actor f)) ba ga /\ gradients (prm (f_critic f)) bc gc /\ ba <> [] /\ bc <> [].
  Lemma last_some {A} (l : list A) : l <> [] -> exists x r, rev l = x :: r.
  Proof.
    intros H. destruct (rev l) as [|x r] eqn:E; [|eauto].
    apply (f_equal (@rev _)) in E. rewrite rev_involutive in E. contradiction.
  Qed.
  Lemma gradients_len p bs gs : gradients p bs gs -> length bs = length gs.
  Proof. induction 1; cbn; congruence. Qed.
  Lemma nonempty_length {A} (l : list A) : l <> [] -> length l =? 0 = false.
  Proof. destruct l; [congruence|reflexivity]. Qed.

  (* the complete behaviour of update when no mini batch fails *)
  Lemma update_spec (uv up : bool) ba bc pa pc f ga gc : runs f ba bc ga gc ->
    let left_a := if up then hd_error (rev ga) else grd (f_actor f) in
    let left_c := if uv then hd_error (rev gc) else grd (f_critic f) in
    let after (a : option P) (n : net P G) := MkNet (match a with Some p => p | None => prm n end) (Some zero) in
    update uv up ba bc pa pc f =
    match left_a with
    | None => (MkFrame (f_actor f) (if uv then MkNet (prm (f_critic f)) left_c else f_critic f) (syncing f), [], Err ERuntime)
    | Some g =>
        match left_c with
        | None => (MkFrame (after pa (f_actor f)) (f_critic f) (syncing f), [(true, g)], Err ERuntime)
        | Some h => (MkFrame (after pa (f_actor f)) (after pc (f_critic f)) (syncing f), [(true, g); (false, h)], Ok tt)
        end
    end.
  Proof.
    intros (Ha & Hc & Na & Nc) left_a left_c after.
    pose proof (gradients_len Ha) as La. pose proof (gradients_len Hc) as Lc.
    assert (Na' : ga <> []) by (destruct ba, ga; cbn in *; congruence).
    assert (Nc' : gc <> []) by (destruct bc, gc; cbn in *; congruence).
    destruct (last_some Na') as (xa & ra & Ea). destruct (last_some Nc') as (xc & rc & Ec).
    unfold update, a2c_update, left_a, left_c. cbn [f_actor f_critic syncing].
    destruct f as [[ap ag] [cp cg] sy]. cbn [f_actor f_critic syncing prm grd] in *.
    assert (Q1 : passes up ba (MkNet ap ag) = (MkNet ap (if up then hd_error (rev ga) else ag), Ok tt)).
    { destruct up; [rewrite (@passes_on ba ga) by exact Ha; now rewrite Ea|now rewrite (@passes_off ba ga) by exact Ha]. }
    assert (Q2 : passes uv bc (MkNet cp cg) = (MkNet cp (if uv then hd_error (rev gc) else cg), Ok tt)).
    { destruct uv; [rewrite (@passes_on bc gc) by exact Hc; now rewrite Ec|now rewrite (@passes_off bc gc) by exact Hc]. }
    rewrite Q1, Q2. rewrite (nonempty_length Na), (nonempty_length Nc). cbn [orb].
    rewrite Ea, Ec. cbn [hd_error].
    unfold push, pull, zero_grad, after. cbn [f_actor f_critic grd prm].
    destruct up, uv; cbn [grd]; try destruct ag as [ag|]; try destruct cg as [cg|]; destruct pa, pc; reflexivity.
  Qed.

  (* C113, the provable part: one pass over each network *)
  Theorem C113_single_pass_partial b1 b2 g1 g2 pa pc f :
    gradient (prm (f_actor f)) b1 = Ok g1 -> gradient (prm (f_critic f)) b2 = Ok g2 ->
    exists f', update true true [b1] [b2] pa pc f = (f', [(true, g1); (false, g2)], Ok tt).
  Proof.
    intros H1 H2. eexists. rewrite (@update_spec true true [b1] [b2] pa pc f [g1] [g2]); [reflexivity|].
    repeat split; try (constructor; auto); discriminate.
  Qed.
  (* what is sent in general *)
  Theorem C113_last_pass_only ba bc ga gc xa xc pa pc f :
    runs f ba bc (ga ++ [xa]) (gc ++ [xc]) ->
    exists f', update true true ba bc pa pc f = (f', [(true, xa); (false, xc)], Ok tt).
  Proof.
    intros H. eexists. rewrite (update_spec true true pa pc H). rewrite !rev_app_distr. reflexivity.
  Qed.

  (* ---- C114: switched off networks ---- *)
  Definition clean (n : net P G) : Prop := grd n = Some zero.
  (* one complete update makes the gradients zero tensors; from then on every combination of flags works, a switched
     off network sends zeros *)
  Theorem C114_after_update_partial uv up ba bc ga gc pa pc f :
    runs f ba bc ga gc -> clean (f_actor f) -> clean (f_critic f) ->
    exists f' xa xc, update uv up ba bc pa pc f = (f', [(true, xa); (false, xc)], Ok tt) /\
      (up = false -> xa = zero) /\ (uv = false -> xc = zero) /\ clean (f_actor f') /\ clean (f_critic f').
  Proof.
    intros H Ca Cc. pose proof H as (Ha & Hc & Na & Nc).
    pose proof (gradients_len Ha) as La. pose proof (gradients_len Hc) as Lc.
    destruct (@last_some _ ga) as (xa & ra & Ea). { destruct ba, ga; cbn in *; congruence. }
    destruct (@last_some _ gc) as (xc & rc & Ec). { destruct bc, gc; cbn in *; congruence. }
    rewrite (update_spec uv up pa pc H), Ea, Ec, Ca, Cc. cbn [hd_error].
    destruct up, uv; do 3 eexists; (split; [reflexivity|]); repeat split; try congruence; discriminate.
  Qed.
  Theorem C114_first_update_partial ba bc ga gc pa pc f :
    runs f ba bc ga gc ->
    exists f' m, update true true ba bc pa pc f = (f', m, Ok tt) /\ length m = 2 /\ clean (f_actor f') /\ clean (f_critic f').
  Proof.
    intros H. pose proof H as (Ha & Hc & Na & Nc).
    pose proof (gradients_len Ha) as La. pose proof (gradients_len Hc) as Lc.
    destruct (@last_some _ ga) as (xa & ra & Ea). { destruct ba, ga; cbn in *; congruence. }
    destruct (@last_some _ gc) as (xc & rc & Ec). { destruct bc, gc; cbn in *; congruence. }
    rewrite (update_spec true true pa pc H), Ea, Ec. do 2 eexists. split; [reflexivity|]. repeat split.
  Qed.
  (* on a new frame, switching a network off makes update fail, whatever the mini batches are *)
  Theorem C114_refuted ba bc ga gc pa pc f uv :
    runs f ba bc ga gc -> grd (f_actor f) = None -> grd (f_critic f) = None ->
    snd (update uv false ba bc pa pc f) = Err ERuntime /\ snd (fst (update uv false ba bc pa pc f)) = [] /\
    snd (update false true ba bc pa pc f) = Err ERuntime /\ length (snd (fst (update false true ba bc pa pc f))) = 1.
  Proof.
    intros H Ca Cc. pose proof H as (Ha & Hc & Na & Nc).
    pose proof (gradients_len Ha) as La. destruct (@last_some _ ga) as (xa & ra & Ea). { destruct ba, ga; cbn in *; congruence. }
    rewrite (update_spec uv false pa pc H), (update_spec false true pa pc H), Ea, Ca, Cc. repeat split.
  Qed.

  (* ---- C115: the switch ---- *)
  Theorem C115_no_failure_partial uv up ba bc ga gc pa pc f :
    runs f ba bc ga gc -> syncing (fst (fst (update uv up ba bc pa pc f))) = syncing f.
  Proof.
    intros H. rewrite (update_spec uv up pa pc H).
    destruct (if up then _ else _); [|reflexivity]. destruct (if uv then _ else _); reflexivity.
  Qed.
  Lemma passes_fail en bs b gs : forall n, gradients (prm n) bs gs -> forall e rest, gradient (prm n) b = Err e ->
    snd (passes en (bs ++ b :: rest) n) = Err e.
  Proof.
    revert gs. induction bs as [|c bs IH]; intros gs n H e rest E; inversion H as [|? g ? gs' E1 H']; subst; cbn.
    - now rewrite E.
    - rewrite E1. apply IH with (gs := gs'); destruct en; assumption.
  Qed.
  (* a mini batch that fails leaves syncing switched off, and from then on nothing the servers have is ever used *)
  Theorem C115_refuted uv up ba b bc ga e pa pc f rest :
    gradients (prm (f_actor f)) ba ga -> gradient (prm (f_actor f)) b = Err e ->
    let f' := fst (fst (update uv up (ba ++ b :: rest) bc pa pc f)) in
    snd (update uv up (ba ++ b :: rest) bc pa pc f) = Err e /\ syncing f' = false /\
    forall answers, let run := fold_left (fun s a => (fst (act zero a (fst s)), snd s ++ [snd (act zero a (fst s))])) answers (f', []) in
      snd run = repeat (prm (f_actor f)) (length answers).
  Proof.
    intros H E. unfold update, a2c_update. cbn [f_actor f_critic syncing].
    pose proof (@passes_fail up ba b ga (f_actor f) H e rest E) as Q.
    pose proof (passes_params up (ba ++ b :: rest) (f_actor f)) as PP.
    destruct (passes up (ba ++ b :: rest) (f_actor f)) as [a ra]. cbn [snd fst] in Q, PP. subst ra. cbn [fst snd].
    split; [reflexivity|]. split; [reflexivity|]. intros answers. cbn zeta.
    assert (K : forall l fr acc, syncing fr = false -> prm (f_actor fr) = prm (f_actor f) ->
              snd (fold_left (fun s x => (fst (act zero x (fst s)), snd s ++ [snd (act zero x (fst s))])) l (fr, acc))
              = acc ++ repeat (prm (f_actor f)) (length l)).
    { induction l as [|x l IH]; intros fr acc Hs Hp; cbn [fold_left length repeat].
      - cbn. now rewrite app_nil_r.
      - cbn [fst snd]. replace (fst (act zero x fr)) with fr by (unfold act; now rewrite Hs).
        rewrite IH by assumption. replace (snd (act zero x fr)) with (prm (f_actor f)) by (unfold act; now rewrite Hs).
        now rewrite <- app_assoc. }
    rewrite K; auto.
  Qed.
  (* the same when either of the update times is zero *)
  Theorem C115_zero_times uv up ba bc pa pc f : ba = [] \/ bc = [] ->
    (exists e, snd (update uv up ba bc pa pc f) = Err e /\ (ba = [] /\ bc = [] -> e = EZeroDiv)) /\
    syncing (fst (fst (update uv up ba bc pa pc f))) = false.
  Proof.
    intros Z. unfold a3c_update, a2c_update. cbn [f_actor f_critic syncing].
    destruct (passes up ba (f_actor f)) as [a ra] eqn:Pa.
    destruct ra as [u|e]; [|cbn [fst snd syncing]; split; [exists e; split; auto; intros [-> _]; discriminate|reflexivity]].
    destruct (passes uv bc (f_critic f)) as [c rc] eqn:Pc.
    destruct rc as [u'|e]; [|cbn [fst snd syncing]; split; [exists e; split; auto; intros [_ ->]; discriminate|reflexivity]].
    replace ((length ba =? 0) || (length bc =? 0)) with true.
    - cbn [fst snd syncing]. split; [exists EZeroDiv; auto|reflexivity].
    - destruct Z as [-> | ->]; cbn; [reflexivity|]. symmetry. apply orb_true_r.
  Qed.

  (* ---- C117: which parameters the actor uses ---- *)
  Theorem C117_newest (f : frame P G) p : syncing f = true -> snd (act zero (Some p) f) = p /\ syncing (fst (act zero (Some p) f)) = true.
  Proof. intros H. unfold act. rewrite H. auto. Qed.
  Fixpoint acts (answers : list (option P)) (f : frame P G) : list P :=
    match answers with [] => [] | a :: r => snd (act zero a f) :: acts r (fst (act zero a f)) end.
  (* after manual_sync and set_sync(False) every action uses the parameters of that moment *)
  Theorem C117_frozen answers pa pc f :
    let f1 := set_sync false (manual_sync zero pa pc f) in
    acts answers f1 = repeat (match pa with Some p => p | None => prm (f_actor f) end) (length answers).
  Proof.
    cbn zeta. set (f1 := set_sync false (manual_sync zero pa pc f)).
    assert (E : prm (f_actor f1) = match pa with Some p => p | None => prm (f_actor f) end).
    { unfold f1. cbn. destruct pa; reflexivity. }
    assert (Hs : syncing f1 = false) by reflexivity. rewrite <- E. clearbody f1. clear E.
    induction answers as [|a r IH]; [reflexivity|]. cbn [acts length repeat].
    replace (fst (act zero a f1)) with f1 by (unfold act; now rewrite Hs). rewrite IH.
    unfold act. now rewrite Hs.
  Qed.
  (* with syncing on, action i uses the newest of the answers given so far *)
  Theorem C117_syncing : forall answers f, syncing f = true ->
    forall i, i < length answers ->
      nth_error (acts answers f) i =
      Some (fold_left (fun p a => match a with Some q => q | None => p end) (firstn (S i) answers) (prm (f_actor f))).
  Proof.
    induction answers as [|a r IH]; intros f Hs i Hi; [cbn in Hi; lia|].
    destruct i as [|i]; cbn [acts nth_error firstn fold_left].
    - unfold act. rewrite Hs. cbn. destruct a; reflexivity.
    - rewrite IH; [|unfold act; now rewrite Hs|cbn in Hi; lia]. f_equal. f_equal. unfold act. rewrite Hs. cbn. destruct a; reflexivity.
  Qed.
End Update.
Print Assumptions C113_single_pass_partial.
Print Assumptions C113_last_pass_only.
Print Assumptions C114_after_update_partial.
Print Assumptions C114_first_update_partial.
Print Assumptions C114_refuted.
Print Assumptions C115_no_failure_partial.
Print Assumptions C115_refuted.
Print Assumptions C115_zero_times.
Print Assumptions C117_newest.
Print Assumptions C117_frozen.
Print Assumptions C117_syncing.

(* C113 is false: with rational gradients, whenever the earlier passes do not cancel out *)
Theorem C113_refuted (P B : Type) (gradient : P -> B -> res Qc) ba bc ga gc xa xc pa pc (f : frame P Qc) :
  runs gradient f ba bc (ga ++ [xa]) (gc ++ [xc]) -> qsum ga <> 0%Qc ->
  exists f' m, a3c_update 0%Qc Qcplus gradient true true ba bc pa pc f = (f', (true, m) :: [(false, xc)], Ok tt) /\
    m <> qsum (ga ++ [xa]).
Proof.
  intros H Hq. destruct (@C113_last_pass_only P Qc B 0%Qc Qcplus gradient Qcplus_0_l ba bc ga gc xa xc pa pc f H) as (f' & E).
  exists f', xa. split; [exact E|]. intros Q. apply Hq.
  assert (K : forall l x, qsum (l ++ [x]) = (qsum l + x)%Qc).
  { induction l as [|y l IH]; intros x; cbn; [ring|]. rewrite IH. ring. }
  rewrite K in Q. replace (qsum ga) with ((qsum ga + xa) - xa)%Qc by ring. rewrite <- Q. ring.
Qed.
Print Assumptions C113_refuted.

(* integer gradients: parameters 10, mini batch b has gradient b *)
Definition ex_grad (p b : nat) : res nat := if b =? 9 then Err EValue else Ok b.
Definition ex_frame : frame nat nat := MkFrame (MkNet 10 None) (MkNet 20 None) true.
Example C113_nonvacuous :
  a3c_update 0 plus ex_grad true true [1; 2; 3] [4; 5] (Some 11) (Some 21) ex_frame
    = (MkFrame (MkNet 11 (Some 0)) (MkNet 21 (Some 0)) true, [(true, 3); (false, 5)], Ok tt) /\
  runs ex_grad ex_frame [1; 2; 3] [4; 5] [1; 2; 3] [4; 5].
Proof. split; [reflexivity|]. repeat split; try (repeat constructor); discriminate. Qed.
Example C114_nonvacuous :
  snd (a3c_update 0 plus ex_grad true false [1] [4] None None ex_frame) = Err ERuntime /\
  snd (fst (a3c_update 0 plus ex_grad true false [1] [4] None None
              (fst (fst (a3c_update 0 plus ex_grad true true [2] [3] None None ex_frame))))) = [(true, 0); (false, 4)].
Proof. split; reflexivity. Qed.
Example C115_nonvacuous :
  a3c_update 0 plus ex_grad true true [1; 9] [4] (Some 11) (Some 21) ex_frame
    = (MkFrame (MkNet 10 (Some 1)) (MkNet 20 None) false, [], Err EValue).
Proof. reflexivity. Qed.
Example C117_nonvacuous :
  acts 0 [None; Some 12; None; Some 13] ex_frame = [10; 12; 12; 13] /\
  acts 0 [None; Some 12; None; Some 13] (set_sync false (manual_sync 0 (Some 11) None ex_frame)) = [11; 11; 11; 11].
Proof. split; reflexivity. Qed.

(* ---- C116: the advantages of one episode come from one critic ---- *)
Section Store.
  Context {P G S : Type} (zero : G) (V : P -> S -> Qc) (discount lambda : Qc).
  Local Notation store := (@a3c_store P G S zero V discount lambda).
  Lemma value_off s (f : frame P G) ans : syncing f = false ->
    value_of zero V s (f, ans) = (V (prm (f_critic f)) s, (f, ans)).
  Proof. intros H. unfold value_of, criticize. rewrite H. destruct ans; reflexivity. Qed.
  Lemma map_world_off {A C} (step : A -> @world P G -> C * @world P G) (h : A -> C) (w : @world P G) l :
    (forall x, step x w = (h x, w)) -> map_world step l w = (map h l, w).
  Proof. intros H. induction l as [|x l IH]; [reflexivity|]. cbn. now rewrite H, IH. Qed.
  (* syncing off: the advantages of C32, computed with the local critic, whatever other processes push *)
  Theorem C116_sync_off_partial ep (f : frame P G) answers : syncing f = false ->
    store ep (f, answers) = (ac_store discount lambda (V (prm (f_critic f))) ep, (f, answers)).
  Proof.
    intros H. unfold a3c_store, ac_store. destruct ep as [|t ep]; [reflexivity|].
    destruct (Qc_eq_dec lambda 1).
    { rewrite (@map_world_off _ _ _ (fun t => set_gae (tr_value t - V (prm (f_critic f)) (tr_s t))%Qc t)); [reflexivity|].
      intros x. unfold gae1. now rewrite value_off. }
    destruct (Qc_eq_dec lambda 0).
    { rewrite (@map_world_off _ _ _ (fun t => set_gae (tr_r t + discount * (1 - fl (tr_t t)) * V (prm (f_critic f)) (tr_n t) - V (prm (f_critic f)) (tr_s t))%Qc t)); [reflexivity|].
      intros x. unfold gae0. now rewrite !value_off by exact H. }
    unfold ac_gae_general.
    assert (K : forall l st, gae_back zero V discount lambda l st (f, answers)
              = (fst (fst (fold_left (ac_gae_step discount lambda (V (prm (f_critic f)))) l st)), (f, answers))).
    { induction l as [|x l IH]; intros st; [reflexivity|]. cbn [gae_back fold_left]. rewrite value_off by exact H.
      rewrite IH. reflexivity. }
    now rewrite K.
  Qed.
  (* no push by other processes during the call: the newest critic is used throughout *)
  Lemma value_on s (f : frame P G) a ans : syncing f = true ->
    exists f', value_of zero V s (f, a :: ans) = (V (prm (f_critic f')) s, (f', ans)) /\ syncing f' = true /\
      prm (f_critic f') = match a with Some p => p | None => prm (f_critic f) end.
  Proof.
    intros H. unfold value_of, criticize. rewrite H. eexists. split; [reflexivity|]. split; [reflexivity|].
    cbn. destruct a; reflexivity.
  Qed.
  Lemma at_states i g (x : list (tr S)) : (forall t, tr_s (g t) = tr_s t) -> map (@tr_s S) (at_ i g x) = map (@tr_s S) x.
  Proof.
    intros Hg. unfold at_. destruct (nth_error x i) as [t|] eqn:En; [|reflexivity].
    revert i En. induction x as [|y x IH]; intros [|i] En; cbn in *; try discriminate.
    - injection En as ->. now rewrite Hg.
    - f_equal. now apply IH.
  Qed.
  Lemma values_states d (ep : list (tr S)) : map (@tr_s S) (ac_values d ep) = map (@tr_s S) ep.
  Proof.
    unfold ac_values.
    set (h := fun (e : list (tr S)) i => at_ (i - 1) (set_value (val e i * d + rew e (i - 1))%Qc) e).
    assert (K : forall l x, map (@tr_s S) (fold_left h l x) = map (@tr_s S) x).
    { induction l as [|i l IH]; intros x; [reflexivity|]. cbn [fold_left]. rewrite IH. now apply at_states. }
    rewrite K. now apply at_states.
  Qed.
  (* false in general (gae_lambda = 1, the default): a push between the first two calls, and the advantages are neither
     those of the one critic nor those of the other *)
  Theorem C116_refuted t1 t2 r (f : frame P G) p1 p2 answers :
    lambda = 1%Qc -> syncing f = true ->
    V p1 (tr_s t1) <> V p2 (tr_s t1) -> V p1 (tr_s t2) <> V p2 (tr_s t2) ->
    exists out, fst (store (t1 :: t2 :: r) (f, Some p1 :: Some p2 :: answers)) = Ok out /\
      Ok out <> ac_store discount lambda (V p1) (t1 :: t2 :: r) /\
      Ok out <> ac_store discount lambda (V p2) (t1 :: t2 :: r).
  Proof.
    intros -> Hs N1 N2. unfold a3c_store, ac_store.
    destruct (Qc_eq_dec 1 1) as [_|C]; [|congruence].
    set (e := ac_values discount (t1 :: t2 :: r)).
    assert (He : exists u1 u2 r', e = u1 :: u2 :: r' /\ tr_s u1 = tr_s t1 /\ tr_s u2 = tr_s t2).
    { pose proof (values_states discount (t1 :: t2 :: r)) as Em. fold e in Em.
      destruct e as [|u1 [|u2 r']]; try discriminate. exists u1, u2, r'. cbn [map] in Em.
      split; [reflexivity|]. split; congruence. }
    destruct He as (u1 & u2 & r' & -> & S1 & S2).
    cbn [map_world]. unfold gae1 at 1.
    destruct (value_on (tr_s u1) f (Some p1) (Some p2 :: answers) Hs) as (f1 & E1 & Hs1 & P1). rewrite E1.
    unfold gae1 at 1.
    destruct (value_on (tr_s u2) f1 (Some p2) answers Hs1) as (f2 & E2 & Hs2 & P2). rewrite E2.
    destruct (map_world (gae1 zero V) r' (f2, answers)) as [ys w]. cbn [fst].
    eexists. split; [reflexivity|]. rewrite P1, P2, S1, S2.
    assert (Hg : forall a b (u v : tr S) , set_gae a u = set_gae b v -> a = b).
    { intros a b u v E. exact (f_equal (@tr_gae S) E). }
    assert (Hc : forall a b c : Qc, (a - b)%Qc = (a - c)%Qc -> b = c).
    { intros a b c E. replace b with (a - (a - b))%Qc by ring. rewrite E. ring. }
    unfold ac_gae1. cbn [map]. rewrite S1, S2. split; intros E.
    - apply N2. apply (Hc (tr_value u2)). apply Hg with (u := u2) (v := u2).
      assert (Q : forall A (a b c a' b' : A) l l', Ok (a :: b :: l) = Ok (a' :: b' :: l') -> b = b') by (intros; congruence).
      symmetry. exact (Q _ _ _ (set_gae 0%Qc u1) _ _ _ _ E).
    - apply N1. apply (Hc (tr_value u1)). apply Hg with (u := u1) (v := u1).
      assert (Q : forall A (a b a' b' : A) l l', Ok (a :: b :: l) = Ok (a' :: b' :: l') -> a = a') by (intros; congruence).
      exact (Q _ _ _ _ _ _ _ E).
  Qed.
End Store.
Print Assumptions C116_sync_off_partial.
Print Assumptions C116_refuted.
(* critic number p values every state at p; two steps with rewards 1 and 1; critics 1 and 2 arrive *)
Example C116_nonvacuous :
  let t := MkTr tt tt 1%Qc false 0%Qc 0%Qc 0 in
  let V := fun (p : nat) (_ : unit) => nq p in
  let go := fun f => match fst (a3c_store 0 V 1%Qc 1%Qc [t; t] (f, [Some 1; Some 2])) with
                     | Ok l => map (@tr_gae unit) l | Err _ => [] end in
  map this (go ex_frame) = map this [nq 1; (- nq 1)%Qc] /\
  map this (go (set_sync false (MkFrame (MkNet 10 None) (MkNet 0 None) true))) = map this [nq 2; nq 1].
Proof. split; vm_compute; reflexivity. Qed.
