(* C184: optimizers assigned to a framework are the ones its updates step.
   C185: lr_schedulers reports the schedulers that update_lr_scheduler steps, beside their optimizers. *)
From Coq Require Import Permutation.
From Verif Require Import Lib.Base Model.FrameOptim.
Set Implicit Arguments.

(* the framework holds one optimizer for every network *)
Definition holds {O H} (f : flat O H) (v : list O) : Prop :=
  f_opt f = combine (nets (f_cls f)) v /\ length v = length (nets (f_cls f)).

Ltac vals v :=
  repeat (let x := fresh "x" in destruct v as [|x v]; cbn [length] in *; try discriminate).

Lemma holds_set {O H} (f f' : flat O H) v l : holds f v -> set_flat f l = Ok f' ->
  exists v', holds f' v' /\ f_cls f' = f_cls f /\ f_sch f' = f_sch f.
Proof.
  destruct f as [c d s]. unfold holds, set_flat. cbn [f_cls f_opt f_sch]. intros [-> E] Q.
  destruct c; cbn in E; vals v; cbn in Q.
  1, 2: destruct l as [|y l]; cbn in Q; [discriminate|]; injection Q as <-; exists [y]; repeat split; reflexivity.
  all: unfold unpack in Q; match type of Q with context [?a =? ?b] => destruct (Nat.eqb_spec a b) as [L|] end; cbn in Q; [|discriminate]; cbn in L.
  all: injection Q as <-; exists l; vals l; repeat split; reflexivity.
Qed.

Lemma holds_all {O H} (ls : list (list O)) : forall (f : flat O H) v, holds f v ->
  exists f' v', set_all (Plain f) ls = Plain f' /\ holds f' v' /\ f_cls f' = f_cls f /\ f_sch f' = f_sch f.
Proof.
  induction ls as [|l ls IH]; intros f v Hf.
  - exists f, v. split; [reflexivity|]. split; [exact Hf|]. split; reflexivity.
  - unfold set_all. cbn [fold_left]. unfold set_again at 2. cbn [set_optimizers].
    destruct (set_flat f l) as [f1|e] eqn:E; cbn [bind].
    + destruct (@holds_set _ _ _ _ _ _ Hf E) as (v1 & H1 & C1 & S1). destruct (IH f1 v1 H1) as (f' & v' & A & B & C & D).
      exists f', v'. split; [exact A|]. split; [exact B|]. split; congruence.
    + exact (IH f v Hf).
Qed.

Lemma holds_new {O H} c (o : net -> O) (h : option (net -> H)) : holds (new_flat c o h) (map o (nets c)).
Proof. destruct c; split; reflexivity. Qed.

Section Set_.
  Context {O H : Type} `{EO : Eqb O}.

  (* Full claim: for every framework, also GAIL (C184_refuted); MADDPG is C107.  After any assignments, a list of the
     right length is accepted, is what the property then returns, and in every update the i-th new optimizer is stepped
     exactly where the i-th old one would have been. *)
  Theorem C184_partial c (o : net -> O) (h : option (net -> H)) ls l :
    let fr := set_all (Plain (new_flat c o h)) ls in
    exists old, optimizers fr = Ok old /\ length old = length (nets c) /\
    (length l = length old ->
     exists fr', set_optimizers fr l = Ok fr' /\ optimizers fr' = Ok l /\ lr_schedulers fr' = lr_schedulers fr /\
     (NoDup old -> forall u, exists a b, update fr u = Ok a /\ update fr' u = Ok b /\
        map Some b = map (fun x => dget x (combine old l)) a)).
  Proof.
    cbn zeta. destruct (@holds_all _ _ ls _ _ (holds_new c o h)) as ([c' d s] & v & -> & [D E] & C & _).
    cbn [f_cls f_opt new_flat] in C, D, E. subst c' d. exists v.
    assert (G : optimizers (Plain (MkFlat c (combine (nets c) v) s)) = Ok v)
      by (destruct c; cbn in E; vals v; reflexivity).
    split; [exact G|]. split; [exact E|]. intros L. exists (Plain (MkFlat c (combine (nets c) l) s)).
    assert (L' : length l = length (nets c)) by congruence.
    split; [destruct c; cbn in E, L'; vals v; vals l; reflexivity|].
    split; [destruct c; cbn in L'; vals l; reflexivity|]. split; [reflexivity|]. intros N u.
    (* every network is found in both dictionaries *)
    assert (K : forall ns, Forall (fun n => In n (nets c)) ns ->
      exists a b, attrs ns (combine (nets c) v) = Ok a /\ attrs ns (combine (nets c) l) = Ok b /\
        map Some b = map (fun x => dget x (combine v l)) a).
    { assert (F : forall m : list net, NoDup m -> NoDup v -> length v = length m -> length l = length m ->
        forall n, In n m -> exists x y, dget n (combine m v) = Some x /\ dget n (combine m l) = Some y /\ In x v /\
          dget x (combine v l) = Some y).
      { clear. intros m. revert v l. induction m as [|k m IH]; intros v l M N E L n I; [destruct I|].
        destruct v as [|x v]; [discriminate|]. destruct l as [|y l]; [discriminate|]. inversion M as [|? ? M1 M2]. inversion N as [|? ? N1 N2]. subst.
        cbn [combine dget]. destruct (eqb_spec k n) as [->|Q].
        - exists x, y. destruct (eqb_spec n n) as [_|Q]; [|congruence]. repeat split; [left; reflexivity|].
          cbn. destruct (eqb_spec x x); [reflexivity|congruence].
        - destruct I as [->|I]; [congruence|]. injection E as E. injection L as L.
          destruct (IH v l M2 N2 E L n I) as (x' & y' & A & B & C & D). exists x', y'.
          destruct (eqb_spec n k) as [->|_]; [congruence|].
          repeat split; [exact A|exact B|right; exact C|].
          destruct (eqb_spec x' x) as [->|_]; [exfalso; auto|exact D]. }
      assert (M : NoDup (nets c)) by (destruct c; repeat constructor; cbn; intuition discriminate).
      intros ns. induction 1 as [|n ns I _ (a & b & A & B & C)]; [exists [], []; repeat split; reflexivity|].
      destruct (F (nets c) M N E L' n I) as (x & y & Ax & By & _ & Cx).
      exists (x :: a), (y :: b). cbn [attrs]. unfold attr. rewrite Ax, By, A, B. cbn. rewrite C, Cx.
      repeat split; reflexivity. }
    apply K. clear -c u.
    assert (T : forall k (l : list net) (P : net -> Prop), Forall P l -> Forall P (times k l))
      by (intros k l0 P Hl; induction k; cbn; [constructor|apply Forall_app; split; assumption]).
    assert (W : forall b (l : list net) (P : net -> Prop), Forall P l -> Forall P (when b l))
      by (intros [] l0 P Hl; [exact Hl|constructor]).
    destruct c; cbn [steps_of f_cls nets]; repeat match goal with |- Forall _ (_ ++ _) => apply Forall_app; split | |- Forall _ (times _ _) => apply T | |- Forall _ (when _ _) => apply W end;
      repeat (apply Forall_cons || apply Forall_nil); cbn; tauto.
  Qed.

  (* lists of another length: assignment by unpacking refuses them and changes nothing; DQN and ARS take the first *)
  Theorem C184_length c (o : net -> O) (h : option (net -> H)) ls l : length l <> length (nets c) ->
    let fr := set_all (Plain (new_flat c o h)) ls in
    (length (nets c) <> 1 -> set_optimizers fr l = Err EValue) /\
    (length (nets c) = 1 -> match l with [] => set_optimizers fr l = Err EIndex
                                       | x :: _ => exists fr', set_optimizers fr l = Ok fr' /\ optimizers fr' = Ok [x] end).
  Proof.
    intros L. cbn zeta. destruct (@holds_all _ _ ls _ _ (holds_new c o h)) as ([c' d s] & v & -> & [D E] & C & _).
    cbn [f_cls f_opt new_flat] in C, D, E. subst c' d. split; intros K.
    - apply Nat.eqb_neq in L. unfold set_optimizers, set_flat, unpack. cbn [f_cls f_opt].
      destruct c; cbn in K; try congruence; rewrite L; reflexivity.
    - destruct c; cbn in K; try discriminate; cbn in E; vals v; destruct l as [|x' l]; try reflexivity;
        eexists; split; reflexivity.
  Qed.

  (* A3C keeps its optimizers to itself; its updates step none *)
  Theorem C184_a3c (o : net -> O) (h : option (net -> H)) ls u :
    let fr := set_all (A3c (new_flat KA2c o h)) ls in
    fr = A3c (new_flat KA2c o h) /\ optimizers fr = Ok [] /\ update fr u = Ok [].
  Proof.
    cbn zeta. assert (E : set_all (A3c (new_flat KA2c o h)) ls = A3c (new_flat KA2c o h)) by (induction ls; auto).
    rewrite E. repeat split; reflexivity.
  Qed.

  (* GAIL: only the optimizer of the discriminator is replaced; PPO and TRPO inside go on with the old ones *)
  Theorem C184_refuted c (o : net -> O) (h : option (net -> H)) od hd oa oc odn :
    In c [KA2c; KTrpo] ->
    exists fr fr', new_gail (new_flat c o h) od hd = Ok fr /\ set_optimizers fr [oa; oc; odn] = Ok fr' /\
    optimizers fr = Ok [o Actor; o Critic; od] /\ optimizers fr' = Ok [oa; oc; odn] /\
    forall u, exists inner, update (Plain (new_flat c o h)) u = Ok inner /\
      update fr' u = Ok (times (n_discrim u) (when (u_discrim u) [odn]) ++ inner) /\
      Forall (fun x => x = o Actor \/ x = o Critic) inner /\
      (u_value u = true -> 0 < n_critic u -> In (o Critic) inner).
  Proof.
    intros I.
    assert (A : forall (d : dict net O) k ns l, attrs ns d = Ok l -> attrs (times k ns) d = Ok (times k l)).
    { intros d k ns l E. assert (X : forall ns1 ns2 l1 l2, attrs ns1 d = Ok l1 -> attrs ns2 d = Ok l2 ->
        attrs (ns1 ++ ns2) d = Ok (l1 ++ l2)).
      { induction ns1 as [|n ns1 IH]; intros ns2 l1 l2 E1 E2; cbn in *; [injection E1 as <-; exact E2|].
        destruct (attr n d) as [x|e]; [|discriminate]. cbn in *. destruct (attrs ns1 d) as [l'|e]; [|discriminate].
        cbn in E1. injection E1 as <-. rewrite (IH ns2 l' l2 eq_refl E2). reflexivity. }
      induction k; [reflexivity|]. cbn [times]. apply X; assumption. }
    assert (X : forall (d : dict net O) ns1 ns2 l1 l2, attrs ns1 d = Ok l1 -> attrs ns2 d = Ok l2 ->
        attrs (ns1 ++ ns2) d = Ok (l1 ++ l2)).
    { intros d. induction ns1 as [|n ns1 IH]; intros ns2 l1 l2 E1 E2; cbn in *; [injection E1 as <-; exact E2|].
      destruct (attr n d) as [x|e]; [|discriminate]. cbn in *. destruct (attrs ns1 d) as [l'|e]; [|discriminate].
      cbn in E1. injection E1 as <-. rewrite (IH ns2 l' l2 eq_refl E2). reflexivity. }
    assert (T : forall k (l : list O) P, Forall P l -> Forall P (times k l))
      by (intros k l0 P Hl; induction k; cbn; [constructor|apply Forall_app; split; assumption]).
    assert (W : forall n (x : O) d b, attr n d = Ok x -> attrs (when b [n]) d = Ok (when b [x]))
      by (intros n x d [] E; cbn; [rewrite E|]; reflexivity).
    assert (N : new_gail (new_flat c o h) od hd = Ok (Gail [(Actor, o Actor); (Critic, o Critic); (Discrim, od)]
      (match hd with Some x => dset Discrim x (copy_attr Critic (f_sch (new_flat c o h)) (copy_attr Actor (f_sch (new_flat c o h)) []))
                   | None => copy_attr Critic (f_sch (new_flat c o h)) (copy_attr Actor (f_sch (new_flat c o h)) []) end) (new_flat c o h)))
      by (destruct I as [<-|[<-|[]]]; reflexivity).
    do 2 eexists. split; [exact N|]. split; [reflexivity|]. split; [reflexivity|]. split; [reflexivity|].
    intros u. set (inner := (if match c with KA2c => true | _ => false end then times (n_actor u) (when (u_policy u) [o Actor]) else [])
      ++ times (n_critic u) (when (u_value u) [o Critic])).
    assert (U : attrs (steps_of c u) (f_opt (new_flat c o h)) = Ok inner).
    { destruct I as [<-|[<-|[]]]; cbn [steps_of]; [apply X|]; apply A, W; reflexivity. }
    exists inner. split; [exact U|]. split; [|split].
    - cbn [update]. rewrite (A _ _ _ (when (u_discrim u) [odn])) by (apply W; reflexivity).
      cbn [bind]. change (f_cls (new_flat c o h)) with c. rewrite U. reflexivity.
    - unfold inner. apply Forall_app. split.
      + destruct c; try constructor. apply T. destruct (u_policy u); repeat (apply Forall_cons || apply Forall_nil); left; reflexivity.
      + apply T. destruct (u_value u); repeat (apply Forall_cons || apply Forall_nil); right; reflexivity.
    - intros V P. unfold inner. apply in_or_app. right. rewrite V. destruct (n_critic u); [inversion P|]. left. reflexivity.
  Qed.
End Set_.
Print Assumptions C184_partial.
Print Assumptions C184_length.
Print Assumptions C184_a3c.
Print Assumptions C184_refuted.

Example C184_nonvacuous :
  let o n := match n with Actor => 1 | Critic => 2 | Critic2 => 3 | _ => 4 end in
  let u := MkFlags true true true true 2 1 1 in
  let sac := set_all (Plain (new_flat KSac o (Some o))) [[5]; [11; 12; 13; 14]] in
  optimizers sac = Ok [11; 12; 13; 14] /\ update sac u = Ok [12; 13; 11; 14] /\
  bind (new_gail (new_flat KA2c o (@None (net -> nat))) 9 None) (fun g => bind (set_optimizers g [21; 22; 29]) (fun g => update g u)) = Ok [29; 1; 1; 2].
Proof. repeat split; reflexivity. Qed.

(* ------------------------------------------------------------------ *)
Section Sched.
  Context {O H : Type}.
  Variable of_ : H -> O.                       (* the optimizer of a scheduler *)

  (* Full claim: also for SAC.  Every framework built with schedulers reports one per optimizer, in the order of the
     optimizers, and update_lr_scheduler steps exactly these, each once. *)
  Theorem C185_partial c (o : net -> O) (h : net -> H) : (forall n, of_ (h n) = o n) -> c <> KSac ->
    let fr := Plain (new_flat c o (Some h)) in
    optimizers fr = Ok (map of_ (lr_schedulers fr)) /\ Permutation (sch_steps fr) (lr_schedulers fr).
  Proof.
    intros E N. destruct c; try congruence; cbn; rewrite !E; (split; [reflexivity|]); try reflexivity.
    (* TD3 starts with the second critic *)
    apply (@Permutation_cons_append _ [h Actor; h Critic] (h Critic2)).
  Qed.
  Theorem C185_none c (o : net -> O) : let fr := Plain (new_flat c o (@None (net -> H))) in
    lr_schedulers fr = [] /\ sch_steps fr = [].
  Proof. destruct c; split; reflexivity. Qed.

  (* GAIL with any combination of schedulers inside and outside: reported in the order of the optimizers that have one,
     and stepped in this order *)
  Theorem C185_gail c (o : net -> O) h od hd : In c [KA2c; KTrpo] ->
    (forall h', h = Some h' -> forall n, of_ (h' n) = o n) -> (forall h', hd = Some h' -> of_ h' = od) ->
    exists fr, new_gail (new_flat c o h) od hd = Ok fr /\
    map of_ (lr_schedulers fr) = match h with Some _ => [o Actor; o Critic] | None => [] end ++
                                 match hd with Some _ => [od] | None => [] end /\
    sch_steps fr = lr_schedulers fr.
  Proof.
    intros I E D. destruct I as [<-|[<-|[]]]; destruct h as [h|], hd as [x|]; eexists; (split; [reflexivity|]); cbn;
      rewrite ?(E h eq_refl), ?(D x eq_refl); split; reflexivity.
  Qed.

  (* SAC reports four and steps the first two *)
  Theorem C185_refuted (o : net -> O) (h : net -> H) : let fr := Plain (new_flat KSac o (Some h)) in
    lr_schedulers fr = [h Actor; h Critic; h Critic2; h Alpha] /\ sch_steps fr = [h Actor; h Critic].
  Proof. split; reflexivity. Qed.
End Sched.
Print Assumptions C185_partial.
Print Assumptions C185_none.
Print Assumptions C185_gail.
Print Assumptions C185_refuted.
Example C185_nonvacuous :
  let o n := match n with Actor => 1 | Critic => 2 | Critic2 => 3 | _ => 4 end in
  sch_steps (Plain (new_flat KTd3 o (Some o))) = [3; 1; 2] /\ lr_schedulers (Plain (new_flat KTd3 o (Some o))) = [1; 2; 3] /\
  bind (new_gail (new_flat KTrpo o None) 9 (Some 7)) (fun g => Ok (lr_schedulers g)) = Ok [7].
Proof. repeat split; reflexivity. Qed.
