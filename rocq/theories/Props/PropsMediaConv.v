(* C153-C156: video frames, log_video, determine_precision. *)
From Verif Require Import Model.MediaConv.
From Coq Require Import Lqa.
Open Scope Z_scope.
Set Implicit Arguments.

(* ---- the specification: what is seen at row i, column j, channel c (three channels of a grey image are the same) ---- *)
Definition px {V} (a : arr V) (i j c : nat) : option V :=
  match a with
  | Grey r => match nth_error r i with Some row => if (c <? 3)%nat then nth_error row j else None | None => None end
  | Col r => match nth_error r i with Some row => match nth_error row j with Some p => nth_error p c | None => None end | None => None end
  end.
Definition all_px {V} (P : V -> Prop) (a : arr V) : Prop := forall i j c v, px a i j c = Some v -> P v.

Lemma nth_map {A B} (f : A -> B) l i : nth_error (map f l) i = option_map f (nth_error l i).
Proof. revert i. induction l; intros [|i]; cbn; auto. Qed.
Lemma px_map {V W} (f : V -> W) a i j c : px (amap f a) i j c = option_map f (px a i j c).
Proof.
  destruct a as [r|r]; cbn; rewrite nth_map; destruct (nth_error r i); cbn; auto.
  - destruct (c <=? 2)%nat; cbn; auto. apply nth_map.
  - rewrite nth_map. destruct (nth_error l j); cbn; auto. apply nth_map.
Qed.
Lemma px_grey3 {V} (a : arr V) i j c : px (grey3 a) i j c = px a i j c.
Proof.
  destruct a as [r|r]; cbn; auto. rewrite nth_map. destruct (nth_error r i); cbn; auto.
  rewrite nth_map. destruct c as [|[|[|c]]]; cbn; destruct (nth_error l j); cbn; auto. now destruct c.
Qed.

Lemma floor_spec q : (inject_Z (Qfloor q) <= q /\ q < inject_Z (Qfloor q) + 1)%Q.
Proof. split; [apply Qfloor_le|]. pose proof (Qlt_floor q) as H. rewrite inject_Z_plus in H. exact H. Qed.
Lemma in_range q : (0 <= q)%Q -> (q <= 1)%Q -> 0 <= Qfloor (q * inject_Z 255) <= 255.
Proof.
  intros A B. split.
  - change 0 with (Qfloor 0). apply Qfloor_resp_le. change (inject_Z 255) with 255%Q. lra.
  - change 255 with (Qfloor (inject_Z 255)) at 2. apply Qfloor_resp_le. change (inject_Z 255) with 255%Q. lra.
Qed.

(* C153: integers from 0 to 255 are kept, floats from 0 to 1 are scaled to 0 ... 255, and a grey image gets three equal
   channels: the picture is the same at every place *)
Theorem C153_int : forall wild a, all_px (fun z => 0 <= z <= 255) a ->
  exists r, convert wild (FInt a) = FInt (Col r) /\ forall i j c, px (Col r) i j c = px a i j c.
Proof.
  intros wild a H. unfold convert. cbn [to_u8 repeat3].
  assert (exists r, grey3 (amap u8_int a) = Col r) as (r & E) by (destruct a; eexists; reflexivity).
  exists r. split; [now rewrite E|]. intros i j c. rewrite <- E, px_grey3, px_map. destruct (px a i j c) as [v|] eqn:P; auto.
  cbn. f_equal. apply Z.mod_small. apply H in P. lia.
Qed.
Print Assumptions C153_int.
Theorem C153_float : forall wild a, all_px (fun q => 0 <= q /\ q <= 1)%Q a ->
  exists r, convert wild (FFloat a) = FInt (Col r) /\
    (forall i j c, px a i j c = None -> px (Col r) i j c = None) /\
    forall i j c q, px a i j c = Some q ->
      exists v, px (Col r) i j c = Some v /\ 0 <= v <= 255 /\ (inject_Z v <= q * inject_Z 255 /\ q * inject_Z 255 < inject_Z v + 1)%Q.
Proof.
  intros wild a H. unfold convert. cbn [to_u8 repeat3].
  match goal with |- context [grey3 ?b] => set (b' := b) end.
  assert (exists r, grey3 b' = Col r) as (r & E) by (destruct a; eexists; reflexivity).
  exists r. split; [now rewrite E|]. rewrite <- E. split; intros i j c.
  - intros N. unfold b'. now rewrite px_grey3, px_map, N.
  - intros q P. rewrite px_grey3. unfold b'. rewrite px_map, P. cbn [option_map]. eexists. split; [reflexivity|].
    destruct (H _ _ _ _ P) as [A B]. pose proof (in_range A B) as R. unfold u8_float.
    rewrite (proj2 (Z.leb_le 0 _)), (proj2 (Z.ltb_lt _ 256)) by lia. cbn [andb]. split; auto. apply floor_spec.
Qed.
Print Assumptions C153_float.
(* no input at all gives values outside 0 ... 255 *)
Theorem C153_bytes : forall wild f a, convert wild f = FInt a -> all_px (fun z => 0 <= z <= 255) a.
Proof.
  intros wild f a H i j c v P. unfold convert in H. destruct f; cbn in H; inversion H; subst; clear H; rewrite px_grey3, px_map in P.
  - destruct (px a0 i j c); inversion P. unfold u8_int. pose proof (Z.mod_pos_bound z 256). lia.
  - destruct (px a0 i j c) as [q|]; inversion P. unfold u8_float.
    destruct ((0 <=? Qfloor (q * inject_Z 255)) && (Qfloor (q * inject_Z 255) <? 256)) eqn:E.
    + apply andb_true_iff in E as [E1 E2]. apply Z.leb_le in E1. apply Z.ltb_lt in E2. lia.
    + match goal with |- context [?x mod 256] => pose proof (Z.mod_pos_bound x 256) end. lia.
Qed.
Print Assumptions C153_bytes.
(* the order and number of frames is kept, and nothing is written without frames *)
Theorem C153_video : forall wild frames,
  snd (create_video wild frames) = match frames with [] => None | _ => Some (map (convert wild) frames) end.
Proof. now intros wild [|]. Qed.
Print Assumptions C153_video.

(* ---- C154: the frames of the caller ---- *)
Lemma amap_id {V} (f : V -> V) (a : arr V) : all_px (fun v => f v = v) a -> (forall r, a = Grey r -> False) -> amap f a = a.
Proof.
  intros H G. destruct a as [r|r]; [edestruct G; eauto|]. cbn. f_equal.
  rewrite <- (map_id r) at 2. apply map_ext_in. intros row I. apply In_nth_error in I as (i & I).
  rewrite <- (map_id row) at 2. apply map_ext_in. intros p J. apply In_nth_error in J as (j & J).
  rewrite <- (map_id p) at 2. apply map_ext_in. intros v K. apply In_nth_error in K as (c & K).
  apply (H i j c). cbn. now rewrite I, J.
Qed.
(* what conversion leaves as it is *)
Definition ready (f : frame) : Prop :=
  match f with
  | FInt (Col r) => all_px (fun z => 0 <= z <= 255) (Col r)
  | FOther (Col r) => True
  | _ => False
  end.
Lemma ready_convert wild f : ready f <-> convert wild f = f.
Proof.
  split.
  - destruct f as [[r|r]|[r|r]|[r|r]]; cbn [ready]; try contradiction; intros H; auto.
    unfold convert. cbn [to_u8 repeat3 amap grey3]. f_equal. change (Col (map (map (map u8_int)) r)) with (amap u8_int (Col r)).
    apply amap_id; [|congruence]. intros i j c v P. apply H in P. apply Z.mod_small. lia.
  - intros E. destruct f as [[r|r]|[r|r]|[r|r]]; try discriminate E; cbn [ready]; auto.
    exact (C153_bytes _ _ E).
Qed.
Lemma convert_ready wild f : ready (convert wild f).
Proof.
  destruct (convert wild f) as [a|a|a] eqn:E.
  - pose proof (C153_bytes _ _ E) as B. destruct f as [[r|r]|[r|r]|[r|r]]; inversion E; subst; exact B.
  - destruct f; discriminate.
  - destruct f as [[r|r]|[r|r]|[r|r]]; inversion E; subst; exact I.
Qed.
(* the list of the caller is changed whenever one frame is not made of bytes with channels already *)
Theorem C154_refuted : forall wild frames f, In f frames -> ~ ready f -> fst (create_video wild frames) <> frames.
Proof.
  intros wild frames f I N E. destruct frames as [|f0 r]; [inversion I|]. unfold create_video in E. cbn [fst] in E.
  remember (f0 :: r) as l. clear Heql. rewrite <- (map_id l) in E at 2. apply N. rewrite (ready_convert wild).
  apply In_nth_error in I as (i & I). apply (f_equal (fun l => nth_error l i)) in E. rewrite !nth_map, I in E. cbn in E. congruence.
Qed.
Print Assumptions C154_refuted.
Theorem C154_partial : forall wild frames, (forall f, In f frames -> ready f) -> fst (create_video wild frames) = frames.
Proof.
  intros wild frames H. destruct frames as [|f0 r]; auto. unfold create_video. cbn [fst].
  rewrite <- (map_id (f0 :: r)) at 2. apply map_ext_in. intros f I. apply ready_convert. auto.
Qed.
Print Assumptions C154_partial.
(* in all cases a second call with the same list writes the same video and leaves the list alone *)
Theorem C154_again : forall wild frames, let l := fst (create_video wild frames) in
  create_video wild l = (l, snd (create_video wild frames)).
Proof.
  intros wild frames l. unfold l. destruct frames as [|f0 r]; auto. unfold create_video. cbn [fst snd].
  assert (E : map (convert wild) (map (convert wild) (f0 :: r)) = map (convert wild) (f0 :: r)).
  { rewrite map_map. apply map_ext. intros f. apply ready_convert, convert_ready. }
  cbn [map] in *. now rewrite E.
Qed.
Print Assumptions C154_again.

Example C153_nonvacuous :
  convert (fun _ => 7) (FFloat (Grey [[0; 1 # 2]; [1; 3 # 2]]))%Q = FInt (Col [[[0; 0; 0]; [127; 127; 127]]; [[255; 255; 255]; [7; 7; 7]]]) /\
  convert (fun _ => 7) (FInt (Grey [[255; 256]])) = FInt (Col [[[255; 255; 255]; [0; 0; 0]]]).
Proof. repeat split. Qed.
Example C154_nonvacuous :
  create_video (fun _ => 7) [FInt (Grey [[9]]); FInt (Col [[[1; 2; 3]]])] =
    ([FInt (Col [[[9; 9; 9]]]); FInt (Col [[[1; 2; 3]]])], Some [FInt (Col [[[9; 9; 9]]]); FInt (Col [[[1; 2; 3]]])]) /\
  ready (FInt (Col [[[1; 2; 3]]])) /\ ~ ready (FInt (Grey [[9]])).
Proof.
  split; [reflexivity|]. split; [|intros []]. intros i j c v H.
  destruct i as [|[|]], j as [|[|]], c as [|[|[|[|]]]]; cbn in H; inversion H; lia.
Qed.

(* ---- C155: log_video ---- *)
Lemma wait_found fuel : forall sizes k m, (k <= m)%nat -> (m < k + fuel)%nat -> sizes m <> 0 -> sizes (S m) = sizes m ->
  exists j, wait_size fuel sizes k (sizes k) = Some j /\ (k < j <= S m)%nat /\ sizes j = sizes (pred j) /\ sizes j <> 0.
Proof.
  induction fuel as [|fuel IH]; intros sizes k m K M N E; [lia|]. cbn [wait_size].
  destruct (negb (sizes k =? 0) && (sizes (S k) =? sizes k)) eqn:T.
  - apply andb_true_iff in T as [T1 T2]. apply negb_true_iff, Z.eqb_neq in T1. apply Z.eqb_eq in T2.
    exists (S k). repeat split; auto; try lia; cbn [pred]; congruence.
  - assert (k <> m) as D. { intros ->. apply andb_false_iff in T as [T|T]; [apply negb_false_iff, Z.eqb_eq in T; auto|apply Z.eqb_neq in T; auto]. }
    destruct (IH sizes (S k) m) as (j & J & R & P); auto; try lia. exists j. repeat split; auto; try lia; tauto.
Qed.
Lemma wait_none fuel : forall sizes k, (forall m, (k <= m)%nat -> sizes m = 0 \/ sizes (S m) <> sizes m) -> wait_size fuel sizes k (sizes k) = None.
Proof.
  induction fuel as [|fuel IH]; intros sizes k H; auto. cbn [wait_size].
  destruct (negb (sizes k =? 0) && (sizes (S k) =? sizes k)) eqn:T.
  - apply andb_true_iff in T as [T1 T2]. apply negb_true_iff, Z.eqb_neq in T1. apply Z.eqb_eq in T2. destruct (H k); auto; contradiction.
  - apply IH. intros m L. apply H. lia.
Qed.
(* it ends exactly when the file is seen twice with the same size other than 0, and not before that *)
Theorem C155_ends : forall sizes ls,
  (exists fuel r, log_video fuel true sizes ls = Some r) <-> exists m, sizes m <> 0 /\ sizes (S m) = sizes m.
Proof.
  intros sizes ls. split.
  - intros (fuel & r & H). unfold log_video in H. destruct (wait_size fuel sizes 0 (sizes 0%nat)) eqn:W; [|discriminate].
    clear H r. revert W. generalize 0%nat as k. induction fuel as [|fuel IH]; intros k W; [discriminate|]. cbn [wait_size] in W.
    destruct (negb (sizes k =? 0) && (sizes (S k) =? sizes k)) eqn:T; [|eauto].
    apply andb_true_iff in T as [T1 T2]. apply negb_true_iff, Z.eqb_neq in T1. apply Z.eqb_eq in T2. eauto.
  - intros (m & N & E). destruct (@wait_found (S m) sizes 0 m) as (j & J & _); auto; try lia.
    exists (S m). unfold log_video. rewrite J. destruct (artifacts 0 ls) as [es []]; eauto.
Qed.
Print Assumptions C155_ends.
(* a video without frames is never written, the file stays empty: it never returns *)
Theorem C155_refuted : forall wild ls fuel, snd (create_video wild []) = None /\ log_video fuel true (fun _ => 0) ls = None.
Proof.
  intros wild ls fuel. split; auto. unfold log_video. now rewrite (@wait_none fuel (fun _ => 0) 0) by auto.
Qed.
Print Assumptions C155_refuted.
(* otherwise every logger that takes artifacts gets the file once, in order, and the file is removed *)
Fixpoint takers (i : nat) (ls : list logger) : list nat :=
  match ls with [] => [] | l :: r => if has_artifact l then i :: takers (S i) r else takers (S i) r end.
Lemma artifacts_ok : forall ls i, (forall l, In l ls -> raises l = false) -> artifacts i ls = (map Artifact (takers i ls), true).
Proof.
  induction ls as [|l r IH]; intros i H; auto. cbn. rewrite (H l) by (now left). rewrite IH by (intros; apply H; now right).
  now destruct (has_artifact l).
Qed.
Theorem C155_partial : forall sizes ls m, sizes m <> 0 -> sizes (S m) = sizes m -> (forall l, In l ls -> raises l = false) ->
  exists fuel, log_video fuel true sizes ls = Some (map Artifact (takers 0 ls) ++ [Removed], true).
Proof.
  intros sizes ls m N E H. destruct (@wait_found (S m) sizes 0 m) as (j & J & _); auto; try lia.
  exists (S m). unfold log_video. rewrite J, artifacts_ok by auto. reflexivity.
Qed.
Print Assumptions C155_partial.
(* a failing encoder is reported on the screen only, the file is removed and nothing is logged *)
Theorem C155_failed : forall fuel sizes ls, log_video fuel false sizes ls = Some ([Printed; Removed], true).
Proof. reflexivity. Qed.
Print Assumptions C155_failed.
(* a failing logger leaves the file behind *)
Theorem C155_leak_refuted : forall ls i l sizes m fuel es ok, nth_error ls i = Some l -> has_artifact l = true -> raises l = true ->
  sizes m <> 0 -> sizes (S m) = sizes m -> log_video fuel true sizes ls = Some (es, ok) -> ok = false /\ ~ In Removed es.
Proof.
  intros ls i l sizes m fuel es ok I A R N E L. unfold log_video in L. destruct (wait_size fuel sizes 0 (sizes 0%nat)); [|discriminate].
  assert (G : forall ls i k, nth_error ls i = Some l -> snd (artifacts k ls) = false /\ ~ In Removed (fst (artifacts k ls))).
  { clear - A R. induction ls as [|l0 ls IH]; intros [|i] k H; try discriminate; cbn in H.
    - injection H as ->. cbn. rewrite A, R. cbn. split; auto. intros [|]; [discriminate|auto].
    - specialize (IH i (S k) H). cbn. destruct (has_artifact l0); auto. destruct (raises l0).
      + cbn. split; auto. intros [|]; [discriminate|auto].
      + destruct (artifacts (S k) ls) as [es ok]. cbn in *. split; [tauto|]. intros [|]; [discriminate|tauto]. }
  destruct (G ls i 0%nat I) as [G1 G2]. destruct (artifacts 0 ls) as [es' ok']. cbn in *. subst ok'. injection L as <- <-. auto.
Qed.
Print Assumptions C155_leak_refuted.
Example C155_nonvacuous :
  log_video 5 true (fun k => match k with 0%nat => 0 | 1%nat => 3 | _ => 8 end) [MkL true false; MkL false true; MkL true false] =
    Some ([Artifact 0; Artifact 2; Removed], true) /\
  log_video 5 true (fun _ => 4) [MkL true false; MkL true true; MkL true false] = Some ([Artifact 0; Artifact 1], false).
Proof. repeat split. Qed.

(* ---- C156: determine_precision ---- *)
Section C156.
  Variable D : Type.
  Context {ED : Eqb D}.
  Lemma add1_in (s : list D) d x : In x (add1 s d) <-> In x s \/ x = d.
  Proof.
    unfold add1. destruct (existsb (eqb d) s) eqn:E.
    - apply existsb_exists in E as (y & I & Y). destruct (eqb_spec d y); [subst|discriminate]. split; [auto|intros [|Q]; subst; auto].
    - rewrite in_app_iff. cbn. intuition.
  Qed.
  Lemma adds_in m : forall (s : list D) x, In x (fold_left add1 m s) <-> In x s \/ In x m.
  Proof. induction m as [|d m IH]; intros s x; cbn; [tauto|]. rewrite IH, add1_in. intuition. Qed.
  Lemma dtypes_in_gen ms : forall (s : list D) x, In x (fold_left (fun s m => fold_left add1 m s) ms s) <-> In x s \/ In x (concat ms).
  Proof. induction ms as [|m ms IH]; intros s x; cbn; [tauto|]. rewrite IH, adds_in, in_app_iff. intuition. Qed.
  Lemma dtypes_in (ms : list (list D)) x : In x (dtypes ms) <-> In x (concat ms).
  Proof. unfold dtypes. rewrite dtypes_in_gen. cbn. tauto. Qed.
  Lemma add1_nodup (s : list D) d : NoDup s -> NoDup (add1 s d).
  Proof.
    intros N. unfold add1. destruct (existsb (eqb d) s) eqn:E; auto.
    apply NoDup_Add with (a := d) (l := s); [rewrite <- (app_nil_r s) at 1; apply Add_app|]. split; auto.
    intros I. rewrite (proj2 (existsb_exists _ _)) in E; [discriminate|]. exists d. split; auto. destruct (eqb_spec d d); congruence.
  Qed.
  Lemma adds_nodup m : forall (s : list D), NoDup s -> NoDup (fold_left add1 m s).
  Proof. induction m; intros s N; cbn; auto. apply IHm. now apply add1_nodup. Qed.
  Lemma dtypes_nodup (ms : list (list D)) : NoDup (dtypes ms).
  Proof.
    unfold dtypes. enough (forall s : list D, NoDup s -> NoDup (fold_left (fun s m => fold_left add1 m s) ms s)) as H by (apply H; constructor).
    induction ms; intros s N; cbn; auto. apply IHms. now apply adds_nodup.
  Qed.
  (* the type of all parameters if they agree *)
  Theorem C156_partial : forall (models : list (list D)) d,
    determine_precision models = Ok d <-> In d (concat models) /\ forall x, In x (concat models) -> x = d.
  Proof.
    intros ms d. pose proof (dtypes_nodup ms) as N. pose proof (dtypes_in ms) as I. unfold determine_precision.
    destruct (dtypes ms) as [|a [|b l]].
    - split; [discriminate|]. intros [H _]. apply I in H. destruct H.
    - split.
      + intros [= <-]. split; [apply I; now left|]. intros x H. apply I in H. destruct H as [->|[]]; auto.
      + intros [_ H]. f_equal. apply H, I. now left.
    - split; [discriminate|]. intros [_ H]. inversion N as [|? ? N1 _]; subst. destruct N1. left.
      rewrite (H a), (H b); auto; apply I; cbn; auto.
  Qed.
  (* RuntimeError exactly for two different types *)
  Theorem C156_mixed : forall (models : list (list D)),
    determine_precision models = Err ERuntime <-> exists x y, In x (concat models) /\ In y (concat models) /\ x <> y.
  Proof.
    intros ms. pose proof (dtypes_nodup ms) as N. pose proof (dtypes_in ms) as I. unfold determine_precision.
    destruct (dtypes ms) as [|a [|b l]].
    - split; [discriminate|]. intros (x & _ & H & _). apply I in H. destruct H.
    - split; [discriminate|]. intros (x & y & H1 & H2 & D'). apply I in H1, H2. destruct H1 as [<-|[]], H2 as [<-|[]]. congruence.
    - split; auto. intros _. exists a, b. repeat split; try (apply I; cbn; auto). inversion N as [|? ? N1 _]; subst. intros ->. apply N1. now left.
  Qed.
  (* models without parameters: IndexError *)
  Theorem C156_refuted : forall (models : list (list D)), concat models = [] -> determine_precision models = Err EIndex.
  Proof.
    intros ms E. unfold determine_precision. destruct (dtypes ms) as [|a l] eqn:Q; auto.
    assert (In a (concat ms)) as H by (apply dtypes_in; rewrite Q; now left). rewrite E in H. destruct H.
  Qed.
End C156.
Print Assumptions C156_partial.
Print Assumptions C156_mixed.
Print Assumptions C156_refuted.
Example C156_nonvacuous :
  determine_precision [[32; 32]; []; [32]]%nat = Ok 32%nat /\ determine_precision [[32; 32]; [16]]%nat = Err ERuntime /\
  determine_precision [@nil nat; []] = Err EIndex.
Proof. repeat split. Qed.
