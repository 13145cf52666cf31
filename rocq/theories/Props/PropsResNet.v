(* C151-C152: shapes in ResNet. *)
From Verif Require Import Model.ResNet.
Open Scope Z_scope.
Set Implicit Arguments.

(* the specification: size of one side after a stride *)
Definition strided (s n : Z) : Z := (n - 1) / s + 1.

Lemma conv_ok cin cout k s p x : ch x = cin -> k <= hh x + 2 * p -> k <= ww x + 2 * p ->
  conv cin cout k s p x = Ok (MkS cout (out_dim k s p (hh x)) (out_dim k s p (ww x))).
Proof.
  intros C H W. unfold conv. rewrite C, Z.eqb_refl. apply Z.leb_le in H, W. now rewrite H, W.
Qed.
Lemma norm_ok n c x : ch x = c -> norm_layer n c x = Ok x.
Proof. intros <-. destruct n; cbn; auto. now rewrite Z.eqb_refl. Qed.
Lemma strided_pos s n : 1 <= s -> 1 <= n -> 1 <= strided s n.
Proof. intros S N. unfold strided. assert (0 <= (n - 1) / s) by (apply Z.div_pos; lia). lia. Qed.
Lemma strided_1 n : strided 1 n = n.
Proof. unfold strided. rewrite Z.div_1_r. lia. Qed.
Lemma out_3 s n : out_dim 3 s 1 n = strided s n.
Proof. unfold out_dim, strided. f_equal. f_equal. lia. Qed.
Lemma out_1 s n : out_dim 1 s 0 n = strided s n.
Proof. unfold out_dim, strided. f_equal. f_equal. lia. Qed.

(* C151: in every block the two paths have the same shape: planes times expansion, sides divided by the stride *)
Theorem C151_block : forall k n cin planes stride x, ch x = cin -> 1 <= stride -> 1 <= hh x -> 1 <= ww x ->
  block k n cin planes stride x = Ok (MkS (expansion k * planes) (strided stride (hh x)) (strided stride (ww x))).
Proof.
  intros k n cin planes stride x C S H W.
  pose proof (strided_pos S H) as H'. pose proof (strided_pos S W) as W'.
  set (y := MkS (expansion k * planes) (strided stride (hh x)) (strided stride (ww x))).
  assert (M : main_path k n cin planes stride x = Ok y).
  { unfold y. destruct k; cbn [main_path expansion].
    - unfold conv3x3. rewrite conv_ok by (auto; lia). cbn [bind]. rewrite !out_3. rewrite norm_ok by reflexivity. cbn [bind].
      rewrite conv_ok by (cbn; auto; lia). cbn [bind hh ww]. rewrite !out_3, !strided_1. now rewrite norm_ok.
    - unfold conv1x1, conv3x3. rewrite conv_ok by (auto; lia). cbn [bind]. rewrite !out_1, !strided_1. rewrite norm_ok by reflexivity. cbn [bind].
      rewrite conv_ok by (cbn; auto; lia). cbn [bind hh ww]. rewrite !out_3. rewrite norm_ok by reflexivity. cbn [bind].
      rewrite conv_ok by (cbn; auto; lia). cbn [bind hh ww]. rewrite !out_1, !strided_1. now rewrite norm_ok. }
  assert (T : shortcut k n cin planes stride x = Ok y).
  { unfold shortcut, y. destruct (negb (stride =? 1) || negb (cin =? expansion k * planes)) eqn:E.
    - unfold conv1x1. rewrite conv_ok by (auto; lia). cbn [bind]. rewrite !out_1. now rewrite norm_ok.
    - apply orb_false_iff in E as [E1 E2]. apply negb_false_iff, Z.eqb_eq in E1, E2. subst stride. rewrite !strided_1.
      rewrite <- E2, <- C. destruct x; reflexivity. }
  unfold block. rewrite M, T. cbn [bind]. unfold seqb. now rewrite !Z.eqb_refl.
Qed.
Print Assumptions C151_block.

Lemma ones_layer k n planes m : forall x, ch x = planes * expansion k -> 1 <= hh x -> 1 <= ww x ->
  run_blocks k n planes (fst (layer_blocks k (planes * expansion k) planes (repeat 1 m))) x = Ok x /\
  snd (layer_blocks k (planes * expansion k) planes (repeat 1 m)) = planes * expansion k.
Proof.
  induction m as [|m IH]; intros x C H W; cbn [repeat layer_blocks]; auto.
  destruct (layer_blocks k (planes * expansion k) planes (repeat 1 m)) as [bs c] eqn:E. cbn [fst snd run_blocks] in *.
  rewrite C151_block by (auto; lia). cbn [bind]. rewrite !strided_1.
  replace (MkS (expansion k * planes) (hh x) (ww x)) with x by (destruct x as [c' h' w']; cbn in *; subst; f_equal; lia). now apply IH.
Qed.
(* a layer of any number of blocks *)
Theorem C151_layer : forall k n cur planes num stride x, ch x = cur -> 1 <= stride -> 1 <= hh x -> 1 <= ww x ->
  let '(bs, cur') := layer_blocks k cur planes (strides stride num) in
  run_blocks k n planes bs x = Ok (MkS (planes * expansion k) (strided stride (hh x)) (strided stride (ww x))) /\
  cur' = planes * expansion k.
Proof.
  intros k n cur planes num stride x C S H W. unfold strides. cbn [layer_blocks].
  pose proof (@ones_layer k n planes (num - 1) (MkS (expansion k * planes) (strided stride (hh x)) (strided stride (ww x)))) as L.
  destruct (layer_blocks k (planes * expansion k) planes (repeat 1 (num - 1))) as [bs c]. cbn [fst snd] in *.
  destruct L as [L1 L2]; [cbn; lia|cbn; now apply strided_pos..|]. split; auto. cbn [run_blocks].
  rewrite C151_block by auto. cbn [bind]. rewrite L1. f_equal. f_equal. lia.
Qed.
Print Assumptions C151_layer.

(* ---- C152 ---- *)
Lemma layers_ok k n nums x : List.length nums = 4%nat -> ch x = 64 -> hh x = 56 -> ww x = 56 ->
  run_layers k n 64 (layers_of nums) x = Ok (MkS (512 * expansion k) 7 7).
Proof.
  intros L C H W. destruct nums as [|a [|b [|c [|d [|]]]]]; try discriminate. cbn [layers_of run_layers].
  assert (ST : forall planes num stride cur y, ch y = cur -> 1 <= stride -> 1 <= hh y -> 1 <= ww y ->
     exists bs, layer_blocks k cur planes (strides stride num) = (bs, planes * expansion k) /\
       run_blocks k n planes bs y = Ok (MkS (planes * expansion k) (strided stride (hh y)) (strided stride (ww y)))).
  { intros planes num stride cur y C1 S1 H1 W1. pose proof (@C151_layer k n cur planes num stride y C1 S1 H1 W1) as Q.
    destruct (layer_blocks k cur planes (strides stride num)) as [bs c']. destruct Q as [Q1 ->]. eauto. }
  destruct (ST 64 a 1 64 x) as (b1 & -> & ->); [lia..|]. cbn [bind]. rewrite H, W.
  match goal with |- context [MkS ?c ?h ?w] => destruct (ST 128 b 2 c (MkS c h w)) as (b2 & -> & ->); [reflexivity|lia|cbn; lia..|] end.
  cbn [bind hh ww].
  match goal with |- context [layer_blocks k _ 256 (strides 2 ?num)] =>
    match goal with |- context [MkS ?c ?h ?w] => destruct (ST 256 num 2 c (MkS c h w)) as (b3 & -> & ->); [reflexivity|lia|cbn; lia..|] end end.
  cbn [bind hh ww].
  match goal with |- context [MkS ?c ?h ?w] => destruct (ST 512 d 2 c (MkS c h w)) as (b4 & -> & ->); [reflexivity|lia|cbn; lia..|] end.
  cbn [bind hh ww]. reflexivity.
Qed.
(* what the network computes before its last layer *)
Lemma forward_eq r x : ch x = r_in r -> hh x = 224 -> ww x = 224 -> List.length (r_nums r) = 4%nat ->
  forward r x =
  let p := r_pool r in
  if (fst p =? 0) || (snd p =? 0) then Err EZeroDiv else
  bind (avgpool (7 / fst p) (7 / snd p) (MkS (512 * expansion (r_kind r)) 7 7)) (fun y =>
    if ch y * hh y * ww y =? 512 * fst p * snd p then Ok (r_out r) else Err ERuntime).
Proof.
  intros C H W L. unfold forward. rewrite H, W. cbn [Z.eqb Pos.eqb andb].
  rewrite conv_ok by (auto; lia). rewrite H, W. cbn [bind].
  rewrite norm_ok by reflexivity. cbn [bind]. unfold maxpool. cbn [hh ww ch].
  change (out_dim 7 2 3 224) with 112. cbn [Z.add Z.leb Z.compare Pos.add Pos.compare Pos.compare_cont andb]. 
  change (3 <=? 114) with true. cbn [andb bind]. change (out_dim 3 2 1 112) with 56.
  rewrite layers_ok by auto. cbn [bind hh ww]. reflexivity.
Qed.

Lemma built in_planes depth out_planes pool nm r : new in_planes depth out_planes pool nm = Ok r ->
  List.length (r_nums r) = 4%nat /\ r_in r = in_planes /\ r_out r = out_planes /\ r_pool r = pool /\
  (r_kind r = Basic <-> depth = 18 \/ depth = 34) /\ In depth [18; 34; 50; 101; 152].
Proof.
  unfold new. intros H. destruct (cfg depth) as [[k ns]|] eqn:C; [|discriminate]. cbn [bind] in H.
  destruct (norm_of nm); [|discriminate]. cbn [bind] in H. injection H as <-. cbn.
  assert (List.length ns = 4%nat /\ (k = Basic <-> depth = 18 \/ depth = 34) /\ In depth [18; 34; 50; 101; 152]) as (A & B & D).
  { unfold cfg in C.
    repeat (match type of C with (match ?d with _ => _ end) = _ => destruct d; try discriminate C end);
    injection C as <- <-; (split; [reflexivity|]); (split; [split; [intro; try discriminate; auto|intros [|]; congruence]|cbn; auto 10]). }
  auto 10.
Qed.
Definition pool_ok (p : Z) : Prop := p = 1 \/ p = 2 \/ p = 3 \/ p = 7.
Lemma kernel_range p : 1 <= 7 / p -> 1 <= p <= 7.
Proof.
  intros H. destruct (Z.eq_dec p 0) as [->|N]; [cbn in H; lia|]. destruct (Z.le_gt_cases p 0) as [L|L].
  - assert (7 / p < 0) by (pose proof (Z.mod_neg_bound 7 p); pose proof (Z.div_mod 7 p); nia). lia.
  - pose proof (Z.mul_div_le 7 p). nia.
Qed.
(* exactly when a batch of images goes through *)
Theorem C152_forward : forall in_planes depth out_planes p q nm r x v,
  new in_planes depth out_planes (p, q) nm = Ok r -> ch x = in_planes -> hh x = 224 -> ww x = 224 ->
  (forward r x = Ok v <-> (depth = 18 \/ depth = 34) /\ pool_ok p /\ pool_ok q /\ v = out_planes).
Proof.
  intros in_planes depth out_planes p q nm r x v N C H W. destruct (built _ _ _ _ _ N) as (L & I & O & P & K & D).
  rewrite forward_eq by congruence. rewrite P, O. cbn [fst snd]. rewrite <- K.
  assert (R : 1 <= 7 / p -> 1 <= 7 / q -> p = 1 \/ p = 2 \/ p = 3 \/ p = 4 \/ p = 5 \/ p = 6 \/ p = 7) by (intros A _; apply kernel_range in A; lia).
  assert (R' : 1 <= 7 / q -> q = 1 \/ q = 2 \/ q = 3 \/ q = 4 \/ q = 5 \/ q = 6 \/ q = 7) by (intros A; apply kernel_range in A; lia).
  destruct ((p =? 0) || (q =? 0)) eqn:E.
  { split; [discriminate|]. apply orb_true_iff in E as [E|E]; apply Z.eqb_eq in E; subst; unfold pool_ok; intuition lia. }
  unfold avgpool. cbn [hh ww ch].
  destruct ((1 <=? 7 / p) && (1 <=? 7 / q) && (7 / p <=? 7) && (7 / q <=? 7)) eqn:B.
  - rewrite !andb_true_iff, !Z.leb_le in B. destruct B as [[[B1 B2] _] _]. specialize (R B1 B2). specialize (R' B2). clear E B1 B2.
    unfold pool_ok. destruct (r_kind r); cbn [expansion bind ch hh ww];
    repeat match goal with X : _ \/ _ |- _ => destruct X as [->|X] | X : p = 7 |- _ => subst p | X : q = 7 |- _ => subst q end;
    match goal with |- (if ?b then _ else _) = _ <-> _ => let c := eval vm_compute in b in change b with c end; cbv iota;
    (split; [first [discriminate|intros [= <-]; intuition lia]|intuition (try lia; try discriminate; congruence)]).
  - split; [discriminate|]. intros (_ & A1 & A2 & _). exfalso. revert B. unfold pool_ok in *. destruct A1 as [->|[->|[->| ->]]]; destruct A2 as [->|[->|[->| ->]]]; discriminate.
Qed.
Print Assumptions C152_forward.

(* the claim holds for the two shallow networks and pool sizes 1, 2, 3, 7 *)
Theorem C152_partial : forall in_planes depth out_planes p q nm x,
  depth = 18 \/ depth = 34 -> pool_ok p -> pool_ok q -> In nm ["none"; "batch"; "weight"]%string ->
  ch x = in_planes -> hh x = 224 -> ww x = 224 ->
  exists r, new in_planes depth out_planes (p, q) nm = Ok r /\ forward r x = Ok out_planes.
Proof.
  intros in_planes depth out_planes p q nm x D P Q N C H W.
  assert (exists r, new in_planes depth out_planes (p, q) nm = Ok r) as (r & R).
  { destruct D as [-> | ->]; destruct N as [<-|[<-|[<-|[]]]]; eexists; reflexivity. }
  exists r. split; auto. apply (proj2 (@C152_forward _ _ _ _ _ _ _ _ out_planes R C H W)). auto.
Qed.
Print Assumptions C152_partial.
(* a network of depth 50, 101 or 152 is built but no image ever goes through it *)
Theorem C152_refuted : forall in_planes depth out_planes pool nm, In depth [50; 101; 152] -> In nm ["none"; "batch"; "weight"]%string ->
  exists r, new in_planes depth out_planes pool nm = Ok r /\ forall x v, forward r x <> Ok v.
Proof.
  intros in_planes depth out_planes [p q] nm D N.
  assert (exists r, new in_planes depth out_planes (p, q) nm = Ok r) as (r & R).
  { destruct D as [<-|[<-|[<-|[]]]]; destruct N as [<-|[<-|[<-|[]]]]; eexists; reflexivity. }
  exists r. split; auto. intros x v F.
  assert (ch x = in_planes /\ hh x = 224 /\ ww x = 224) as (C & H & W).
  { destruct (built _ _ _ _ _ R) as (_ & I & _). revert F. unfold forward.
    destruct ((hh x =? 224) && (ww x =? 224)) eqn:E; [|discriminate]. apply andb_true_iff in E as [E1 E2]. apply Z.eqb_eq in E1, E2.
    unfold conv at 1. destruct (ch x =? r_in r) eqn:E; [apply Z.eqb_eq in E; intros _; rewrite <- I; auto|discriminate]. }
  apply (proj1 (@C152_forward _ _ _ _ _ _ _ _ v R C H W)) in F. destruct F as [[-> | ->] _]; cbn in D; lia.
Qed.
Print Assumptions C152_refuted.
(* nor through one whose pool size is not among them *)
Theorem C152_pool_refuted : forall in_planes depth out_planes p q nm r x v, ~ pool_ok p \/ ~ pool_ok q ->
  new in_planes depth out_planes (p, q) nm = Ok r -> ch x = in_planes -> hh x = 224 -> ww x = 224 -> forward r x <> Ok v.
Proof.
  intros in_planes depth out_planes p q nm r x v A R C H W F.
  apply (proj1 (@C152_forward _ _ _ _ _ _ _ _ v R C H W)) in F. tauto.
Qed.
Print Assumptions C152_pool_refuted.
(* other sizes and unknown depths or norms are refused *)
Theorem C152_refused : forall r x, hh x <> 224 \/ ww x <> 224 -> forward r x = Err EAssert.
Proof.
  intros r x H. unfold forward. destruct (hh x =? 224) eqn:A; destruct (ww x =? 224) eqn:B; auto.
  apply Z.eqb_eq in A, B. tauto.
Qed.
Print Assumptions C152_refused.
Theorem C152_invalid : forall in_planes depth out_planes pool nm,
  (exists r, new in_planes depth out_planes pool nm = Ok r) \/ new in_planes depth out_planes pool nm = Err EValue.
Proof.
  intros. unfold new. assert ((exists a, cfg depth = Ok a) \/ cfg depth = Err EValue) as [[a ->]| ->]; [|cbn [bind]|auto].
  - unfold cfg. repeat match goal with |- context [match ?d with _ => _ end] => destruct d; eauto end.
  - unfold norm_of. destruct (nm =? "batch")%string, (nm =? "weight")%string, (nm =? "none")%string; cbn [bind]; eauto.
Qed.
Print Assumptions C152_invalid.

Example C151_nonvacuous :
  block Bottle NBatch 64 128 2 (MkS 64 57 9) = Ok (MkS 512 29 5) /\
  run_blocks Basic NNone 128 (fst (layer_blocks Basic 64 128 (strides 2 3))) (MkS 64 57 9) = Ok (MkS 128 29 5) /\
  block Basic NBatch 64 64 1 (MkS 65 8 8) = Err ERuntime.
Proof. repeat split. Qed.
Example C152_nonvacuous :
  bind (new 3 34 10 (2, 7) "batch") (fun r => forward r (MkS 3 224 224)) = Ok 10 /\
  bind (new 3 50 10 (1, 1) "batch") (fun r => forward r (MkS 3 224 224)) = Err ERuntime /\
  bind (new 3 18 10 (4, 1) "none") (fun r => forward r (MkS 3 224 224)) = Err ERuntime /\
  new 3 19 10 (1, 1) "none" = Err EValue /\ new 3 18 10 (1, 1) "layer" = Err EValue.
Proof. repeat split. Qed.
