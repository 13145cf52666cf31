(* C82, C83, C84, C85: action noise, machin/frame/noise/. *)
From Coq Require Import QArith Field.
From Verif Require Import Lib.Base Lib.Rat Model.Noise.
Close Scope Q_scope.
Open Scope nat_scope.

Definition has_shape (rows cols : nat) (t : tensor) : Prop := length t = rows /\ forall r, In r t -> length r = cols.
Definition at_ (t : tensor) (r c : nat) : Qc := nth c (nth r t []) 0%Qc.
(* the parameters that apply to column c *)
Definition governs {P} (pm : param P) (c : nat) (p : P) : Prop :=
  match pm with One q => p = q | Each ps => nth_error ps c = Some p end.
(* one parameter tuple, or one per column *)
Definition fits {P} (pm : param P) (cols : nat) : Prop :=
  match pm with One _ => True | Each ps => ps <> [] /\ length ps = cols end.
Definition unit_draws (t : tensor) : Prop := forall r x, In r t -> In x r -> (0 <= x)%Qc /\ (x < 1)%Qc.

Lemma at_in r c t rows cols : has_shape rows cols t -> r < rows -> c < cols ->
  exists row, In row t /\ In (at_ t r c) row.
Proof.
  intros [L H] R C. exists (nth r t []). assert (In (nth r t []) t) by (apply nth_In; lia). split; auto.
  apply nth_In. rewrite H; auto.
Qed.
Lemma column_shape i f rows cols t : has_shape rows cols t -> has_shape rows cols (column i f t).
Proof.
  intros [L H]. split; [unfold column; now rewrite map_length|]. intros r I. apply in_map_iff in I as (x & <- & I).
  destruct (nth_error x i); [rewrite upd_length|]; auto.
Qed.
Lemma column_at i f rows cols t r c : has_shape rows cols t -> r < rows -> c < cols -> i < cols ->
  at_ (column i f t) r c = if c =? i then f (at_ t r c) else at_ t r c.
Proof.
  intros [L H] R C I. unfold at_, column.
  set (g := fun row : list Qc => match nth_error row i with Some x => upd i (f x) row | None => row end).
  rewrite (nth_indep _ [] (g [])) by (rewrite map_length; lia). rewrite map_nth. unfold g.
  assert (length (nth r t []) = cols) as W by (apply H, nth_In; lia).
  destruct (nth_error (nth r t []) i) eqn:E; [|apply nth_error_None in E; lia].
  pose proof (nth_error_nth _ _ 0%Qc E) as X.
  rewrite upd_nth, W. destruct (Nat.eqb_spec c i) as [->|N].
  - rewrite Nat.eqb_refl. destruct (Nat.ltb_spec i cols); [cbn; now rewrite X|lia].
  - destruct (Nat.eqb_spec i c); [congruence|]. auto.
Qed.
Lemma columns_at {P} (f : P -> Qc -> Qc) ps rows cols k t : has_shape rows cols t -> k <= cols -> length ps = cols ->
  has_shape rows cols (fold_left (fun n i => match nth_error ps i with Some p => column i (f p) n | None => n end) (seq 0 k) t) /\
  forall r c, r < rows -> c < cols ->
  at_ (fold_left (fun n i => match nth_error ps i with Some p => column i (f p) n | None => n end) (seq 0 k) t) r c =
  if c <? k then match nth_error ps c with Some p => f p (at_ t r c) | None => at_ t r c end else at_ t r c.
Proof.
  intros SH0. induction k as [|k IH]; intros K L; [split; auto|].
  destruct IH as [IS IH]; auto; [lia|]. rewrite seq_S, fold_left_app. cbn [fold_left Nat.add].
  destruct (nth_error ps k) as [p|] eqn:E; [|apply nth_error_None in E; lia].
  split; [now apply column_shape|]. intros r c R C. rewrite (column_at _ _ rows cols) by (auto; lia). rewrite IH by auto.
  destruct (Nat.eqb_spec c k) as [->|N].
  - destruct (Nat.ltb_spec k k); [lia|]. destruct (Nat.ltb_spec k (S k)); [|lia]. now rewrite E.
  - destruct (Nat.ltb_spec c k); destruct (Nat.ltb_spec c (S k)); auto; lia.
Qed.
Lemma nth_combine {A B} (a : list A) (b : list B) i x y : length a = length b ->
  nth i (combine a b) (x, y) = (nth i a x, nth i b y).
Proof. apply combine_nth. Qed.
Lemma each2_shape f rows cols a b : has_shape rows cols a -> has_shape rows cols b -> has_shape rows cols (each2 f a b).
Proof.
  intros [La Ha] [Lb Hb]. unfold each2. split; [rewrite map_length, combine_length; lia|].
  intros r I. apply in_map_iff in I as ([p q] & <- & I). cbn. rewrite map_length, combine_length.
  apply in_combine_l in I as I1. apply in_combine_r in I as I2. rewrite Ha, Hb by auto. lia.
Qed.
Lemma each2_at f rows cols a b r c : has_shape rows cols a -> has_shape rows cols b -> r < rows -> c < cols ->
  at_ (each2 f a b) r c = f (at_ a r c) (at_ b r c).
Proof.
  intros [La Ha] [Lb Hb] R C. unfold at_, each2.
  set (g := fun p : list Qc * list Qc => map (fun q : Qc * Qc => f (fst q) (snd q)) (combine (fst p) (snd p))).
  rewrite (nth_indep _ [] (g ([], []))) by (rewrite map_length, combine_length; lia).
  rewrite map_nth, nth_combine by lia. unfold g. cbn [fst snd].
  assert (length (nth r a []) = cols) by (apply Ha, nth_In; lia).
  assert (length (nth r b []) = cols) by (apply Hb, nth_In; lia).
  set (h := fun q : Qc * Qc => f (fst q) (snd q)).
  rewrite (nth_indep _ 0%Qc (h (0%Qc, 0%Qc))) by (rewrite map_length, combine_length; lia).
  rewrite map_nth, nth_combine by lia. reflexivity.
Qed.
Lemma map_at f rows cols a r c : has_shape rows cols a -> r < rows -> c < cols ->
  at_ (map (map f) a) r c = f (at_ a r c).
Proof.
  intros [La Ha] R C. unfold at_. rewrite (nth_indep _ [] (map f [])) by (rewrite map_length; lia). rewrite map_nth.
  assert (length (nth r a []) = cols) by (apply Ha, nth_In; lia).
  rewrite (nth_indep _ 0%Qc (f 0%Qc)) by (rewrite map_length; lia). now rewrite map_nth.
Qed.
Lemma map_shape f rows cols a : has_shape rows cols a -> has_shape rows cols (map (map f) a).
Proof.
  intros [L H]. split; [now rewrite map_length|]. intros r I. apply in_map_iff in I as (x & <- & I). rewrite map_length. auto.
Qed.

(* the draws used: the first source for one parameter tuple, the second for one per column *)
Definition source {P} (pm : param P) (n1 n2 : tensor) : tensor := match pm with One _ => n1 | Each _ => n2 end.
Lemma scaled_spec {P} rows cols action n1 n2 (f : P -> Qc -> Qc) pm ratio :
  has_shape rows cols action -> has_shape rows cols n1 -> has_shape rows cols n2 -> fits pm cols ->
  exists out, scaled cols action n1 n2 f pm ratio = Ok out /\ has_shape rows cols out /\
    forall r c p, r < rows -> c < cols -> governs pm c p ->
      at_ out r c = (at_ action r c + f p (at_ (source pm n1 n2) r c) * ratio)%Qc.
Proof.
  intros SA S1 S2 F. destruct pm as [p|ps]; cbn in F |- *.
  - eexists. split; [reflexivity|]. split; [apply each2_shape; auto; now apply map_shape|].
    intros r c q R C ->. rewrite (each2_at _ rows cols) by (auto; now apply map_shape). now rewrite (map_at _ rows cols).
  - destruct F as [NE L]. destruct ps as [|p0 ps]; [congruence|]. unfold scaled. rewrite L, Nat.eqb_refl.
    destruct (columns_at f (p0 :: ps) rows cols cols n2 S2 (Nat.le_refl _) L) as [SH AT].
    eexists. split; [reflexivity|]. split; [apply each2_shape; auto|].
    intros r c p R C G. rewrite (each2_at _ rows cols) by auto. rewrite AT by auto.
    destruct (Nat.ltb_spec c cols); [|lia]. now rewrite G.
Qed.
Lemma scaled_refuses {P} cols action n1 n2 (f : P -> Qc -> Qc) ps ratio : ps <> [] -> length ps <> cols ->
  scaled cols action n1 n2 f (Each ps) ratio = Err EValue.
Proof.
  intros N L. destruct ps; [congruence|]. unfold scaled. destruct (Nat.eqb_spec (length (p :: ps)) cols); auto. congruence.
Qed.

Lemma mul_le x a b : (0 <= x)%Qc -> (a <= b)%Qc -> (x * a <= x * b)%Qc.
Proof. intros. rewrite !(Qcmult_comm x). apply Qcmult_le_compat_r; auto. Qed.
Lemma between lo hi u : (0 <= u)%Qc -> (u < 1)%Qc -> (lo <= hi)%Qc ->
  (lo <= u * (hi - lo) + lo)%Qc /\ (u * (hi - lo) + lo <= hi)%Qc /\ ((lo < hi)%Qc -> (u * (hi - lo) + lo < hi)%Qc).
Proof.
  intros U V L. assert (0 <= u * (hi - lo))%Qc by (apply Qcmul_nonneg; [auto|qcl]).
  assert (u * (hi - lo) <= hi - lo)%Qc as X.
  { assert (u * (hi - lo) <= 1 * (hi - lo))%Qc by (apply Qcmult_le_compat_r; qcl). qcl. }
  split; [qcl|]. split; [qcl|]. intros LT.
  assert (u * (hi - lo) < 1 * (hi - lo))%Qc by (apply Qcmult_lt_compat_r; qcl). qcl.
Qed.

(* C82 *)
Theorem C82_uniform : forall rows cols action rand pm ratio,
  has_shape rows cols action -> has_shape rows cols rand -> unit_draws rand -> fits pm cols ->
  exists out, add_uniform cols action rand pm ratio = Ok out /\ has_shape rows cols out /\
    forall r c lo hi, r < rows -> c < cols -> governs pm c (lo, hi) -> (lo <= hi)%Qc ->
      exists noise, at_ out r c = (at_ action r c + noise * ratio)%Qc /\
        noise = (lo + (hi - lo) * at_ rand r c)%Qc /\
        (lo <= noise)%Qc /\ (noise <= hi)%Qc /\ ((lo < hi)%Qc -> (noise < hi)%Qc).
Proof.
  intros rows cols action rand pm ratio SA SR U F.
  destruct (scaled_spec rows cols action rand rand (fun p x => x * (snd p - fst p) + fst p)%Qc pm ratio SA SR SR F)
    as (out & E & SH & AT).
  exists out. split; [exact E|]. split; [exact SH|]. intros r c lo hi R C G L.
  destruct (at_in r c rand rows cols SR R C) as (row & I & J). destruct (U _ _ I J) as [U1 U2].
  destruct (between lo hi _ U1 U2 L) as (B1 & B2 & B3).
  eexists. split; [|split; [reflexivity|]].
  - rewrite (AT r c (lo, hi) R C G). cbn. replace (source pm rand rand) with rand by (destruct pm; auto). ring.
  - replace (lo + (hi - lo) * at_ rand r c)%Qc with (at_ rand r c * (hi - lo) + lo)%Qc by ring. auto.
Qed.
Print Assumptions C82_uniform.
Theorem C82_refuses : forall cols action rand ps ratio, ps <> [] -> length ps <> cols ->
  add_uniform cols action rand (Each ps) ratio = Err EValue.
Proof. intros. now apply scaled_refuses. Qed.
Print Assumptions C82_refuses.
Theorem C82_empty : forall cols action rand ratio, add_uniform cols action rand (Each []) ratio = Err EIndex.
Proof. reflexivity. Qed.
Print Assumptions C82_empty.
Theorem C82_generator : forall lo hi rand, (lo <= hi)%Qc -> (forall u, In u rand -> (0 <= u)%Qc /\ (u < 1)%Qc) ->
  length (gen_uniform lo hi rand) = length rand /\ forall x, In x (gen_uniform lo hi rand) -> (lo <= x)%Qc /\ (x <= hi)%Qc.
Proof.
  intros lo hi rand L U. unfold gen_uniform. split; [now rewrite map_length|]. intros x I.
  apply in_map_iff in I as (u & <- & I). destruct (U u I) as [U1 U2]. destruct (between lo hi u U1 U2 L) as (B1 & B2 & _).
  replace (lo + u * (hi - lo))%Qc with (u * (hi - lo) + lo)%Qc by ring. auto.
Qed.
Print Assumptions C82_generator.

Definition q (a : Z) (b : positive) : Qc := Q2Qc (QArith_base.Qmake a b).
Definition ex_action : tensor := [[q 1 1; q 2 1]; [q 3 1; q 4 1]].
Definition ex_rand : tensor := [[q 1 2; q 1 4]; [q 0 1; q 3 4]].
Example C82_nonvacuous :
  (match add_uniform 2 ex_action ex_rand (Each [(q 0 1, q 1 1); (q (-1) 1, q 3 1)]) (q 2 1) with
   | Ok t => map (map this) t | Err _ => [] end)
  = [[QArith_base.Qmake 2 1; QArith_base.Qmake 2 1]; [QArith_base.Qmake 3 1; QArith_base.Qmake 8 1]]%Z
  /\ add_uniform 2 ex_action ex_rand (Each [(q 0 1, q 1 1)]) (q 2 1) = Err EValue.
Proof. vm_compute. auto. Qed.

(* C83 *)
Definition zeros rows cols : tensor := repeat (repeat 0%Qc cols) rows.
Lemma zeros_shape rows cols : has_shape rows cols (zeros rows cols).
Proof.
  split; [apply repeat_length|]. intros r I. apply repeat_spec in I as ->. apply repeat_length.
Qed.
Lemma zeros_unit rows cols : unit_draws (zeros rows cols).
Proof. intros r x I J. apply repeat_spec in I as ->. apply repeat_spec in J as ->. split; [apply Qcle_refl|reflexivity]. Qed.
Lemma zeros_at rows cols r c : at_ (zeros rows cols) r c = 0%Qc.
Proof.
  unfold at_. destruct (in_dec (list_eq_dec Qc_eq_dec) (nth r (zeros rows cols) []) (zeros rows cols)) as [I|N].
  - apply repeat_spec in I as ->. destruct (Nat.lt_ge_cases c cols).
    + assert (In (nth c (repeat 0%Qc cols) 0%Qc) (repeat 0%Qc cols)) as I by (apply nth_In; now rewrite repeat_length).
      now apply repeat_spec in I.
    + rewrite nth_overflow; auto. now rewrite repeat_length.
  - destruct (Nat.lt_ge_cases r (length (zeros rows cols))) as [H|H]; [now destruct N; apply nth_In|].
    rewrite (nth_overflow _ [] H). now destruct c.
Qed.

(* the noise of every column is within its clipping interval *)
Theorem C83_refuted : forall rows cols action pm r c mu sigma lo hi,
  has_shape rows cols action -> fits pm cols -> r < rows -> c < cols -> governs pm c (mu, sigma, lo, hi) ->
  (mu < lo)%Qc \/ (hi < mu)%Qc ->
  exists rand out, has_shape rows cols rand /\ unit_draws rand /\ add_clipped cols action rand pm 1%Qc = Ok out /\
    ~ ((lo <= at_ out r c - at_ action r c)%Qc /\ (at_ out r c - at_ action r c <= hi)%Qc).
Proof.
  intros rows cols action pm r c mu sigma lo hi SA F R C G O.
  destruct (scaled_spec rows cols action (zeros rows cols) (zeros rows cols)
    (fun p x => let '(mu, sigma, lo, hi) := p in x * (sigma - mu) + mu)%Qc pm 1%Qc SA (zeros_shape _ _) (zeros_shape _ _) F)
    as (out & E & SH & AT).
  exists (zeros rows cols), out. split; [apply zeros_shape|]. split; [apply zeros_unit|]. split; [exact E|].
  rewrite (AT r c _ R C G). replace (source pm (zeros rows cols) (zeros rows cols)) with (zeros rows cols) by (destruct pm; auto).
  rewrite zeros_at. intros [A B].
  replace (at_ action r c + (0 * (sigma - mu) + mu) * 1 - at_ action r c)%Qc with mu in * by ring. destruct O; qcl.
Qed.
Print Assumptions C83_refuted.
(* nor is it normal: it never leaves the interval between the mean and the standard deviation *)
Theorem C83_range_refuted : forall rows cols action rand pm,
  has_shape rows cols action -> has_shape rows cols rand -> unit_draws rand -> fits pm cols ->
  exists out, add_clipped cols action rand pm 1%Qc = Ok out /\
    forall r c mu sigma lo hi, r < rows -> c < cols -> governs pm c (mu, sigma, lo, hi) -> (mu <= sigma)%Qc ->
      (mu <= at_ out r c - at_ action r c)%Qc /\ (at_ out r c - at_ action r c <= sigma)%Qc.
Proof.
  intros rows cols action rand pm SA SR U F.
  destruct (scaled_spec rows cols action rand rand
    (fun p x => let '(mu, sigma, lo, hi) := p in x * (sigma - mu) + mu)%Qc pm 1%Qc SA SR SR F) as (out & E & SH & AT).
  exists out. split; [exact E|]. intros r c mu sigma lo hi R C G L.
  rewrite (AT r c _ R C G). replace (source pm rand rand) with rand by (destruct pm; auto).
  destruct (at_in r c rand rows cols SR R C) as (row & I & J). destruct (U _ _ I J) as [U1 U2].
  destruct (between mu sigma _ U1 U2 L) as (B1 & B2 & _). cbn.
  match goal with |- (_ <= ?x)%Qc /\ _ => replace x with (at_ rand r c * (sigma - mu) + mu)%Qc by ring end. auto.
Qed.
Print Assumptions C83_range_refuted.
(* full claim: without the hypotheses on mean and standard deviation *)
Theorem C83_partial : forall rows cols action rand pm,
  has_shape rows cols action -> has_shape rows cols rand -> unit_draws rand -> fits pm cols ->
  exists out, add_clipped cols action rand pm 1%Qc = Ok out /\ has_shape rows cols out /\
    forall r c mu sigma lo hi, r < rows -> c < cols -> governs pm c (mu, sigma, lo, hi) ->
      (lo <= mu)%Qc -> (mu <= sigma)%Qc -> (sigma <= hi)%Qc ->
      (lo <= at_ out r c - at_ action r c)%Qc /\ (at_ out r c - at_ action r c <= hi)%Qc.
Proof.
  intros rows cols action rand pm SA SR U F.
  destruct (C83_range_refuted rows cols action rand pm SA SR U F) as (out & E & H). exists out. split; [exact E|]. split.
  - destruct (scaled_spec rows cols action rand rand
      (fun p x => let '(mu, sigma, lo, hi) := p in x * (sigma - mu) + mu)%Qc pm 1%Qc SA SR SR F) as (out' & E' & SH & _).
    unfold add_clipped in E. assert (out = out') by congruence. now subst.
  - intros r c mu sigma lo hi R C G A B D. destruct (H r c mu sigma lo hi R C G B). split; qcl.
Qed.
Print Assumptions C83_partial.
Theorem C83_generator_refuted : forall mu sigma lo hi, sigma <> 0%Qc ->
  exists z, (hi < nth 0 (gen_clipped mu sigma lo hi [z]) 0)%Qc.
Proof.
  intros mu sigma lo hi NZ. exists ((hi + 1 - mu) / sigma)%Qc. cbn [gen_clipped map nth].
  replace (mu + sigma * ((hi + 1 - mu) / sigma))%Qc with (hi + 1)%Qc by (field; auto).
  assert (0 < 1)%Qc by reflexivity. qcl.
Qed.
Print Assumptions C83_generator_refuted.
Example C83_nonvacuous :
  (match add_clipped 2 ex_action ex_rand (One (q 0 1, q 8 1, q (-1) 1, q 1 1)) 1%Qc with
   | Ok t => map (map this) t | Err _ => [] end)
  = [[QArith_base.Qmake 5 1; QArith_base.Qmake 4 1]; [QArith_base.Qmake 3 1; QArith_base.Qmake 10 1]]%Z.
Proof. vm_compute. auto. Qed.

(* C84 *)
(* full claim: for every parameter; missing: one tuple for all columns *)
Theorem C84_columns_partial : forall rows cols action rand randn ps ratio,
  has_shape rows cols action -> has_shape rows cols rand -> has_shape rows cols randn -> fits (Each ps) cols ->
  exists out, add_normal cols action rand randn (Each ps) ratio = Ok out /\ has_shape rows cols out /\
    forall r c mu sigma, r < rows -> c < cols -> nth_error ps c = Some (mu, sigma) ->
      at_ out r c = (at_ action r c + (mu + sigma * at_ randn r c) * ratio)%Qc.
Proof.
  intros rows cols action rand randn ps ratio SA S1 S2 F.
  destruct (scaled_spec rows cols action rand randn (fun p x => x * snd p + fst p)%Qc (Each ps) ratio SA S1 S2 F)
    as (out & E & SH & AT).
  exists out. split; [exact E|]. split; [exact SH|]. intros r c mu sigma R C G. rewrite (AT r c (mu, sigma) R C G). cbn [fst snd source]. ring.
Qed.
Print Assumptions C84_columns_partial.
(* with one tuple the normal draws are not used at all, and the noise is never below the mean nor
   one standard deviation above it *)
Theorem C84_refuted : forall rows cols action rand mu sigma,
  has_shape rows cols action -> has_shape rows cols rand -> unit_draws rand -> (0 < sigma)%Qc ->
  exists out, (forall randn, add_normal cols action rand randn (One (mu, sigma)) 1%Qc = Ok out) /\
    forall r c, r < rows -> c < cols ->
      (mu <= at_ out r c - at_ action r c)%Qc /\ (at_ out r c - at_ action r c < mu + sigma)%Qc.
Proof.
  intros rows cols action rand mu sigma SA SR U P.
  destruct (scaled_spec rows cols action rand rand (fun p x => x * snd p + fst p)%Qc (One (mu, sigma)) 1%Qc SA SR SR I)
    as (out & E & SH & AT).
  exists out. split; [intros randn; exact E|]. intros r c R C. rewrite (AT r c (mu, sigma) R C eq_refl). cbn [fst snd source].
  destruct (at_in r c rand rows cols SR R C) as (row & J & K). destruct (U _ _ J K) as [U1 U2].
  assert (0 <= at_ rand r c * sigma)%Qc by (apply Qcmul_nonneg; qcl).
  assert (at_ rand r c * sigma < 1 * sigma)%Qc by (apply Qcmult_lt_compat_r; auto).
  replace (at_ action r c + (at_ rand r c * sigma + mu) * 1 - at_ action r c)%Qc with (at_ rand r c * sigma + mu)%Qc by ring.
  split; qcl.
Qed.
Print Assumptions C84_refuted.
Definition ex_randn : tensor := [[q (-3) 2; q 1 4]; [q 2 1; q (-3) 4]].
Example C84_nonvacuous :
  (match add_normal 2 ex_action ex_rand ex_randn (Each [(q 0 1, q 2 1); (q 1 1, q 4 1)]) 1%Qc with
   | Ok t => map (map this) t | Err _ => [] end)
  = [[QArith_base.Qmake (-2) 1; QArith_base.Qmake 4 1]; [QArith_base.Qmake 7 1; QArith_base.Qmake 2 1]]%Z.
Proof. vm_compute. auto. Qed.

(* C85 *)
Fixpoint qpow (x : Qc) (n : nat) : Qc := match n with O => 1%Qc | S m => (x * qpow x m)%Qc end.
(* the noise entering one coordinate: sum over the draws, oldest first *)
Fixpoint decayed (k s : Qc) (zs : list Qc) : Qc :=
  match zs with [] => 0%Qc | z :: r => (qpow k (length r) * (s * z) + decayed k s r)%Qc end.
Fixpoint ou_calls (g : ou) (draws : list (list Qc)) : ou * list (list Qc) :=
  match draws with
  | [] => (g, [])
  | z :: r => let (g1, x) := ou_call g z in let (g2, xs) := ou_calls g1 r in (g2, x :: xs)
  end.
Definition start (g : ou) : list Qc := match x0 g with Some x => x | None => repeat 0%Qc (numel (shape g)) end.
Lemma qpow_snoc x n : (qpow x n * x = x * qpow x n)%Qc. Proof. ring. Qed.
Lemma ou_closed g n draws : length (x_prev g) = n -> (forall z, In z draws -> length z = n) ->
  let k := (1 - theta g * dt g)%Qc in
  length (x_prev (fst (ou_calls g draws))) = n /\
  forall i, i < n ->
  nth i (x_prev (fst (ou_calls g draws))) 0%Qc =
  (mu g + qpow k (length draws) * (nth i (x_prev g) 0%Qc - mu g) +
   decayed k (sigma g * sdt g) (map (fun z => nth i z 0%Qc) draws))%Qc.
Proof.
  intros L H k. revert g L k. induction draws as [|z draws IH]; intros g L k.
  - cbn. split; auto. intros. ring.
  - cbn [ou_calls]. destruct (ou_call g z) as [g1 x] eqn:E. destruct (ou_calls g1 draws) as [g2 xs] eqn:E2.
    assert (length z = n) as LZ by (apply H; cbn; auto).
    assert (length (x_prev g1) = n) as L1.
    { unfold ou_call in E. injection E as <- _. cbn. rewrite map_length, combine_length. lia. }
    assert (forall z0, In z0 draws -> length z0 = n) as H1 by (intros; apply H; cbn; auto).
    destruct (IH H1 g1 L1) as [A B]. rewrite E2 in A, B. cbn [fst] in *. split; [exact A|]. intros i I. rewrite B by auto.
    assert (mu g1 = mu g /\ sigma g1 = sigma g /\ theta g1 = theta g /\ dt g1 = dt g /\ sdt g1 = sdt g) as (-> & -> & -> & -> & ->).
    { unfold ou_call in E. injection E as <- _. cbn. auto. }
    fold k. cbn [map decayed length qpow]. rewrite map_length.
    assert (nth i (x_prev g1) 0%Qc = nth i (x_prev g) 0 + theta g * (mu g - nth i (x_prev g) 0) * dt g + sigma g * sdt g * nth i z 0)%Qc as ->.
    { unfold ou_call in E. injection E as <- _. cbn.
      set (f := fun p : Qc * Qc => (fst p + theta g * (mu g - fst p) * dt g + sigma g * sdt g * snd p)%Qc).
      rewrite (nth_indep _ 0%Qc (f (0%Qc, 0%Qc))) by (rewrite map_length, combine_length; lia).
      rewrite map_nth, nth_combine by lia. reflexivity. }
    unfold k. ring.
Qed.
Theorem C85_closed_form : forall g n draws i,
  length (start g) = n -> (forall z, In z draws -> length z = n) -> i < n -> draws <> [] ->
  let out := snd (ou_calls (ou_reset g) draws) in
  let k := (1 - theta g * dt g)%Qc in
  length out = length draws /\
  nth i (last out []) 0%Qc =
  (mu g + qpow k (length draws) * (nth i (start g) 0%Qc - mu g) +
   decayed k (sigma g * sdt g) (map (fun z => nth i z 0%Qc) draws))%Qc.
Proof.
  intros g n draws i L H I NE out k.
  assert (forall ds g, length (snd (ou_calls g ds)) = length ds) as LO.
  { clear. induction ds as [|z ds IH]; intros g; cbn [ou_calls]; [reflexivity|]. destruct (ou_call g z) as [g1 x].
    specialize (IH g1). destruct (ou_calls g1 ds). cbn in *. now rewrite IH. }
  assert (forall ds g, ds <> [] -> last (snd (ou_calls g ds)) [] = x_prev (fst (ou_calls g ds))) as LA.
  { clear -LO. induction ds as [|z ds IH]; intros g NE; [congruence|]. cbn [ou_calls].
    destruct (ou_call g z) as [g1 x] eqn:E. pose proof (LO ds g1) as LG. destruct ds as [|z' ds'].
    - cbn. unfold ou_call in E. injection E as <- <-. reflexivity.
    - specialize (IH g1). destruct (ou_calls g1 (z' :: ds')) as [g2 xs] eqn:E2. cbn [fst snd] in *.
      rewrite <- IH by discriminate. destruct xs; [discriminate LG|]. reflexivity. }
  split; [apply LO|]. unfold out. rewrite LA by auto. subst k.
  destruct (ou_closed (ou_reset g) n draws) as [_ B]; [exact L|exact H|exact (B i I)].
Qed.
Print Assumptions C85_closed_form.
(* a reset forgets the past *)
Theorem C85_reset : forall g draws, ou_reset (fst (ou_calls g draws)) = ou_reset g.
Proof.
  intros g draws. revert g. induction draws as [|z draws IH]; intros g; auto. cbn [ou_calls].
  destruct (ou_call g z) as [g1 x] eqn:E. specialize (IH g1). destruct (ou_calls g1 draws). cbn in *. rewrite IH.
  unfold ou_call in E. injection E as <- _. reflexivity.
Qed.
Print Assumptions C85_reset.
(* a new generator starts at the given value, whose shape is checked, or at zeros *)
Theorem C85_initial : forall m s th d sd sh x xs,
  (xs = sh -> ou_new m s th d sd sh (Some (x, xs)) = Ok (Build_ou m s th d sd sh (Some x) x)) /\
  (xs <> sh -> ou_new m s th d sd sh (Some (x, xs)) = Err EOther) /\
  ou_new m s th d sd sh None = Ok (Build_ou m s th d sd sh None (repeat 0%Qc (fold_right Nat.mul 1 sh))).
Proof.
  intros. unfold ou_new. destruct (list_eq_dec Nat.eq_dec xs sh); repeat split; intros; auto; contradiction.
Qed.
Print Assumptions C85_initial.
Example C85_nonvacuous :
  exists g, ou_new (q 1 1) (q 2 1) (q 1 1) (q 1 4) (q 1 2) [2] None = Ok g /\
  map (map this) (snd (ou_calls g [[q 1 1; q 0 1]; [q 0 1; q (-1) 1]])) =
  [[QArith_base.Qmake 5 4; QArith_base.Qmake 1 4]; [QArith_base.Qmake 19 16; QArith_base.Qmake (-9) 16]]%Z.
Proof. eexists. split; [reflexivity|]. vm_compute. auto. Qed.

(* C86 *)
Lemma bcast_rev_self s : bcast_rev s s = Some s.
Proof. induction s; cbn; auto. now rewrite IHs, Nat.eqb_refl. Qed.
Lemma bcast_self s : bcast s s = Some s.
Proof. unfold bcast. rewrite bcast_rev_self. cbn. now rewrite rev_involutive. Qed.
(* full claim: for every sequence of calls; missing: actions of different shapes without reset *)
Theorem C86_partial : forall gen action reset,
  reset = true \/ gen = None \/ gen = Some action ->
  ou_shape gen action true reset = (Some action, Ok action).
Proof.
  intros gen action reset H. unfold ou_shape. destruct reset; [now rewrite bcast_self|].
  destruct H as [H|[->| ->]]; [discriminate| |]; now rewrite bcast_self.
Qed.
Print Assumptions C86_partial.
(* a batch of another size: the result silently has the shape of the first action, or the call fails *)
Theorem C86_refuted : forall b n dims, 1 < b -> n <> b -> b <> 0 ->
  snd (ou_shape (Some (b :: dims)) (n :: dims) true false) = (if n =? 1 then Ok (b :: dims) else Err ERuntime).
Proof.
  intros b n dims B N Z. unfold ou_shape, bcast. cbn [snd rev].
  assert (forall l, bcast_rev (l ++ [n]) (l ++ [b]) = if n =? 1 then Some (l ++ [b]) else None) as ->.
  { induction l as [|x l IH]; cbn.
    - destruct (Nat.eqb_spec n b); [congruence|]. destruct (Nat.eqb_spec n 1); auto. destruct (Nat.eqb_spec b 1); [lia|auto].
    - rewrite IH. destruct (Nat.eqb_spec n 1); auto. now rewrite Nat.eqb_refl. }
  destruct (n =? 1); cbn; auto. now rewrite rev_app_distr, rev_involutive.
Qed.
Print Assumptions C86_refuted.
(* without parameters the first call fails *)
Theorem C86_default_refuted : forall gen action, ou_shape gen action false true = (None, Err EType).
Proof. reflexivity. Qed.
Print Assumptions C86_default_refuted.
Example C86_nonvacuous :
  ou_shape None [4; 2] true false = (Some [4; 2], Ok [4; 2]) /\
  ou_shape (Some [4; 2]) [1; 2] true false = (Some [4; 2], Ok [4; 2]) /\
  ou_shape (Some [4; 2]) [3; 2] true false = (Some [4; 2], Err ERuntime) /\
  ou_shape (Some [4; 2]) [3; 2] true true = (Some [3; 2], Ok [3; 2]).
Proof. repeat split. Qed.
