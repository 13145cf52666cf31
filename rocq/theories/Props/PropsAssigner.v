(* C79, C80, C81: ModelAssigner, machin/parallel/assigner.py. *)
From Coq Require Import QArith.
From Verif Require Import Lib.Base Lib.Rat Model.Assigner.
Close Scope Q_scope.
Open Scope nat_scope.

Definition rows (n m : nat) (p : list (list num)) : Prop := length p = n /\ forall r, In r p -> length r = m.
Definition keeps_shape (descend : list (list num) -> list (list num)) : Prop :=
  forall n m p, rows n m p -> rows n m (descend p).
Definition in_range (argmax : list num -> nat) : Prop := forall r, r <> [] -> argmax r < length r.

Lemma rows_nan n m p : rows n m p -> rows n m (map (map (fun _ => NaN)) p).
Proof.
  intros [L H]. split; [now rewrite map_length|]. intros r I. apply in_map_iff in I as (x & <- & I). rewrite map_length. auto.
Qed.
Lemma rows_iter descend bad k n m p : keeps_shape descend -> rows n m p -> rows n m (Nat.iter k (optimize descend bad) p).
Proof.
  intros K R. induction k as [|k IH]; cbn; auto. unfold optimize at 1. destruct bad; [now apply rows_nan|now apply K].
Qed.
Lemma select_nonempty ds av : select ds av <> [].
Proof. unfold select. destruct ds as [l|]; [destruct (filter _ l)|destruct (map _ av)]; discriminate. Qed.
Lemma select_usable ds av d : In d (select ds av) ->
  d = Cpu \/ exists i, In i av /\ d = Cuda (Some i).
Proof.
  unfold select. intros H. destruct ds as [l|].
  - destruct (filter (usable av) l) as [|x r] eqn:E; [destruct H as [<-|[]]; auto|]. rewrite <- E in H.
    apply filter_In in H as [_ H]. destruct d as [|i]; auto. right. cbn in H. apply existsb_exists in H as (j & I & H).
    destruct i as [i|]; [|discriminate]. cbn in H. apply Nat.eqb_eq in H as ->. eauto.
  - destruct (map (fun i => Cuda (Some i)) av) as [|x r] eqn:E; [destruct H as [<-|[]]; auto|]. rewrite <- E in H.
    apply in_map_iff in H as (i & <- & I). eauto.
Qed.

(* C79: the CPU works, and the GPUs that are there, named with their number *)
Definition works (available : list nat) (d : device) : Prop := d = Cpu \/ exists i, In i available /\ d = Cuda (Some i).
Lemma usable_works av d : usable av d = true <-> works av d.
Proof.
  unfold works. destruct d as [|[i|]]; cbn.
  - split; auto.
  - rewrite existsb_exists. split.
    + intros (j & I & H). apply Nat.eqb_eq in H as ->. eauto.
    + intros [H|(j & I & H)]; [discriminate|]. injection H as <-. exists i. split; auto. apply Nat.eqb_refl.
  - split; [|intros [H|(j & _ & H)]; discriminate]. intros H. apply existsb_exists in H as (j & _ & H). discriminate.
Qed.
(* the devices models may be put on: those given that work, all GPUs if none is given, the CPU if that leaves none *)
Theorem C79_candidates : forall available d,
  (forall l, In d (select (Some l) available) <->
     (In d l /\ works available d) \/ (d = Cpu /\ forall x, In x l -> ~ works available x)) /\
  (In d (select None available) <-> (exists i, In i available /\ d = Cuda (Some i)) \/ (d = Cpu /\ available = [])).
Proof.
  intros av d. split.
  - intros l. unfold select. destruct (filter (usable av) l) as [|x r] eqn:F.
    + split.
      * intros [<-|[]]. right. split; auto. intros x Hx U. apply usable_works in U. assert (In x []) as [].
        rewrite <- F. apply filter_In. auto.
      * intros [[I W]|[-> _]]; [|cbn; auto]. apply usable_works in W. assert (In d []) as []. rewrite <- F. apply filter_In. auto.
    + rewrite <- F. split.
      * intros H. apply filter_In in H as [I U]. apply usable_works in U. auto.
      * intros [[I W]|[-> N]]; [apply filter_In; split; auto; now apply usable_works|]. exfalso.
        assert (H : In x (filter (usable av) l)) by (rewrite F; cbn; auto). apply filter_In in H as [I U].
        apply usable_works in U. eapply N; eauto.
  - unfold select. destruct av as [|a av]; cbn [map].
    + split; [intros [<-|[]]; auto|]. intros [(i & [] & _)|[-> _]]. cbn; auto.
    + change (Cuda (Some a) :: map (fun i => Cuda (Some i)) av) with (map (fun i => Cuda (Some i)) (a :: av)).
      rewrite in_map_iff. split; [intros (i & <- & I); eauto|]. intros [(i & I & ->)|[_ H]]; [eauto|discriminate].
Qed.
Print Assumptions C79_candidates.
(* the memory of the devices that is counted, and the errors when it cannot be read *)
Definition memory (cpu_free : Qc) (gpus : list Qc) (d : device) : option Qc :=
  match d with Cpu => Some cpu_free | Cuda (Some i) => nth_error gpus i | Cuda None => None end.
Theorem C79_memory : forall cpu_free gpus ratio ds,
  match capacities cpu_free gpus ratio ds with
  | Ok caps => length caps = length ds /\
      forall i d, nth_error ds i = Some d -> exists m, memory cpu_free gpus d = Some m /\ nth_error caps i = Some (m * ratio)%Qc
  | Err e => exists d, In d ds /\ memory cpu_free gpus d = None /\ e = (match d with Cuda None => EType | _ => EIndex end)
  end.
Proof.
  intros cf gpus ratio ds. induction ds as [|d ds IH]; cbn [capacities].
  - split; auto. intros [|i] d H; discriminate.
  - assert (C : match memory cf gpus d with
                | Some m => capacity cf gpus ratio d = Ok (m * ratio)%Qc
                | None => capacity cf gpus ratio d = Err (match d with Cuda None => EType | _ => EIndex end) end).
    { destruct d as [|[i|]]; cbn; auto. destruct (nth_error gpus i); auto. }
    destruct (memory cf gpus d) as [m|] eqn:M; rewrite C; cbn [bind].
    + destruct (capacities cf gpus ratio ds) as [caps|e]; cbn [bind].
      * destruct IH as [L H]. split; [cbn; congruence|]. intros [|i] x E; cbn in E; [injection E as <-; eauto|]. apply H; exact E.
      * destruct IH as (x & I & Hx & E). exists x. cbn; auto.
    + exists d. cbn; auto.
Qed.
Print Assumptions C79_memory.
Theorem C79_usable : forall descend argmax devices available cpu_free gpus ratio sizes conn power gg cg iterations p0 out,
  keeps_shape descend -> in_range argmax ->
  rows (length sizes) (length (select devices available)) p0 ->
  assign descend argmax devices available cpu_free gpus ratio sizes conn power gg cg iterations p0 = Ok out ->
  length out = length sizes /\
  forall d, In d out -> (d = Cpu \/ exists i, In i available /\ d = Cuda (Some i)) /\
    (forall l, devices = Some l -> In d l \/ (d = Cpu /\ forall x, In x l -> ~ works available x)).
Proof.
  intros descend argmax devices available cpu_free gpus ratio sizes conn power gg cg iterations p0 out K A R E.
  unfold assign in E. destruct (capacities _ _ _ _); [|discriminate]. cbn in E. destruct (Qcltb _ _); [discriminate|].
  injection E as <-. unfold assignment.
  pose proof (rows_iter descend (degenerate conn (distances gg cg (select devices available)) sizes (map power (select devices available)))
    iterations _ _ p0 K R) as [L H]. split; [now rewrite map_length|].
  intros d I. apply in_map_iff in I as (row & <- & I). specialize (H row I).
  assert (In (nth (argmax row) (select devices available) Cpu) (select devices available)) as J.
  { apply nth_In. rewrite <- H. apply A. intros ->. cbn in H. symmetry in H. apply length_zero_iff_nil in H.
    now apply select_nonempty in H. }
  split; [now apply (select_usable devices)|]. intros l0 ->. unfold select in *.
  destruct (filter (usable available) l0) as [|x r] eqn:F.
  - right. split; [destruct J as [J|[]]; auto|]. intros x Ix U. apply usable_works in U.
    assert (In x []) as []. rewrite <- F. apply filter_In. auto.
  - left. rewrite <- F in J at 2. apply filter_In in J as [J _]. exact J.
Qed.
Print Assumptions C79_usable.
Theorem C79_refuses : forall descend argmax devices available cpu_free gpus ratio sizes conn power gg cg iterations p0 caps,
  capacities cpu_free gpus ratio (select devices available) = Ok caps ->
  (assign descend argmax devices available cpu_free gpus ratio sizes conn power gg cg iterations p0 = Err ERuntime <->
   (qsum caps < qsum sizes)%Qc).
Proof.
  intros descend argmax devices available cpu_free gpus ratio sizes conn power gg cg iterations p0 caps E.
  unfold assign. rewrite E. cbn. destruct (Qcltb_spec (qsum caps) (qsum sizes)); split; auto; [discriminate|tauto].
Qed.
Print Assumptions C79_refuses.
Example C79_nonvacuous :
  select (Some [Cuda None; Cuda (Some 3); Cuda (Some 1); Cpu]) [1; 2] = [Cuda (Some 1); Cpu] /\
  select (Some [Cuda (Some 3)]) [1] = [Cpu] /\ select None [2; 0] = [Cuda (Some 2); Cuda (Some 0)] /\
  let q := fun n => Q2Qc (QArith_base.Qmake n 1) in
  assign (fun p => p) (fun r => match r with [Num a; Num b] => if Qcltb a b then 1 else 0 | _ => 0 end)
    None [0; 1] 0%Qc [q 8%Z; q 8%Z] (q 1%Z) [q 3%Z; q 4%Z] [q 1%Z] (fun _ => q 1%Z) (q 1%Z) (q 10%Z) 2
    [[Num (q 0%Z); Num (q 1%Z)]; [Num (q 1%Z); Num (q 0%Z)]] = Ok [Cuda (Some 1); Cuda (Some 0)].
Proof. vm_compute. repeat split. Qed.

(* C80: memory used on device d *)
Definition used (out : list device) (sizes : list Qc) (d : device) : Qc :=
  qsum (map snd (filter (fun p => device_eqb (fst p) d) (combine out sizes))).
Lemma device_eqb_refl d : device_eqb d d = true.
Proof. destruct d as [|[i|]]; cbn; auto. apply Nat.eqb_refl. Qed.

(* Only the total is guaranteed. Missing: each device, which is false. *)
Theorem C80_total_partial : forall descend argmax devices available cpu_free gpus ratio sizes conn power gg cg iterations p0 out caps,
  capacities cpu_free gpus ratio (select devices available) = Ok caps ->
  assign descend argmax devices available cpu_free gpus ratio sizes conn power gg cg iterations p0 = Ok out ->
  (qsum sizes <= qsum caps)%Qc.
Proof.
  intros descend argmax devices available cpu_free gpus ratio sizes conn power gg cg iterations p0 out caps E H.
  unfold assign in H. rewrite E in H. cbn in H. destruct (Qcltb_spec (qsum caps) (qsum sizes)); [discriminate|]. qcl.
Qed.
Print Assumptions C80_total_partial.
(* A model larger than every single device is accepted when the devices together are large enough, and overflows the device it
   is put on, whatever the optimizer does. *)
Theorem C80_large_model_refuted : forall descend argmax devices available cpu_free gpus ratio size conn power gg cg iterations p0 caps,
  keeps_shape descend -> rows 1 (length (select devices available)) p0 ->
  capacities cpu_free gpus ratio (select devices available) = Ok caps ->
  (forall c, In c caps -> (c < size)%Qc) -> (size <= qsum caps)%Qc ->
  exists d, assign descend argmax devices available cpu_free gpus ratio [size] conn power gg cg iterations p0 = Ok [d] /\
            used [d] [size] d = size.
Proof.
  intros descend argmax devices available cpu_free gpus ratio size conn power gg cg iterations p0 caps K R E S1 S2.
  unfold assign. rewrite E. cbn [bind qsum]. destruct (Qcltb_spec (qsum caps) (size + 0)) as [C|C].
  { exfalso. revert C. apply Qcle_not_lt. qcl. }
  pose proof (rows_iter descend (degenerate conn (distances gg cg (select devices available)) [size] (map power (select devices available)))
    iterations _ _ p0 K R) as [L H]. unfold assignment.
  destruct (Nat.iter _ _ _) as [|row [|? ?]]; cbn in L; try discriminate. eexists. split; [reflexivity|].
  unfold used. cbn. rewrite device_eqb_refl. cbn. qcl.
Qed.
Print Assumptions C80_large_model_refuted.
(* If the connections, the distances of the devices, the sizes of the models or the powers of the devices sum to zero,
   every placement entry becomes NaN and all models go to one device ... *)
Definition all_distances (gg cg : Qc) (ds : list device) : Qc :=
  sumn (fun i => sumn (fun j => distance gg cg ds i j) 0 (length ds)) 0 (length ds).
Lemma qsum_app2 a b : qsum (a ++ b) = (qsum a + qsum b)%Qc.
Proof. induction a; cbn; [ring|]. rewrite IHa. ring. Qed.
Lemma qsum_seq f a n : qsum (map f (seq a n)) = sumn f a n.
Proof. revert a. induction n; intros a; cbn; auto. now rewrite IHn. Qed.
Lemma qsum_distances gg cg ds : qsum (distances gg cg ds) = all_distances gg cg ds.
Proof.
  unfold distances, all_distances. generalize 0 at 2 4 as o. generalize (length ds) at 2 4 as n.
  induction n; intros o; cbn; auto. rewrite qsum_app2, IHn, qsum_seq. reflexivity.
Qed.
Definition no_scale (conn sizes powers : list Qc) (gg cg : Qc) (ds : list device) : Prop :=
  qsum conn = 0%Qc \/ all_distances gg cg ds = 0%Qc \/ qsum sizes = 0%Qc \/ qsum powers = 0%Qc.
Lemma degenerate_spec conn sizes powers gg cg ds :
  if degenerate conn (distances gg cg ds) sizes powers then no_scale conn sizes powers gg cg ds
  else ~ no_scale conn sizes powers gg cg ds.
Proof.
  unfold degenerate, zero_sum, no_scale. rewrite qsum_distances.
  destruct (Qc_eq_dec (qsum conn) 0), (Qc_eq_dec (all_distances gg cg ds) 0), (Qc_eq_dec (qsum sizes) 0),
    (Qc_eq_dec (qsum powers) 0); cbn; tauto.
Qed.
Theorem C80_degenerate_refuted : forall descend argmax devices available cpu_free gpus ratio sizes conn power gg cg iterations p0 out n,
  no_scale conn sizes (map power (select devices available)) gg cg (select devices available) ->
  rows n (length (select devices available)) p0 -> 0 < iterations ->
  assign descend argmax devices available cpu_free gpus ratio sizes conn power gg cg iterations p0 = Ok out ->
  exists d, out = repeat d n.
Proof.
  intros descend argmax devices available cpu_free gpus ratio sizes conn power gg cg iterations p0 out n Z R I E.
  unfold assign in E. destruct (capacities _ _ _ _); [|discriminate]. cbn [bind] in E. destruct (Qcltb _ _); [discriminate|].
  injection E as <-. unfold assignment.
  pose proof (degenerate_spec conn sizes (map power (select devices available)) gg cg (select devices available)) as D.
  destruct (degenerate _ _ _ _); [clear D Z|contradiction].
  destruct iterations as [|k]; [lia|]. cbn [Nat.iter nat_rect].
  assert (R' : rows n (length (select devices available)) (Nat.iter k (optimize descend true) p0)).
  { clear I. induction k; cbn; auto. now apply rows_nan. }
  unfold optimize at 1. set (p := Nat.iter k (optimize descend true) p0) in *.
  change (nat_rect (fun _ : nat => list (list num)) p0 (fun _ : nat => optimize descend true) k) with p.
  exists (nth (argmax (repeat NaN (length (select devices available)))) (select devices available) Cpu).
  destruct R' as [L H]. rewrite map_map. revert n R L. clearbody p. intros n _.
  revert n. induction p as [|r p IH]; intros n L; cbn in L; subst n; cbn; auto. f_equal.
  - f_equal. f_equal. rewrite <- (H r) by (cbn; auto). clear. induction r; cbn; f_equal; auto.
  - apply (IH (fun r' I' => H r' (or_intror I')) (length p)); auto.
Qed.
Print Assumptions C80_degenerate_refuted.
(* ... for example without connections (an empty model_connection) *)
Theorem C80_no_connection_refuted : forall descend argmax devices available cpu_free gpus ratio sizes power gg cg iterations p0 out n,
  rows n (length (select devices available)) p0 -> 0 < iterations ->
  assign descend argmax devices available cpu_free gpus ratio sizes [] power gg cg iterations p0 = Ok out ->
  exists d, out = repeat d n.
Proof.
  intros descend argmax devices available cpu_free gpus ratio sizes power gg cg iterations p0 out n R I E.
  eapply C80_degenerate_refuted; eauto. left. reflexivity.
Qed.
Print Assumptions C80_no_connection_refuted.
(* otherwise the placement is the one gradient descent finds *)
Theorem C80_descent_partial : forall descend argmax devices available cpu_free gpus ratio sizes conn power gg cg iterations p0 out,
  ~ no_scale conn sizes (map power (select devices available)) gg cg (select devices available) ->
  assign descend argmax devices available cpu_free gpus ratio sizes conn power gg cg iterations p0 = Ok out ->
  out = map (fun row => nth (argmax row) (select devices available) Cpu) (Nat.iter iterations descend p0).
Proof.
  intros descend argmax devices available cpu_free gpus ratio sizes conn power gg cg iterations p0 out Z E.
  unfold assign in E. destruct (capacities _ _ _ _); [|discriminate]. cbn [bind] in E. destruct (Qcltb _ _); [discriminate|].
  injection E as <-. unfold assignment.
  pose proof (degenerate_spec conn sizes (map power (select devices available)) gg cg (select devices available)) as D.
  destruct (degenerate _ _ _ _); [contradiction|]. reflexivity.
Qed.
Print Assumptions C80_descent_partial.
Example C80_nonvacuous :
  let q := fun n => Q2Qc (QArith_base.Qmake n 1) in
  let am := fun r : list num => match r with [Num a; Num b] => if Qcltb a b then 1 else 0 | _ => 0 end in
  (* one model of 12 MB on two devices of 8 MB *)
  assign (fun p => p) am None [0; 1] 0%Qc [q 8%Z; q 8%Z] (q 1%Z) [q 12%Z] [q 1%Z] (fun _ => q 1%Z) (q 1%Z) (q 10%Z) 2
    [[Num (q 0%Z); Num (q 1%Z)]] = Ok [Cuda (Some 1)] /\
  (* two models of 6 MB that would fit one by one *)
  assign (fun p => p) am None [0; 1] 0%Qc [q 8%Z; q 8%Z] (q 1%Z) [q 6%Z; q 6%Z] [] (fun _ => q 1%Z) (q 1%Z) (q 10%Z) 2
    [[Num (q 0%Z); Num (q 1%Z)]; [Num (q 1%Z); Num (q 0%Z)]] = Ok [Cuda (Some 0); Cuda (Some 0)].
Proof. vm_compute. repeat split. Qed.

(* C81 *)
Lemma device_eqb_sym a b : device_eqb a b = device_eqb b a.
Proof. destruct a as [|[i|]], b as [|[j|]]; cbn; auto. apply Nat.eqb_sym. Qed.
Theorem C81_distance : forall gg cg ds i j, i < length ds -> j < length ds ->
  distance gg cg ds i j = distance gg cg ds j i /\
  distance gg cg ds i i = 0%Qc /\
  (nth i ds Cpu = nth j ds Cpu -> distance gg cg ds i j = 0%Qc) /\
  (nth i ds Cpu = Cpu -> nth j ds Cpu <> Cpu -> distance gg cg ds i j = cg) /\
  (nth i ds Cpu <> Cpu -> nth j ds Cpu <> Cpu -> nth i ds Cpu <> nth j ds Cpu -> distance gg cg ds i j = gg).
Proof.
  intros gg cg ds i j Li Lj. unfold distance. rewrite Nat.eqb_refl, (Nat.eqb_sym j i), (Nat.max_comm j i), (Nat.min_comm j i).
  destruct (Nat.eqb_spec i j) as [->|N].
  - repeat split; auto; try congruence.
  - assert (D : (Nat.max i j = i /\ Nat.min i j = j) \/ (Nat.max i j = j /\ Nat.min i j = i)) by lia.
    destruct D as [[-> ->]|[-> ->]].
    + split; auto. split; auto. split; [|split].
      * intros ->. destruct (nth j ds Cpu); cbn [pair_distance]; auto. now rewrite device_eqb_refl.
      * intros ->. destruct (nth j ds Cpu); cbn; congruence.
      * intros A B C. destruct (nth i ds Cpu) as [|[a|]], (nth j ds Cpu) as [|[b|]]; cbn; try congruence.
        destruct (Nat.eqb_spec a b); congruence.
    + split; auto. split; auto. split; [|split].
      * intros ->. destruct (nth j ds Cpu); cbn [pair_distance]; auto. now rewrite device_eqb_refl.
      * intros ->. destruct (nth j ds Cpu); cbn; congruence.
      * intros A B C. destruct (nth i ds Cpu) as [|[a|]], (nth j ds Cpu) as [|[b|]]; cbn; try congruence.
        destruct (Nat.eqb_spec b a); congruence.
Qed.
Print Assumptions C81_distance.
Example C81_nonvacuous :
  let q := fun n => Q2Qc (QArith_base.Qmake n 1) in
  map this (distances (q 1%Z) (q 10%Z) [Cuda (Some 0); Cpu; Cuda (Some 1); Cpu]) =
  map (fun n => QArith_base.Qmake n 1) [0; 10; 1; 10; 10; 0; 10; 0; 1; 10; 0; 10; 10; 0; 10; 0]%Z.
Proof. reflexivity. Qed.
