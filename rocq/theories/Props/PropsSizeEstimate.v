(* C181: the estimated size of a model *)
From Coq Require Import QArith Field.
Close Scope Q_scope.
From Verif Require Import Lib.Rat Model.SizeEstimate.
Open Scope nat_scope.
Set Implicit Arguments.

(* Specification: torch's element_size() and numel() *)
Definition element_size (d : dtype) : nat :=
  match d with
  | Int8 | UInt8 | TBool => 1
  | Int16 | Float16 | BFloat16 => 2
  | Int32 | Float32 | Complex32 => 4
  | Int64 | Float64 | Complex64 => 8
  | Complex128 => 16
  end.
Fixpoint numel (s : list nat) : nat := match s with [] => 1 | n :: r => n * numel r end.
Definition memory (ts : list tensor) : nat := list_sum (map (fun p => numel (fst p) * element_size (snd p)) ts).
Definition supported (d : dtype) : Prop := ~ In d [BFloat16; Complex32; Complex64; Complex128].
Definition all_of (P : dtype -> Prop) (ts : list tensor) : Prop := forall s d, In (s, d) ts -> P d.

Lemma prod_numel s : prod s = numel s.
Proof.
  unfold prod. assert (forall l a, fold_left Nat.mul l a = a * numel l) as ->; [|lia].
  induction l as [|x r IH]; intros a; cbn; [lia|]. rewrite IH. lia.
Qed.
(* bytes counted by the code *)
Definition counted (d : dtype) : nat := match d with Complex32 => 8 | _ => element_size d end.
Definition known (d : dtype) : Prop := ~ In d [BFloat16; Complex64; Complex128].
Lemma bytes_known d : known d -> dtype_bytes d = Ok (counted d).
Proof. unfold known. destruct d; cbn; intros H; try reflexivity; exfalso; tauto. Qed.
Lemma bytes_unknown d : ~ known d -> dtype_bytes d = Err EValue.
Proof. unfold known. destruct d; cbn; intros H; try reflexivity; exfalso; apply H; intuition discriminate. Qed.
Lemma known_dec d : known d \/ ~ known d.
Proof. unfold known. destruct d; cbn; intuition discriminate. Qed.
Definition counted_memory (ts : list tensor) : nat := list_sum (map (fun p => numel (fst p) * counted (snd p)) ts).
Lemma sizes_known ts : all_of known ts -> sizes ts = Ok (nq (counted_memory ts) / mega)%Qc.
Proof.
  intros A. unfold sizes.
  assert (exists a b, collect ts = Ok (a, b) /\ list_sum (times (map prod a) b) = counted_memory ts) as (a & b & -> & E).
  { induction ts as [|[s d] r IH]; cbn [collect].
    - exists [], []. auto.
    - destruct IH as (a & b & E & F); [intros s' d' I; apply (A s' d'); now right|].
      rewrite bytes_known by (apply (A s d); now left). rewrite E. cbn [bind fst snd].
      exists (s :: a), (counted d :: b). split; auto. unfold counted_memory, list_sum in *. cbn [map times fold_right fst snd].
      rewrite F, prod_numel. reflexivity. }
  cbn [bind fst snd]. now rewrite E.
Qed.
Lemma sizes_unknown ts : ~ all_of known ts -> sizes ts = Err EValue.
Proof.
  intros A. unfold sizes. enough (collect ts = Err EValue) as -> by reflexivity.
  induction ts as [|[s d] r IH]; [exfalso; apply A; intros s d []|]. cbn [collect].
  destruct (known_dec d) as [K|K].
  - rewrite bytes_known by auto. rewrite IH; [reflexivity|]. intros B. apply A. intros s' d' [E|I]; [congruence|eauto].
  - rewrite bytes_unknown by auto. reflexivity.
Qed.
Lemma all_dec ts : all_of known ts \/ ~ all_of known ts.
Proof.
  induction ts as [|[s d] r [IH|IH]].
  - left; intros s d [].
  - destruct (known_dec d) as [K|K]; [left; intros s' d' [E|I]; [congruence|eauto]|right; intros A; apply K, (A s d); now left].
  - right; intros A; apply IH; intros s' d' I; apply (A s' d'); now right.
Qed.
Lemma mega_neq : mega <> 0%Qc.
Proof. apply Qcpos_neq, nq_pos. apply Nat.mul_pos_pos; apply Nat.lt_0_succ. Qed.
Lemma estimate_known m ps bs : all_of known ps -> all_of known bs -> exists x, estimate_size m ps bs = Ok x /\
  (x * mega = m * nq (counted_memory ps + counted_memory bs))%Qc.
Proof.
  intros A B. unfold estimate_size. rewrite !sizes_known by auto. cbn [bind]. eexists. split; [reflexivity|].
  rewrite nq_add. field. apply mega_neq.
Qed.
Lemma counted_supported ts : all_of supported ts -> all_of known ts /\ counted_memory ts = memory ts.
Proof.
  intros A. split.
  - intros s d I K. apply (A s d I). cbn in *. tauto.
  - unfold counted_memory, memory. f_equal. apply map_ext_in. intros [s d] I. cbn. f_equal.
    specialize (A s d I). destruct d; auto. exfalso. apply A. cbn. auto.
Qed.

(* C181: in megabytes, the estimate is the multiplier times the memory of all parameters and buffers. *)
Theorem C181_partial : forall m ps bs, all_of supported ps -> all_of supported bs ->
  exists x, estimate_size m ps bs = Ok x /\ (x * nq (1024 * 1024) = m * nq (memory ps + memory bs))%Qc.
Proof.
  intros m ps bs A B. destruct (counted_supported A) as [A1 <-]. destruct (counted_supported B) as [B1 <-].
  now apply estimate_known.
Qed.
Print Assumptions C181_partial.
(* REFUTED: with any tensor of the types bfloat16, complex64 or complex128 there is no estimate *)
Theorem C181_types_refuted : forall m ps bs,
  estimate_size m ps bs = Err EValue <-> exists s d, In (s, d) (ps ++ bs) /\ In d [BFloat16; Complex64; Complex128].
Proof.
  assert (Ex : forall ts, ~ all_of known ts <-> exists s d, In (s, d) ts /\ In d [BFloat16; Complex64; Complex128]).
  { intros ts. split.
    - induction ts as [|[s d] r IH]; intros A; [exfalso; apply A; intros s d []|].
      destruct (known_dec d) as [K|K].
      + destruct IH as (s' & d' & I & J).
        { intros B. apply A. intros s' d' [E|I]; [congruence|eauto]. }
        exists s', d'. split; [now right|auto].
      + exists s, d. split; [now left|]. unfold known in K. destruct d; cbn in *; intuition discriminate.
    - intros (s & d & I & J) A. exact (A s d I J). }
  intros m ps bs. destruct (all_dec ps) as [A|A].
  - destruct (all_dec bs) as [B|B].
    + destruct (@estimate_known m ps bs A B) as (x & -> & _). split; [discriminate|].
      intros (s & d & I & J). apply in_app_or in I. destruct I as [I|I]; [destruct (A s d I J)|destruct (B s d I J)].
    + unfold estimate_size. rewrite sizes_known by auto. cbn [bind]. rewrite sizes_unknown by auto. split; auto. intros _.
      apply Ex in B. destruct B as (s & d & I & J). exists s, d. split; auto. apply in_or_app; now right.
  - unfold estimate_size. rewrite sizes_unknown by auto. split; auto. intros _.
    apply Ex in A. destruct A as (s & d & I & J). exists s, d. split; auto. apply in_or_app; now left.
Qed.
Print Assumptions C181_types_refuted.
(* REFUTED: a model of complex32 tensors is taken for twice as large as it is *)
Theorem C181_complex32_refuted : forall m ps bs, all_of (fun d => d = Complex32) ps -> all_of (fun d => d = Complex32) bs ->
  exists x, estimate_size m ps bs = Ok x /\ (x * nq (1024 * 1024) = (1 + 1) * (m * nq (memory ps + memory bs)))%Qc.
Proof.
  intros m ps bs A B.
  assert (D : forall ts, all_of (fun d => d = Complex32) ts -> all_of known ts /\ counted_memory ts = 2 * memory ts).
  { intros ts C. split; [intros s d I; rewrite (C s d I); unfold known; cbn; intuition discriminate|].
    induction ts as [|[s d] r IH]; [reflexivity|]. unfold counted_memory, memory in *. cbn [map list_sum fold_right].
    unfold list_sum in *. rewrite IH by (intros s' d' I; apply (C s' d'); now right).
    rewrite (C s d (or_introl eq_refl)). cbn [fst snd counted element_size]. lia. }
  destruct (D ps A) as [A1 A2]. destruct (D bs B) as [B1 B2]. destruct (@estimate_known m ps bs A1 B1) as (x & E & F).
  exists x. split; [exact E|]. transitivity (x * mega)%Qc; [reflexivity|]. rewrite F, A2, B2. replace (2 * memory ps + 2 * memory bs) with (2 * (memory ps + memory bs)) by lia.
  rewrite nq_mul. generalize (nq (memory ps + memory bs)). intros y.
  replace (nq 2) with (1 + 1)%Qc by (apply Qc_is_canon; reflexivity). ring.
Qed.
Print Assumptions C181_complex32_refuted.
(* nothing is counted for a model without tensors, a scalar counts once *)
Example C181_nonvacuous :
  match estimate_size (nq 2) [([1024; 256], Float32); ([], Float32)] [([0; 7], Int64); ([262144], TBool)] with
  | Ok x => this x = Qred (2621448 # 1048576) | Err _ => False end
  /\ estimate_size 1 [] [] = Ok 0%Qc /\ estimate_size 1 [([2], Float32)] [([2], BFloat16)] = Err EValue.
Proof. repeat split; vm_compute; reflexivity. Qed.
