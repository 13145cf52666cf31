(* C48, C60, C65: parameter space noise. *)
From Coq Require Import Field.
From Verif Require Import Lib.Base Lib.Rat Model.ParamNoise Spec.ParamNoiseSpec Proofs.ParamNoiseProofs.
Set Implicit Arguments.

(* ---------------- C48 ---------------- *)
(* As long as noise is regenerated and the optimizer runs only while the parameters are unperturbed
   ([careful]), every forward pass uses what it should: unperturbed parameters with the switch off,
   the noisy parameters generated last with the switch on. Missing for the full claim: histories that
   are not careful, where it is false. *)
Theorem C48_partial : forall (V : Type) (add : V -> V -> V) (dflt : V) vs es perturb reset noise,
  careful (length vs =? 1) false (es ++ [Forward perturb reset noise]) ->
  values dflt (ev_run add dflt (m_new vs) (es ++ [Forward perturb reset noise]))
    = must_use add vs es perturb reset noise.
Proof.
  intros V add dflt vs es perturb reset noise C.
  assert (S : (length vs =? 1) = true -> length (fst (vs, @None (list V))) = 1).
  { intros E. now apply Nat.eqb_eq in E. }
  assert (C0 : careful (length vs =? 1) false es).
  { revert C. generalize false. induction es as [|e es IH]; cbn [app]; intros b C; [exact I|].
    apply (proj1 (careful_cons add dflt _ _ _ _)) in C. destruct C as [A C]. apply (careful_cons add dflt). split; auto. }
  destruct (@run_inv V add dflt (length vs =? 1) es false (m_new vs) (vs, None) S) as (p & I & A & _); auto.
  { split; [apply R2_app_new|reflexivity]. }
  unfold ev_run. rewrite fold_left_app. cbn [fold_left].
  assert (S' : (length vs =? 1) = true -> length (fst (fold_left (spec_step add) es (vs, None))) = 1).
  { intros E. rewrite fold_spec_len. auto. }
  destruct (@step_inv V add dflt (length vs =? 1) p _ _ _ S' I (A _ C)) as [_ H].
  unfold must_use, spec_run. cbn zeta. destruct perturb; cbn [shown] in H.
  - cbn [ev_step] in *. rewrite H. reflexivity.
  - symmetry. exact H.
Qed.
Print Assumptions C48_partial.

(* Two perturbed passes in a row with the reset switch on: the pass with the switch off then uses the
   parameters with the first noise still added, for all parameters and noises. *)
Theorem C48_refuted : forall (V : Type) (add : V -> V -> V) (dflt : V) vs r n1 n2 r' n3,
  values dflt (ev_run add dflt (m_new vs) [Forward true r n1; Forward true true n2; Forward false r' n3])
    = add_all add 0 vs n1.
Proof.
  intros. cbn [ev_run fold_left ev_step]. rewrite first_pass.
  unfold pre_hook at 2. cbn [negb]. rewrite andb_false_r.
  unfold pre_hook. destruct vs as [|v vs]; [reflexivity|].
  cbn [org_params]. exact (twice add dflt (v :: vs) n1 n2 0).
Qed.
Print Assumptions C48_refuted.

Example C48_nonvacuous :
  (* noisy, clean, optimizer step, cached noisy, clean *)
  let run es := values 0%Z (ev_run Z.add 0%Z (m_new [10; 20]%Z) es) in
  let n := fun i => Z.of_nat (S i) in
  run [Forward true false n; Forward false false n; Step (fun _ => (-3)%Z); Forward true false n] = [11; 22]%Z
  /\ run [Forward true false n; Forward false false n; Step (fun _ => (-3)%Z); Forward true false n;
          Forward false false n] = [7; 17]%Z
  /\ run [Forward true false n; Forward true true n; Forward false false n] = [11; 22]%Z.
Proof. repeat split. Qed.

(* ---------------- C60 ---------------- *)
(* With one parameter the backward pass restores it, and a following optimizer step changes the
   unperturbed parameter. Missing: more than one parameter, where it is false. *)
Theorem C60_partial : forall (V : Type) (add : V -> V -> V) (dflt : V) v es g,
  careful true false es -> existsb (fun b => b) g = true ->
  values dflt (ev_run add dflt (m_new [v]) (es ++ [Backward g])) = fst (spec_run add [v] es)
  /\ forall d, values dflt (ev_run add dflt (m_new [v]) (es ++ [Backward g; Step d]))
               = [add (hd dflt (fst (spec_run add [v] es))) (d 0)].
Proof.
  intros V add dflt v es g C G.
  destruct (@run_inv V add dflt true es false (m_new [v]) ([v], None)) as (p & I & A & B); auto.
  { split; [apply R2_app_new|reflexivity]. }
  assert (L : length (fst (fold_left (spec_step add) es ([v], None))) = 1) by (rewrite fold_spec_len; reflexivity).
  specialize (B g eq_refl G).
  unfold ev_run, spec_run. rewrite fold_left_app. cbn [fold_left].
  destruct (@step_inv V add dflt true p _ _ (Backward g) (fun _ => L) I Logic.I) as [I1 _].
  rewrite B in I1. cbn [spec_step] in I1.
  set (s := fold_left (spec_step add) es ([v], None)) in *.
  set (m := ev_step add dflt (fold_left (ev_step add dflt) es (m_new [v])) (Backward g)) in *.
  assert (E : forall m' s', inv dflt false m' s' -> values dflt m' = fst s').
  { intros m' [b [w|]] H; cbn in H |- *; [now apply R3_values_org in H|]. destruct H as [H _]. now apply R2_values. }
  split; [now apply E|].
  intros d. rewrite fold_left_app. cbn [fold_left]. fold m.
  destruct (@step_inv V add dflt true false m s (Step d) (fun _ => L) I1 eq_refl) as [I2 _].
  apply E in I2. refine (eq_trans I2 _). cbn [spec_step fst].
  destruct (fst s) as [|b [|]]; cbn in L |- *; try discriminate. reflexivity.
Qed.
Print Assumptions C60_partial.

(* Several parameters: every parameter but the last one still carries the noise after the backward pass ... *)
Theorem C60_refuted : forall (V : Type) (add : V -> V -> V) (dflt : V) vs r n g,
  removelast (values dflt (ev_run add dflt (m_new vs) [Forward true r n; Backward g]))
    = removelast (add_all add 0 vs n).
Proof.
  intros. cbn [ev_run fold_left ev_step]. rewrite first_pass. unfold values.
  rewrite map_removelast, backward_removelast, <- map_removelast. f_equal. apply perturbed_new_values.
Qed.
Print Assumptions C60_refuted.
(* ... and the optimizer step on it is lost: the next clean pass restores the old values. *)
Theorem C60_update_lost : forall (V : Type) (add : V -> V -> V) (dflt : V) vs r n g d r' n',
  removelast (values dflt (ev_run add dflt (m_new vs) [Forward true r n; Backward g; Step d; Forward false r' n']))
    = removelast vs.
Proof.
  intros. cbn [ev_run fold_left ev_step]. rewrite first_pass.
  destruct vs as [|v [|w vs]].
  - cbn. induction g as [|[]]; cbn; auto.
  - cbn [removelast]. set (m := pre_hook _ _ _ _ _ _).
    assert (L : length m <= 1).
    { assert (A1 : forall (h : nat -> V) (m : module V), length (pre_hook add dflt false r' h m) = length m).
      { intros h x. unfold pre_hook. destruct (org_params x); rewrite ?map_length; auto. }
      assert (A2 : forall {A B} (f : nat -> A -> B) l i, length (mapi_ f i l) = length l).
      { intros A B f l. induction l; cbn; auto. }
      assert (A3 : forall (x : module V) f, length (on_last f x) = length x).
      { intros x f. induction x as [|p [|q x] IH]; auto. cbn in *. lia. }
      assert (A4 : forall (x : module V), length (backward g x) = length x).
      { unfold backward. induction g as [|b g IH]; cbn; intros x; auto. rewrite IH.
        destruct b; auto. unfold post_hook. destruct (org_params x); auto. }
      unfold m. rewrite A1, A2, A4. cbn. lia. }
    destruct m as [|a [|]]; cbn in *; auto; lia.
  - set (m1 := perturbed_new add (v :: w :: vs) n 0).
    set (m3 := mapi_ _ 0 (backward g m1)).
    assert (E : removelast m3 = removelast (mapi_ (fun i p => inplace add dflt p (d i)) 0 m1)).
    { unfold m3. rewrite !mapi_removelast, backward_removelast. reflexivity. }
    unfold pre_hook. replace (org_params m3) with true.
    + unfold values. rewrite !map_removelast, E, <- !map_removelast. f_equal.
      exact (lost add dflt (v :: w :: vs) n d 0).
    + symmetry. apply org_params_removelast. rewrite E. reflexivity.
Qed.
Print Assumptions C60_update_lost.
Example C60_nonvacuous :
  let run vs es := values 0%Z (ev_run Z.add 0%Z (m_new vs) es) in
  let n := fun i => Z.of_nat (S i) in
  run [10; 20]%Z [Forward true false n; Backward [true; true]] = [11; 20]%Z
  /\ run [10; 20]%Z [Forward true false n; Backward [true; true]; Step (fun _ => 5%Z); Forward false false n] = [10; 25]%Z
  /\ run [10]%Z [Forward true false n; Backward [true]; Step (fun _ => 5%Z)] = [15]%Z.
Proof. repeat split. Qed.

(* ---------------- C65 ---------------- *)
Section C65.
Local Open Scope Qc_scope.
(* One adaption: positive again, smaller if the noisy actions were too far away, larger otherwise. *)
Theorem C65_direction : forall desired coef d s, 1 < coef -> 0 < s ->
  0 < adapt desired coef d s
  /\ (desired < d -> adapt desired coef d s < s) /\ (d <= desired -> s < adapt desired coef d s).
Proof.
  intros desired coef d s Hc Hs. unfold adapt.
  assert (C0 : 0 < coef) by qcl.
  assert (H0 : 0 < / coef) by now apply Qcinv_pos.
  assert (P1 : 0 < s / coef) by (unfold Qcdiv; now apply Qcmul_pos).
  assert (E : s / coef * coef = s) by (field; now apply Qcpos_neq).
  assert (P2 : 0 < s * (coef - 1)) by (apply Qcmul_pos; qcl).
  assert (P3 : 0 < s / coef * (coef - 1)) by (apply Qcmul_pos; qcl).
  assert (E2 : s * (coef - 1) = s * coef - s) by ring.
  assert (E3 : s / coef * (coef - 1) = s / coef * coef - s / coef) by ring.
  destruct (Qcltb_spec desired d); repeat split; intros; qcl.
Qed.
Print Assumptions C65_direction.

(* Whatever the order of perturbed and unperturbed passes, the deviation stays positive. *)
Theorem C65_positive : forall (Act : Type) (dist : Act -> Act -> Qc) desired coef passes s0,
  1 < coef -> 0 < s0 ->
  0 < stddev (fold_left (adjust_hook dist desired coef) passes (AS None None s0)).
Proof.
  intros Act dist desired coef passes s0 Hc H0.
  assert (G : forall s, 0 < stddev s -> 0 < stddev (fold_left (adjust_hook dist desired coef) passes s)).
  { induction passes as [|[b a] ps IH]; cbn [fold_left]; intros s Hs; auto. apply IH.
    unfold adjust_hook. cbn [fst snd].
    destruct b; cbn [with_noise without_noise stddev].
    - destruct (without_noise s); cbn [stddev]; auto. now apply C65_direction.
    - destruct (with_noise s); cbn [stddev]; auto. now apply C65_direction. }
  now apply G.
Qed.
Print Assumptions C65_positive.
(* It is adapted once per change of the switch, by the distance of the latest perturbed and the latest
   unperturbed action. *)
Theorem C65_latest : forall (Act : Type) (dist : Act -> Act -> Qc) desired coef s0 l a b,
  let run ps := fold_left (adjust_hook dist desired coef) ps (AS None None s0) in
  run (map (pair true) (l ++ [a]) ++ [(false, b)]) = AS None None (adapt desired coef (dist a b) s0)
  /\ run (map (pair false) (l ++ [b]) ++ [(true, a)]) = AS None None (adapt desired coef (dist a b) s0).
Proof.
  intros Act dist desired coef s0 l a b run.
  assert (A : forall l x, fold_left (adjust_hook dist desired coef) (map (pair true) l) (AS x None s0)
                          = AS (match rev l with y :: _ => Some y | [] => x end) None s0).
  { intros m. induction m as [|y m IH] using rev_ind; intros x; auto.
    rewrite map_app, fold_left_app, IH, rev_unit. reflexivity. }
  assert (B : forall l x, fold_left (adjust_hook dist desired coef) (map (pair false) l) (AS None x s0)
                          = AS None (match rev l with y :: _ => Some y | [] => x end) s0).
  { intros m. induction m as [|y m IH] using rev_ind; intros x; auto.
    rewrite map_app, fold_left_app, IH, rev_unit. reflexivity. }
  unfold run. rewrite !fold_left_app, A, B, !rev_unit. split; reflexivity.
Qed.
Print Assumptions C65_latest.
Example C65_nonvacuous :
  let s := fold_left (adjust_hook (fun a b : Qc => a - b) (nq 2) (nq 3))
             [(true, nq 9); (true, nq 8); (false, nq 1); (true, nq 5); (false, nq 4)] (AS None None 1) in
  this (stddev s) = QArith_base.Qmake 1 1 /\ with_noise s = None
  /\ this (stddev (adjust_hook (fun a b : Qc => a - b) (nq 2) (nq 3) (AS (Some (nq 8)) None 1) (false, nq 1))) = QArith_base.Qmake 1 3.
Proof. repeat split; vm_compute; reflexivity. Qed.
End C65.
