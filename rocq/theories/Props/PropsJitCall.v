(* C166: the arguments of scripted MADDPG actors, maddpg.py 670-748. *)
From Verif Require Import Lib.Base Lib.Str Model.SafeCall Model.JitCall Spec.SafeCallSpec Props.PropsSafeCall.
Set Implicit Arguments.

Lemma index_of_nth k l : In k l -> nth_error l (index_of k l) = Some k.
Proof.
  induction l as [|a l IH]; intros I; [destruct I|]. cbn [index_of]. destruct (eqb_spec k a) as [->|N]; [reflexivity|].
  destruct I as [->|I]; [congruence|]. cbn. auto.
Qed.
Lemma index_of_inj k j l : In k l -> In j l -> index_of k l = index_of j l -> k = j.
Proof. intros I J E. apply index_of_nth in I. apply index_of_nth in J. congruence. Qed.
Lemma index_of_nodup l : NoDup l -> forall i k, nth_error l i = Some k -> index_of k l = i.
Proof.
  intros ND i k E. assert (I : In k l) by (eapply nth_error_In; eauto).
  apply (proj1 (NoDup_nth_error l) ND); [|rewrite index_of_nth; congruence].
  apply nth_error_Some. rewrite index_of_nth; congruence.
Qed.

Section J.
  Context {V : Type} (s : sig).
  Notation dicts := (list (list (string * V))).
  Lemma put_length (l : list (option V)) kv : length (put_arg s l kv) = length l.
  Proof. unfold put_arg. destruct (inb _ _); [apply upd_length|reflexivity]. Qed.
  Lemma puts_length na : forall (l : list (option V)), length (fold_left (put_arg s) na l) = length l.
  Proof. induction na as [|kv r IH]; intros l; cbn; [reflexivity|]. now rewrite IH, put_length. Qed.
  Lemma fill_length named : forall (l : list (option V)), length (fold_left (fun l na => fold_left (put_arg s) na l) named l) = length l.
  Proof. induction named as [|na r IH]; intros l; cbn; [reflexivity|]. now rewrite IH, puts_length. Qed.
  Lemma args_list_length (named : dicts) : length (args_list s named) = length (args s).
  Proof. unfold args_list. now rewrite fill_length, map_length. Qed.

  (* the slot of a parameter and the dictionary of safe_call change in the same way *)
  Definition slot (k : string) (l : list (option V)) : option V := nth (index_of k (args s)) l None.
  Lemma slot_put k (l : list (option V)) kv : In k (args s) -> length l = length (args s) ->
    slot k (put_arg s l kv) = (if eqb k (fst kv) then Some (snd kv) else slot k l).
  Proof.
    intros I L. unfold slot, put_arg. destruct kv as [k' v]. cbn [fst snd].
    assert (B : index_of k (args s) < length l) by (rewrite L; apply nth_error_Some; rewrite index_of_nth by auto; congruence).
    destruct (eqb_spec k k') as [<-|N].
    - destruct (inb k (args s)) eqn:E; [|apply inb_false in E; contradiction].
      erewrite nth_error_nth; [reflexivity|]. now apply upd_same.
    - destruct (inb k' (args s)) eqn:E; [|reflexivity]. apply inb_In in E.
      assert (D : index_of k' (args s) <> index_of k (args s)) by (intros X; apply N; symmetry; eapply index_of_inj; eauto).
      destruct (nth_error l (index_of k (args s))) as [x|] eqn:X; [|apply nth_error_None in X; lia].
      rewrite (nth_error_nth _ _ None X). apply nth_error_nth. now rewrite upd_other.
  Qed.
  Lemma slot_fill_one k na : In k (args s) -> forall (l : list (option V)) acc, length l = length (args s) ->
    slot k l = dget k acc -> slot k (fold_left (put_arg s) na l) = dget k (fill_one s acc na).
  Proof.
    intros I. induction na as [|[k' v] r IH]; intros l acc L E; [exact E|]. cbn. apply IH; [now rewrite put_length|].
    rewrite slot_put by auto. cbn [fst snd]. destruct (eqb_spec k k') as [<-|N].
    - assert (B : inb k (args s) = true) by now apply inb_In. rewrite B. cbn. now rewrite dget_dset_same.
    - destruct (_ || _)%bool; [rewrite dget_dset_other by auto|]; exact E.
  Qed.
  Lemma slot_dict k (named : dicts) : In k (args s) -> slot k (args_list s named) = dget k (args_dict s named).
  Proof.
    intros I. unfold args_list, args_dict.
    assert (G : forall (l : list (option V)) acc, length l = length (args s) -> slot k l = dget k acc ->
      slot k (fold_left (fun l na => fold_left (put_arg s) na l) named l) = dget k (fold_left (fill_one s) named acc)).
    { induction named as [|na r IH]; intros l acc L E; [exact E|]. cbn. apply IH; [now rewrite puts_length|]. now apply slot_fill_one. }
    apply G; [now rewrite map_length|]. unfold slot. cbn. generalize (index_of k (args s)). generalize (args s).
    induction l as [|a l IH]; intros [|n]; cbn; auto.
  Qed.
  Lemma not_filled_In k : forall names (l : list (option V)), length l = length names -> 
    In k (not_filled names l) <-> exists i, nth_error names i = Some k /\ nth_error l i = Some None.
  Proof.
    induction names as [|a r IH]; intros [|x l] L; try discriminate; cbn.
    - split; [intros []|intros ([|i] & E & _); discriminate].
    - injection L as L. destruct x as [v|].
      + rewrite IH by auto. split; [intros (i & E1 & E2); exists (S i); auto|intros ([|i] & E1 & E2); [discriminate|exists i; auto]].
      + cbn. rewrite IH by auto. split.
        * intros [->|(i & E1 & E2)]; [exists 0; auto|exists (S i); auto].
        * intros ([|i] & E1 & E2); [left; cbn in E1; congruence|right; exists i; auto].
  Qed.
  Lemma unfilled_slot k (named : dicts) : NoDup (args s) -> In k (not_filled (args s) (args_list s named)) <-> In k (args s) /\ dget k (args_dict s named) = None.
  Proof.
    intros ND. rewrite not_filled_In by apply args_list_length. split.
    - intros (i & E1 & E2). assert (I : In k (args s)) by (eapply nth_error_In; eauto). split; auto.
      rewrite <- slot_dict by auto. unfold slot. rewrite (index_of_nodup ND i E1). now rewrite (nth_error_nth _ _ None E2).
    - intros [I E]. exists (index_of k (args s)). split; [now apply index_of_nth|].
      rewrite <- slot_dict in E by auto. unfold slot in E.
      assert (B : index_of k (args s) < length (args_list s named)) by (rewrite args_list_length; apply nth_error_Some; rewrite index_of_nth by auto; congruence).
      rewrite (nth_error_nth' _ None B). now rewrite E.
  Qed.
  Lemma jit_required (named : dicts) : NoDup (args s) ->
    jit_args s named = (if forallb (fun k => dmem k (args_dict s named)) (required s) then Ok (args_list s named) else Err ERuntime).
  Proof.
    intros ND. unfold jit_args. destruct (existsb _ _) eqn:X; destruct (forallb _ _) eqn:F; auto; exfalso.
    - apply existsb_exists in X as (k & I & R). apply inb_In in R. apply unfilled_slot in I as [_ E]; auto.
      rewrite forallb_forall in F. specialize (F k R). unfold dmem in F. now rewrite E in F.
    - assert (N : ~ forall k, In k (required s) -> dmem k (args_dict s named) = true) by (rewrite <- forallb_forall; congruence).
      apply N. intros k R. unfold dmem. destruct (dget k (args_dict s named)) eqn:E; auto. exfalso.
      assert (Y : existsb (fun k => inb k (required s)) (not_filled (args s) (args_list s named)) = true); [|congruence].
      apply existsb_exists. exists k. split; [|now apply inb_In]. apply unfilled_slot; auto. split; auto.
      unfold required in R. apply filter_In in R. apply R.
  Qed.
End J.

(* Signatures without keyword-only parameters. A missing mandatory argument is reported. Otherwise every
   parameter with a value in the dictionaries gets the last one, keys which are no parameters are ignored,
   also with *args and **kwargs; and every other parameter gets None.
   Missing: parameters not given should keep their default value, and keyword-only parameters (below). *)
Theorem C166_partial : forall V s (named : list (list (string * V))),
  wf s -> Forall (fun d => NoDup (map fst d)) named -> kwonly s = [] ->
  ((exists k, mandatory s k /\ missing k named) -> jit_call s named = Err ERuntime) /\
  ((forall k, mandatory s k -> ~ missing k named) ->
     exists l, jit_call s named = Ok l /\ map fst l = pos s /\
       (forall k v, In (k, Some v) l <-> param s k /\ supplied k v named) /\
       (forall k, In (k, None) l <-> param s k /\ missing k named)).
Proof.
  intros V s named W F K. pose proof W as (ND & D & Inc).
  assert (EA : args s = pos s) by (unfold args; now rewrite K, app_nil_r).
  assert (NDA : NoDup (args s)) by (unfold args; exact ND).
  assert (RQ : forall k, In k (required s) <-> mandatory s k) by (intros; apply required_spec; auto).
  assert (TK : forall k, In k (args s) -> takes s k = true) by (intros; now apply params_taken).
  unfold jit_call. rewrite jit_required by auto.
  destruct (forallb _ _) eqn:E.
  - rewrite forallb_forall in E. split.
    + intros (k & M & Ms). exfalso. assert (R := proj2 (RQ k) M). specialize (E k R).
      apply (mem_supplied s named k F (TK k (mandatory_param s k M))) in E. contradiction.
    + intros _. cbn [bind]. rewrite args_list_length, EA, Nat.ltb_irrefl. cbn [andb]. eexists. split; [reflexivity|].
      assert (L : length (pos s) = length (args_list s named)) by (now rewrite args_list_length, EA).
      assert (MF : map fst (combine (pos s) (args_list s named)) = pos s).
      { revert L. generalize (args_list s named) (pos s). intros l p. revert l. induction p as [|a p IH]; intros [|x l] L; try discriminate; cbn; auto. injection L as L. now rewrite IH. }
      split; [exact MF|].
      assert (P : forall k, param s k <-> In k (args s)) by (intros; unfold param, args; now rewrite in_app_iff).
      assert (IC : forall k x, In (k, x) (combine (pos s) (args_list s named)) <-> In k (args s) /\ dget k (args_dict s named) = x).
      { intros k x. split.
        - intros I. assert (Ik : In k (args s)) by (rewrite EA; eapply in_combine_l; eauto). split; auto.
          apply In_nth_error in I as (i & EI).
          assert (E1 : nth_error (pos s) i = Some k) by (rewrite <- MF; now rewrite nth_error_map, EI).
          assert (E2 : nth_error (args_list s named) i = Some x).
          { clear - EI. revert EI. generalize (args_list s named) (pos s). intros l p. revert l i. induction p as [|a p IH]; intros [|y l] [|i] EI; try discriminate; cbn in *; [congruence|eauto]. }
          rewrite <- slot_dict by auto. unfold slot. rewrite EA. rewrite EA in NDA. rewrite (index_of_nodup NDA i E1). now rewrite (nth_error_nth _ _ None E2).
        - intros [Ik <-]. rewrite <- slot_dict by auto. unfold slot.
          pose proof (index_of_nth _ _ Ik) as E1. rewrite EA in E1. rewrite EA. 
          revert E1 L. generalize (index_of k (pos s)). generalize (args_list s named). generalize (pos s). intros p l n. revert n l.
          induction p as [|a p IH]; intros [|n] [|y l] E1 L; try discriminate; cbn [nth_error nth combine length In] in *; [left; injection E1 as ->; reflexivity|right; apply IH; auto]. }
      split.
      * intros k v. rewrite IC, P. split; intros [I H]; (split; [exact I|]); [apply args_dict_spec in H; tauto|apply args_dict_spec; auto].
      * intros k. rewrite IC, P. split; intros [I H]; (split; [exact I|]).
        -- destruct (mem_supplied s named k F (TK k I)) as [_ MS]. unfold dmem in MS. rewrite H in MS.
           clear -MS F. intros d v Id Hd. assert (X : false = true); [|discriminate]. apply MS. intros M. exact (M d v Id Hd).
        -- destruct (dget k (args_dict s named)) eqn:G; auto. exfalso.
           destruct (mem_supplied s named k F (TK k I)) as [MS _]. unfold dmem in MS. rewrite G in MS. now apply MS.
  - split; [reflexivity|]. intros H. exfalso.
    assert (N : ~ forall k, In k (required s) -> dmem k (args_dict s named) = true) by (rewrite <- forallb_forall; congruence).
    apply N. intros k R. apply (proj2 (mem_supplied s named k F (TK k (mandatory_param s k (proj1 (RQ k) R))))). apply H. now apply RQ.
Qed.
Print Assumptions C166_partial.

(* A parameter with a default value which is in no dictionary is passed None, in every such call;
   safe_call (C47) leaves it out, so that it keeps its default. *)
Theorem C166_default_refuted : forall V s (named : list (list (string * V))) k,
  wf s -> Forall (fun d => NoDup (map fst d)) named -> kwonly s = [] -> (varargs s = true -> varkw s = true) ->
  (forall k, mandatory s k -> ~ missing k named) ->
  param s k -> ~ mandatory s k -> missing k named ->
  (exists l, jit_call s named = Ok l /\ In (k, None) l) /\
  exists d, safe_call s named = Ok d /\ dget k d = None.
Proof.
  intros V s named k W F K Vk M P NM Ms. split.
  - destruct (proj2 (C166_partial W F K) M) as (l & E & _ & _ & N). exists l. split; auto. apply N. auto.
  - destruct (proj2 (C47_partial V s named W F (or_introl K) Vk) M) as (d & E & H & _). exists d. split; auto.
    destruct (dget k d) as [v|] eqn:G; auto. exfalso. apply (H k v (or_introl P)) in G.
    clear -G Ms. induction G as [d ds Hd _|d ds _ IH]; [apply (Ms d v); [left; auto|auto]|]. apply IH. intros d' v' I. apply Ms. right; auto.
Qed.
Print Assumptions C166_default_refuted.

(* A keyword-only parameter makes every call fail (or, with *args, lands there), although all arguments
   are in the dictionaries and safe_call accepts them. *)
Theorem C166_kwonly_refuted : forall V s (named : list (list (string * V))),
  wf s -> kwonly s <> [] ->
  (varargs s = false -> exists e, jit_call s named = Err e /\ (e = EType \/ e = ERuntime)) /\
  (varargs s = false -> Forall (fun d => NoDup (map fst d)) named -> (forall k, In k (pos s ++ kwonly s) -> ~ missing k named) ->
     jit_call s named = Err EType) /\
  (forall l k, jit_call s named = Ok l -> In k (kwonly s) -> ~ In k (map fst l)).
Proof.
  intros V s named (ND & D & Inc) K. split; [|split].
  - intros Va. unfold jit_call, jit_args. destruct (existsb _ _); cbn [bind]; [eauto|].
    rewrite args_list_length, Va. assert (H : (length (pos s) <? length (args s)) = true).
    { apply Nat.ltb_lt. unfold args. rewrite app_length. destruct (kwonly s); [congruence|cbn; lia]. }
    rewrite H. cbn. eauto.
  - intros Va F M. assert (W : wf s) by (repeat split; auto). unfold jit_call. rewrite jit_required by (unfold args; exact ND).
    replace (forallb _ _) with true.
    + cbn [bind]. rewrite args_list_length, Va. replace (length (pos s) <? length (args s)) with true; [reflexivity|].
      symmetry. apply Nat.ltb_lt. unfold args. rewrite app_length. destruct (kwonly s); [congruence|cbn; lia].
    + symmetry. apply forallb_forall. intros k R. assert (Mk : In k (args s)) by (unfold required in R; apply filter_In in R; tauto).
      apply (proj2 (mem_supplied s named k F (params_taken s k Mk))). now apply M.
  - intros l k E I J. unfold jit_call, jit_args in E. destruct (existsb _ _); cbn [bind] in E; [discriminate|].
    destruct (_ && _)%bool; [discriminate|]. injection E as <-. apply in_map_iff in J as ([a b] & Ea & J). cbn in Ea. subst a.
    apply in_combine_l in J. clear -ND I J. induction (pos s) as [|a p IH]; [destruct J|]. cbn in ND. inversion ND; subst.
    destruct J as [->|J]; [apply H1, in_or_app; auto|auto].
Qed.
Print Assumptions C166_kwonly_refuted.

(* forward(self, state, mask=...): with only a state stored, mask is None *)
Example C166_nonvacuous :
  let s := Sig ["state"; "mask"]%string 1 false [] [] false in
  jit_call s [[("state"%string, 1); ("other"%string, 2)]; [("state"%string, 3)]] = Ok [("state"%string, Some 3); ("mask"%string, None)] /\
  safe_call s [[("state"%string, 1); ("other"%string, 2)]; [("state"%string, 3)]] = Ok [("state"%string, 3)] /\
  jit_call s [[("mask"%string, 1)]] = Err ERuntime /\
  jit_call (Sig ["state"%string] 0 false ["mask"%string] [] false) [[("state"%string, 1); ("mask"%string, 2)]] = Err EType /\
  safe_call (Sig ["state"%string] 0 false ["mask"%string] [] false) [[("state"%string, 1); ("mask"%string, 2)]] = Ok [("state"%string, 1); ("mask"%string, 2)].
Proof. repeat split. Qed.
