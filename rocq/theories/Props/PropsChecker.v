(* C87, C88, C89, C90: check_model, machin/utils/checker.py. *)
From Coq Require Import Ascii.
From Coq Require String.
From Verif Require Import Lib.Base Lib.Str Model.Checker.

(* What the documentation promises: leaf modules, and modules marked as atoms instead of their
   descendants. *)
Section Spec.
  Context {T : Type}.
  Fixpoint wanted (prefix : name) (m : modul T) : list (name * modul T) :=
    match m with
    | Mod a p cs =>
        if (a || match cs with [] => true | _ => false end)%bool then [(prefix, m)]
        else flat_map (fun c => wanted (match prefix with [] => fst c | _ => prefix ++ "."%char :: fst c end) (snd c)) cs
    end.
End Spec.
(* no name is an initial segment of a later one *)
Fixpoint clear_names (l : list name) : Prop :=
  match l with
  | [] => True
  | n :: r => (forall x, In x r -> ~ exists t, x = n ++ t) /\ clear_names r
  end.

Lemma starts_app p s : starts p s = true <-> exists t, s = p ++ t.
Proof.
  revert s. induction p as [|a p IH]; intros s; cbn; [split; eauto|]. destruct s as [|b s].
  - split; [discriminate|]. intros (t & E). discriminate.
  - rewrite andb_true_iff, Ascii.eqb_eq, IH. split.
    + intros [-> (t & ->)]. eauto.
    + intros (t & E). injection E as -> ->. eauto.
Qed.
Section Proofs.
  Context {T : Type}.
  Implicit Types (m : modul T) (l : list (name * modul T)).
  Fixpoint tree_ind (P : modul T -> Prop)
    (H : forall a p cs, (forall c, In c cs -> P (snd c)) -> P (Mod a p cs)) m : P m :=
    match m with
    | Mod a p cs => H a p cs ((fix go (l : list (name * modul T)) : forall c, In c l -> P (snd c) :=
        match l with
        | [] => fun c i => match i with end
        | x :: r => fun c i => match i with
                               | or_introl e => match e in _ = y return P (snd y) with eq_refl => tree_ind P H (snd x) end
                               | or_intror i => go r c i
                               end
        end) cs)
    end.
  Lemma select_app k l1 l2 :
    select k (l1 ++ l2) = select k l1 ++ select (k ++ map fst (select k l1)) l2.
  Proof.
    revert k. induction l1 as [|[n m] l1 IH]; intros k; cbn; [now rewrite app_nil_r|].
    destruct (_ && _)%bool; auto. destruct (existsb _ _); auto. cbn. rewrite IH. now rewrite <- app_assoc.
  Qed.
  Lemma join_starts p x : exists t, join p x = p ++ t.
  Proof. unfold join. destruct p; [exists x|eexists]; reflexivity. Qed.
  Lemma named_starts m : forall p n x, In (n, x) (named p m) -> exists t, n = p ++ t.
  Proof.
    induction m as [a ps cs IH] using tree_ind. intros p n x I. cbn in I. destruct I as [I|I].
    - injection I as <- _. exists []. now rewrite app_nil_r.
    - apply in_flat_map in I as ([cn c] & J & I). destruct (IH _ J _ _ _ I) as (t & ->). cbn.
      destruct (join_starts p cn) as (t' & ->). exists (t' ++ t). now rewrite app_assoc.
  Qed.
  Lemma select_none k l : (forall n m, In (n, m) l -> exists p, In p k /\ exists t, n = p ++ t) -> select k l = [].
  Proof.
    revert k. induction l as [|[n m] l IH]; intros k H; cbn; auto. destruct (_ && _)%bool; [apply IH; intros; apply (H n0 m0); cbn; auto|].
    replace (existsb (fun k0 => starts k0 n) k) with true; [apply IH; intros; apply (H n0 m0); cbn; auto|].
    symmetry. apply existsb_exists. destruct (H n m) as (p & I & E); [cbn; auto|]. exists p. split; auto. now apply starts_app.
  Qed.
  Lemma clear_app u1 u2 : clear_names (u1 ++ u2) <->
    clear_names u1 /\ clear_names u2 /\ forall x y, In x u1 -> In y u2 -> ~ exists t, y = x ++ t.
  Proof.
    induction u1 as [|a u1 IH]; cbn.
    - split; [intros H; repeat split; auto; intros ? ? []|tauto].
    - rewrite IH. split.
      + intros (H1 & H2 & H3 & H4). repeat split; auto.
        * intros x I. apply H1. apply in_or_app. auto.
        * intros x y [<-|I] J; auto. apply H1, in_or_app. auto.
      + intros ((H1 & H2) & H3 & H4). repeat split; auto.
        intros x I. apply in_app_or in I as [I|I]; auto.
  Qed.
  Lemma select_wanted m : forall p k,
    (forall x y, In x k -> In y (map fst (wanted p m)) -> ~ exists t, y = x ++ t) ->
    clear_names (map fst (wanted p m)) ->
    select k (named p m) = wanted p m.
  Proof.
    induction m as [a ps cs IH] using tree_ind. intros p k D C.
    cbn [named wanted] in *. destruct (a || match cs with [] => true | _ => false end)%bool eqn:W.
    - cbn [select]. replace (has_children (Mod a ps cs) && negb (is_atom (Mod a ps cs)))%bool with false
        by (destruct a, cs; cbn in *; auto; discriminate).
      replace (existsb (fun k0 => starts k0 p) k) with false.
      + f_equal. apply select_none. intros n m I. exists p. split; [apply in_or_app; cbn; auto|].
        apply in_flat_map in I as ([cn c] & J & I). apply named_starts in I as (t & ->).
        destruct (join_starts p cn) as (t' & E). cbn. rewrite E. exists (t' ++ t). now rewrite app_assoc.
      + symmetry. destruct (existsb _ _) eqn:E; auto. apply existsb_exists in E as (x & I & E). apply starts_app in E.
        destruct (D x p I); cbn; auto.
    - cbn [select]. replace (has_children (Mod a ps cs) && negb (is_atom (Mod a ps cs)))%bool with true
        by (destruct a, cs; cbn in *; auto; discriminate).
      clear W. revert k D C. induction cs as [|[cn c] cs IHc]; intros k D C; auto. cbn [flat_map] in *.
      rewrite map_app in C, D. apply clear_app in C as (C1 & C2 & C3).
      change (match p with [] => fst (cn, c) | _ => p ++ "."%char :: fst (cn, c) end) with (join p cn) in *.
      rewrite select_app. cbn [fst snd] in *.
      assert (select k (named (join p cn) c) = wanted (join p cn) c) as E.
      { apply (IH (cn, c)); cbn; auto. intros x y I J. apply D; auto. apply in_or_app. auto. }
      rewrite E. f_equal. apply IHc; auto.
      + intros c' I. apply IH. cbn. auto.
      + intros x y I J. apply in_app_or in I as [I|I]; [|now apply C3]. apply D; auto. apply in_or_app. auto.
  Qed.
End Proofs.

(* C87; full claim: without the hypothesis on names *)
Theorem C87_partial : forall (T : Type) (nm : name) (model : modul T),
  clear_names (map fst (wanted nm model)) -> check_model nm model = wanted nm model.
Proof. intros. apply select_wanted; auto. Qed.
Print Assumptions C87_partial.
(* whatever is checked ought to be *)
Lemma select_sound {T} (l : list (name * modul T)) : forall k n m, In (n, m) (select k l) ->
  In (n, m) l /\ (is_atom m = true \/ has_children m = false) /\ forall x, In x k -> ~ exists t, n = x ++ t.
Proof.
  induction l as [|[n0 m0] l IH]; intros k n m I; cbn in I; [destruct I|].
  destruct (has_children m0 && negb (is_atom m0))%bool eqn:W; [apply IH in I; cbn; tauto|].
  destruct (existsb (fun k0 => starts k0 n0) k) eqn:E; [apply IH in I; cbn; tauto|].
  destruct I as [I|I].
  - injection I as <- <-. split; [cbn; auto|]. split; [destruct (has_children m0), (is_atom m0); auto; discriminate|].
    intros x J S. apply starts_app in S. assert (existsb (fun k0 => starts k0 n0) k = true); [|congruence].
    apply existsb_exists. eauto.
  - apply IH in I as (A & B & C). split; [cbn; auto|]. split; auto. intros x J. apply C. apply in_or_app. auto.
Qed.
(* a module is not checked if the name of an earlier checked one is an initial segment of its name:
   layer "fc1" hides "fc10" *)
Theorem C87_refuted : forall (T : Type) nm a b (p1 p2 : list (name * T)) ps,
  let model := Mod false ps [(a, Mod false p1 []); (a ++ b, Mod false p2 [])] in
  b <> [] ->
  In (join nm (a ++ b), Mod false p2 []) (wanted nm model) /\
  forall m, ~ In (join nm (a ++ b), m) (check_model nm model).
Proof.
  intros T nm a b p1 p2 ps model NB. split.
  - cbn. right. left. reflexivity.
  - intros m I. unfold check_model, model in I. cbn in I.
    replace (starts (join nm a) (join nm (a ++ b))) with true in I.
    2:{ symmetry. apply starts_app. exists b. unfold join. destruct nm; auto. rewrite <- app_assoc. reflexivity. }
    cbn in I. destruct I as [I|[]]. injection I as I _.
    assert (length (join nm a) = length (join nm (a ++ b))) as L by now rewrite I.
    unfold join in L. destruct b; [congruence|]. destruct nm; repeat (rewrite ?app_length in L; cbn in L); lia.
Qed.
Print Assumptions C87_refuted.
Definition nm (s : string) : name := String.list_ascii_of_string s.
Definition ex_model : modul nat :=
  Mod false [] [(nm "enc"%string, Mod true [] [(nm "lin"%string, Mod false [(nm "w"%string, 1); (nm "b"%string, 2)] [])]);
                (nm "body"%string, Mod false [] [(nm "0"%string, Mod false [] []); (nm "1"%string, Mod false [(nm "w"%string, 3)] [])])].
Example C87_nonvacuous :
  map fst (check_model [] ex_model) = [nm "enc"%string; nm "body.0"%string; nm "body.1"%string] /\
  map fst (check_model [] (Mod false [] [(nm "fc1"%string, Mod false [(nm "w"%string, 1)] []); (nm "fc10"%string, Mod false [(nm "w"%string, 2)] [])]))
    = [nm "fc1"%string].
Proof. split; reflexivity. Qed.

(* C88; full claim: every parameter *)
Theorem C88_partial : forall (T : Type) (n : name) (x : T),
  param_calls [(n, x)] = [(n, x)] /\ param_calls (T := T) [] = [].
Proof. split; reflexivity. Qed.
Print Assumptions C88_partial.
(* only the last parameter is ever checked, once for each parameter *)
Theorem C88_refuted : forall (T : Type) (ps : list (name * T)) last,
  param_calls (ps ++ [last]) = repeat last (S (length ps)) /\
  forall p, In p ps -> p <> last -> ~ In p (param_calls (ps ++ [last])).
Proof.
  intros T ps last. assert (param_calls (ps ++ [last]) = repeat last (S (length ps))) as E.
  { unfold param_calls. rewrite rev_app_distr. cbn [rev app]. clear.
    replace (S (length ps)) with (length (ps ++ [last])) by (rewrite app_length; cbn; lia).
    generalize (ps ++ [last]). clear. intros l. induction l; cbn; f_equal; auto. }
  split; auto. intros p I N J. rewrite E in J. apply repeat_spec in J. congruence.
Qed.
Print Assumptions C88_refuted.
Example C88_nonvacuous :
  param_calls [(nm "weight"%string, 1); (nm "bias"%string, 2)] = [(nm "bias"%string, 2); (nm "bias"%string, 2)].
Proof. reflexivity. Qed.

(* C89: the entries of the values given to the hooks *)
Definition entries {R} (v : value R) : list R := match v with Tensor rows => rows | Row r => [r] end.
Definition all_entries {R} (o : output R) : list R :=
  match o with OTuple vs => flat_map entries vs | OTensor rows => rows end.
(* full claim: for every output; missing: tensors *)
Theorem C89_partial : forall (R : Type) str names (vs : list (value R)) r,
  (forall ns, names = Some ns -> length vs <= length ns) ->
  In r (all_entries (OTuple vs)) -> exists n v, In (n, v) (output_calls str names (OTuple vs)) /\ In r (entries v).
Proof.
  intros R str names vs r L I. cbn in I. apply in_flat_map in I as (v & J & I).
  unfold output_calls. set (ns := match names with Some ns => ns | None => _ end).
  assert (length vs <= length ns) as LE by (unfold ns; destruct names; [now apply L|rewrite map_length, seq_length; auto]).
  clearbody ns. clear L. revert ns LE J. induction vs as [|x vs IH]; intros ns LE J; [destruct J|].
  destruct ns as [|n ns]; [cbn in LE; lia|]. destruct J as [->|J].
  - exists n, v. cbn. auto.
  - destruct (IH ns) as (n' & v' & A & B); auto; [cbn in LE; lia|]. exists n', v'. cbn. auto.
Qed.
Print Assumptions C89_partial.
(* the hooks get the values in their order, each under its own name: the name given, by default its number *)
Theorem C89_names_partial : forall (R : Type) str names (vs : list (value R)) i v,
  nth_error vs i = Some v -> (forall ns, names = Some ns -> i < length ns) ->
  exists n, nth_error (output_calls str names (OTuple vs)) i = Some (n, v) /\
    (names = None -> n = str i) /\ (forall ns, names = Some ns -> nth_error ns i = Some n).
Proof.
  intros R str names vs i v E L. unfold output_calls.
  assert (C : forall (ns : list name) (vs : list (value R)) i n v, nth_error ns i = Some n -> nth_error vs i = Some v ->
     nth_error (combine ns vs) i = Some (n, v)).
  { clear. induction ns as [|a ns IH]; intros [|b vs] [|i] n v A B; try discriminate; cbn in *; [congruence|auto]. }
  destruct names as [ns|].
  - specialize (L ns eq_refl). destruct (nth_error ns i) as [n|] eqn:N; [|apply nth_error_None in N; lia].
    exists n. split; [now apply C|]. split; [discriminate|]. intros ns' [= <-]. exact N.
  - exists (str i). split; [|split; [reflexivity|discriminate]]. apply C; auto.
    assert (i < length vs) by (apply nth_error_Some; congruence).
    rewrite nth_error_map, nth_error_nth' with (d := 0) by now rewrite seq_length. now rewrite seq_nth.
Qed.
Print Assumptions C89_names_partial.
(* of a tensor only the first row is looked at *)
Theorem C89_refuted : forall (R : Type) str (row : R) rows,
  output_calls str None (OTensor (row :: rows)) = [(str 0, Row row)].
Proof. reflexivity. Qed.
Print Assumptions C89_refuted.
(* with names for a module with one tensor: the names are given to its first rows *)
Theorem C89_names_refuted : forall (R : Type) str ns (rows : list R) n v,
  In (n, v) (output_calls str (Some ns) (OTensor rows)) -> exists r, v = Row r /\ In r (firstn (length ns) rows).
Proof.
  intros R str ns rows n v I. cbn in I. revert rows I. induction ns as [|a ns IH]; intros rows I; [destruct I|].
  destruct rows as [|r rows]; [destruct I|]. cbn in I |- *. destruct I as [I|I].
  - injection I as _ <-. eauto.
  - destruct (IH rows I) as (r' & -> & J). eauto.
Qed.
Print Assumptions C89_names_refuted.
Example C89_nonvacuous :
  output_calls (fun i => nm (String.String (Ascii.ascii_of_nat (48 + i)) String.EmptyString)) None (OTuple [Tensor [1; 2]; Tensor [3]])
    = [(nm "0"%string, Tensor [1; 2]); (nm "1"%string, Tensor [3])] /\
  output_calls (fun _ => nm "0"%string) None (OTensor [1; 2; 3]) = [(nm "0"%string, Row 1)].
Proof. split; reflexivity. Qed.

(* C90; full claim: with its own name *)
Theorem C90_values_partial : forall (R : Type) self args (inputs : list (value R)), length inputs <= S (length args) ->
  map snd (input_calls self args inputs) = inputs.
Proof.
  intros R self args inputs H. unfold input_calls.
  assert (forall (l : list name) (vs : list (value R)), length vs <= length l -> map snd (combine l vs) = vs) as G.
  { induction l as [|n l IH]; intros [|v vs] L; cbn in *; auto; try lia. f_equal. apply IH. lia. }
  apply G. cbn. auto.
Qed.
Print Assumptions C90_values_partial.
(* every input is given the name of the previous one, the first is called self *)
Theorem C90_refuted : forall (R : Type) self args (inputs : list (value R)) i v,
  nth_error inputs i = Some v -> i <= length args ->
  nth_error (input_calls self args inputs) i =
    Some (match i with O => self | S j => nth j args self end, v).
Proof.
  intros R self args inputs i v H L. unfold input_calls.
  assert (forall (l : list name) (vs : list (value R)) i d, nth_error vs i = Some v -> i < length l ->
    nth_error (combine l vs) i = Some (nth i l d, v)) as G.
  { clear. induction l as [|n l IH]; intros vs i d H L; cbn in L; [lia|]. destruct vs as [|w vs]; [destruct i; discriminate|].
    destruct i; cbn in *; [congruence|]. apply IH; auto. lia. }
  rewrite (G (self :: args) inputs i self H); [|cbn; lia]. destruct i; reflexivity.
Qed.
Print Assumptions C90_refuted.
Example C90_nonvacuous :
  input_calls (nm "self"%string) [nm "state"%string; nm "action"%string] [Tensor [1; 2]; Tensor [3]] =
  [(nm "self"%string, Tensor [1; 2]); (nm "state"%string, Tensor [3])].
Proof. reflexivity. Qed.
