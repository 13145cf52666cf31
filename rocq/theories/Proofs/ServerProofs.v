From Verif Require Import Lib.Rat Model.Servers Spec.ServerSpec.
From Coq Require Import Permutation.
Open Scope nat_scope.
Set Implicit Arguments.

Lemma lastn_length {A} n (l : list A) : length (lastn n l) = Nat.min n (length l).
Proof. unfold lastn. rewrite skipn_length. lia. Qed.
Lemma lastn_all {A} n (l : list A) : length l <= n -> lastn n l = l.
Proof. intros H. unfold lastn. replace (length l - n) with 0 by lia. reflexivity. Qed.
Lemma lastn_snoc {A} n (l : list A) x : lastn (S n) (l ++ [x]) = lastn n l ++ [x].
Proof.
  unfold lastn. rewrite app_length. cbn. replace (length l + 1 - S n) with (length l - n) by lia.
  rewrite skipn_app. replace (length l - n - length l) with 0 by lia. reflexivity.
Qed.
Lemma skipn_cons_S {A} k (l : list A) : k < length l -> exists x, skipn k l = x :: skipn (S k) l.
Proof.
  revert l. induction k as [|k IH]; intros [|x l] H; cbn in *; try lia.
  - exists x. reflexivity.
  - destruct (IH l) as [y E]; [lia|]. exists y. exact E.
Qed.
Lemma lastn_S {A} n (l : list A) : n < length l -> exists x, lastn (S n) l = x :: lastn n l.
Proof.
  intros H. unfold lastn. destruct (@skipn_cons_S _ (length l - S n) l) as [x E]; [lia|].
  exists x. rewrite E. replace (S (length l - S n)) with (length l - n) by lia. reflexivity.
Qed.
Lemma lastn_In {A} n (l : list A) x : In x (lastn n l) -> In x l.
Proof.
  unfold lastn. generalize (length l - n). intros k H. rewrite <- (firstn_skipn k l). apply in_or_app. now right.
Qed.
Lemma snoc_cases {A} (l : list A) : l = [] \/ exists l' x, l = l' ++ [x].
Proof. destruct l as [|a r]; auto. right. destruct (@exists_last _ (a :: r)) as (l' & x & E); [discriminate|]. eauto. Qed.
Lemma olast_snoc {A} (l : list A) x : olast (l ++ [x]) = Some x.
Proof. induction l as [|a r IH]; auto. cbn [app olast]. rewrite IH. destruct (r ++ [x]) eqn:E; auto. destruct r; discriminate. Qed.
Lemma newest_snoc {A} (l : list (nat * A)) q : newest_of (l ++ [q]) = Some q.
Proof.
  unfold newest_of. rewrite app_length. cbn. replace (length l + 1 - 1) with (length l) by lia.
  rewrite nth_error_app2 by lia. now rewrite Nat.sub_diag.
Qed.
Lemma append_snoc {A} (l : list (nat * A)) w x ver v :
  append (l ++ [(w, x)]) ver v = if w =? ver then l ++ [(ver, v)] else l ++ [(w, x); (ver, v)].
Proof.
  unfold append. rewrite newest_snoc. rewrite app_length. cbn. replace (length l + 1 - 1) with (length l) by lia.
  rewrite firstn_app, firstn_all, Nat.sub_diag. cbn. rewrite app_nil_r. destruct (w =? ver); auto. now rewrite <- app_assoc.
Qed.
Lemma dget_find {A} w (l : list (nat * A)) :
  dget w l = match find (fun q => fst q =? w) l with Some (_, v) => Some v | None => None end.
Proof.
  induction l as [|[k v] r IH]; cbn; auto. rewrite Nat.eqb_sym. destruct (k =? w); auto.
Qed.
Lemma dset_snoc {A} (w : nat) (v x : A) l : ~ In w (map fst l) -> dset w v (l ++ [(w, x)]) = l ++ [(w, v)].
Proof.
  intros N. induction l as [|[k y] r IH]; cbn [app dset].
  - now rewrite eqb_refl.
  - destruct (eqb_spec w k) as [->|NE]; [exfalso; apply N; now left|]. rewrite IH; auto. intros Q. apply N. now right.
Qed.
Lemma dset_id {K V} `{Eqb K} k (v : V) d : dget k d = Some v -> dset k v d = d.
Proof.
  induction d as [|[k' v'] r IH]; cbn; [discriminate|]. destruct (eqb_spec k k') as [->|N]; intros E.
  - injection E as ->. reflexivity.
  - now rewrite IH.
Qed.

Section OSP.
  Context {K A : Type} {EK : Eqb K}.
  Implicit Types (st : ostore K A) (L : @logs K A).

  (* any history: 1..depth+1 versions per key *)
  Definition OW depth st : Prop := forall k r, dget k st = Some r -> r <> [] /\ length r <= S depth.

  Lemma OW_push depth st k v ver prev : OW depth st ->
    OW depth (fst (os_push depth st k v ver prev)) /\
    exists b, snd (os_push depth st k v ver prev) = Ok b /\
      (b = true <-> match dget k st with None => True | Some r => exists x, olast r = Some (prev, x) end) /\
      (b = false -> fst (os_push depth st k v ver prev) = st).
  Proof.
    intros W. unfold os_push. destruct (dget k st) as [r|] eqn:E.
    - destruct (W k r E) as [NE LE]. destruct (snoc_cases r) as [|(l & [w x] & ->)]; [congruence|]. rewrite olast_snoc.
      cbn [fst snd].
      set (r1 := if w =? prev then dset ver v (l ++ [(w, x)]) else l ++ [(w, x)]).
      assert (L1 : length r1 <= S (S depth)).
      { unfold r1. destruct (w =? prev); [|lia]. etransitivity; [apply dset_length_le|lia]. }
      assert (N1 : r1 <> []).
      { unfold r1. destruct (w =? prev); auto. destruct l as [|[a b] l]; cbn [app dset]; destruct (eqb _ _); discriminate. }
      split.
      + intros k' r' G. destruct (eqb_spec k k') as [<-|NK].
        * rewrite dget_dset_same in G. injection G as <-. destruct (Nat.ltb_spec (depth + 1) (length r1)).
          -- destruct r1 as [|a [|b r1]]; cbn in *; try lia. split; [discriminate|cbn in *; lia].
          -- split; auto. lia.
        * rewrite dget_dset_other in G by auto. eauto.
      + exists (w =? prev). split; auto. split.
        * destruct (Nat.eqb_spec w prev) as [->|N]; split; auto; [eexists; reflexivity|discriminate|].
          intros (y & Q). congruence.
        * intros F. unfold r1. rewrite F. destruct (Nat.ltb_spec (depth + 1) (length (l ++ [(w, x)]))); [lia|]. now apply dset_id.
    - cbn [fst snd]. split.
      + intros k' r' G. destruct (eqb_spec k k') as [<-|NK].
        * rewrite dget_dset_same in G. injection G as <-. split; [discriminate|cbn; lia].
        * rewrite dget_dset_other in G by auto. eauto.
      + exists true. split; auto. split; [split; auto|discriminate].
  Qed.
  Lemma OW_nil depth : OW depth [].
  Proof. intros k r E. discriminate. Qed.
  Lemma OW_run depth qs : forall st, OW depth st -> OW depth (fst (os_run depth st qs)).
  Proof.
    induction qs as [|q r IH]; intros st W; cbn [os_run]; auto.
    assert (W1 : OW depth (fst (os_step depth st q))).
    { destruct q as [k v ver prev|k ver]; cbn [os_step fst]; auto.
      destruct (OW_push k v ver prev W) as [W1 _]. destruct (os_push depth st k v ver prev) as [s [b|e]]; auto. }
    destruct (os_step depth st q) as [s1 a]. specialize (IH s1 W1). destruct (os_run depth s1 r). exact IH.
  Qed.

  Definition OInv depth st L : Prop := forall k, NoDup (map fst (L k)) /\
    match dget k st with None => L k = [] | Some r => L k <> [] /\ r = lastn (S depth) (L k) end.

  Lemma os_step_spec depth st L q : OInv depth st L -> no_reuse (S depth) L [q] ->
    snd (os_step depth st q) = snd (spec_step (S depth) L q) /\
    OInv depth (fst (os_step depth st q)) (fst (spec_step (S depth) L q)).
  Proof.
    intros I [NR _]. destruct q as [k v ver prev|k [w|]]; cbn [os_step spec_step].
    - destruct (I k) as [ND IK]. unfold os_push, acceptable in *. destruct (dget k st) as [r|] eqn:E.
      + destruct IK as [NE ER]. destruct (snoc_cases (L k)) as [|(l & [w x] & EL)]; [congruence|].
        rewrite EL in ER, NR, ND. rewrite lastn_snoc in ER. rewrite EL. rewrite newest_snoc in NR |- *. subst r. rewrite olast_snoc.
        rewrite map_app in ND. cbn in ND. pose proof ND as ND0. apply NoDup_remove in ND as [NDl NI]. rewrite app_nil_r in NDl, NI.
        assert (NIl : ~ In w (map fst (lastn depth l))).
        { intros Q. apply NI. apply in_map_iff in Q as (q & <- & Q). apply in_map. eapply lastn_In; eauto. }
        destruct (Nat.eqb_spec w prev) as [->|N]; cbv iota zeta beta; cbn [fst snd].
        * specialize (NR eq_refl). split; auto. intros k'. destruct (eqb_spec k' k) as [->|NK].
          -- rewrite dget_dset_same, append_snoc. destruct (Nat.eqb_spec prev ver) as [->|NV].
             ++ split; [now rewrite map_app|]. split; [destruct l; discriminate|].
                rewrite dset_snoc by auto. rewrite lastn_snoc. rewrite app_length, lastn_length. cbn [length].
                destruct (Nat.ltb_spec (depth + 1) (Nat.min depth (length l) + 1)); auto. lia.
             ++ destruct NR as [->|NR]; [congruence|]. rewrite map_app in NR. cbn in NR.
                assert (NI2 : ~ In ver (map fst l)) by (intros Q; apply NR; apply in_or_app; auto).
                split.
                { replace (l ++ [(prev, x); (ver, v)]) with ((l ++ [(prev, x)]) ++ [(ver, v)]) by now rewrite <- app_assoc.
                  rewrite map_app. cbn. apply NoDup_Add with (a := ver) (l := map fst (l ++ [(prev, x)])).
                  - pose proof (Add_app ver (map fst (l ++ [(prev, x)])) []) as Q. rewrite app_nil_r in Q. exact Q.
                  - rewrite map_app. cbn. split; auto. }
                split; [destruct l; discriminate|].
                rewrite dset_new.
                2:{ unfold dkeys. rewrite map_app. cbn. intros Q. apply in_app_or in Q as [Q|[Q|[]]]; [|congruence].
                    apply NI2. apply in_map_iff in Q as (q & <- & Q). apply in_map. eapply lastn_In; eauto. }
                replace (l ++ [(prev, x); (ver, v)]) with ((l ++ [(prev, x)]) ++ [(ver, v)]) by now rewrite <- app_assoc.
                rewrite lastn_snoc. rewrite !app_length, lastn_length. cbn [length].
                destruct (Nat.ltb_spec (depth + 1) (Nat.min depth (length l) + 1 + 1)) as [G|G].
                ** rewrite <- lastn_snoc. destruct (@lastn_S _ depth (l ++ [(prev, x)])) as [y EY]; [rewrite app_length; cbn; lia|].
                   rewrite EY. reflexivity.
                ** rewrite <- lastn_snoc. rewrite !lastn_all; auto; rewrite app_length; cbn; lia.
          -- rewrite dget_dset_other by congruence. apply I.
        * split; auto. intros k'. destruct (eqb_spec k k') as [<-|NK].
          -- rewrite dget_dset_same. rewrite EL. rewrite map_app. split; [exact ND0|]. split; [destruct l; discriminate|].
             rewrite lastn_snoc, app_length, lastn_length. cbn [length].
             destruct (Nat.ltb_spec (depth + 1) (Nat.min depth (length l) + 1)); auto. lia.
          -- rewrite dget_dset_other by congruence. apply I.
      + rewrite IK. cbn [newest_of length Nat.sub nth_error fst snd]. split; auto. intros k'. destruct (eqb_spec k' k) as [->|NK].
        * rewrite dget_dset_same. split; [repeat constructor; auto|]. split; [discriminate|].
          rewrite lastn_all; auto. cbn; lia.
        * rewrite dget_dset_other by congruence. apply I.
    - split; [|exact I]. unfold os_pull. destruct (I k) as [ND IK]. destruct (dget k st) as [r|] eqn:E; cbn [snd].
      + destruct IK as [_ ->]. rewrite dget_find. destruct (find _ _) as [[? ?]|]; auto.
      + rewrite IK. reflexivity.
    - split; [|exact I]. unfold os_pull. destruct (I k) as [ND IK]. destruct (dget k st) as [r|] eqn:E; cbn [snd].
      + destruct IK as [NE ->]. destruct (snoc_cases (L k)) as [|(l & [w x] & EL)]; [congruence|].
        rewrite EL, lastn_snoc, olast_snoc, newest_snoc. reflexivity.
      + rewrite IK. reflexivity.
  Qed.

  Lemma OInv_nil depth : OInv depth [] (fun _ => []).
  Proof. intros k. split; [constructor|reflexivity]. Qed.

  Lemma os_run_spec depth qs : forall st L, OInv depth st L -> no_reuse (S depth) L qs ->
    snd (os_run depth st qs) = snd (spec_run (S depth) L qs) /\
    OInv depth (fst (os_run depth st qs)) (fst (spec_run (S depth) L qs)).
  Proof.
    induction qs as [|q r IH]; intros st L I NR; cbn [os_run spec_run]; auto.
    destruct NR as [N1 N2]. destruct (@os_step_spec depth st L q I) as [A1 I1]; [split; cbn; auto|].
    destruct (os_step depth st q) as [s1 a]. destruct (spec_step (S depth) L q) as [L1 a'].
    cbn [fst snd] in *. subst a'. destruct (IH s1 L1 I1 N2) as [A2 I2].
    destruct (os_run depth s1 r) as [s2 l]. destruct (spec_run (S depth) L1 r) as [L2 l']. cbn [fst snd] in *. subst. auto.
  Qed.
End OSP.

Section MSP.
  Context {A : Type}.
  Implicit Types (s : msys A).

  Definition oneL (log : list (nat * A)) : nat -> list (nat * A) := fun k => if k =? 0 then log else [].
  Record MInv depth s (log : list (nat * A)) : Prop := {
    mi_o : OInv depth (ms_srv s) (oneL log);
    mi_v : map fst log = seq 1 (length log);
    mi_c : forall i, ver_of (ms_cl s i) <= length log;
    mi_w : forall i, cl_wait (ms_cl s i) = true -> log <> [] }.

  Lemma versions_newest (log : list (nat * A)) : map fst log = seq 1 (length log) ->
    match newest_of log with None => log = [] | Some (w, _) => w = length log /\ log <> [] end.
  Proof.
    intros E. destruct (snoc_cases log) as [->|(l & [w x] & ->)]; [reflexivity|]. rewrite newest_snoc.
    rewrite map_app, app_length, seq_app in E. cbn in E. apply app_inj_tail in E as [_ E]. rewrite app_length. cbn.
    split; [lia|]. destruct l; discriminate.
  Qed.

  Lemma os_push_one depth srv log p v : OInv depth srv (oneL log) -> map fst log = seq 1 (length log) ->
    exists srv', os_push depth srv 0 p (v + 1) v = (srv', Ok (v =? length log) ) /\
      (v = length log -> OInv depth srv' (oneL (log ++ [(v + 1, p)]))) /\
      (v <> length log -> log <> [] -> srv' = srv) \/ (log = [] /\ v <> 0).
  Proof.
    intros I E. destruct (list_eq_dec Nat.eq_dec (map fst log) []) as [Z|NZ].
    - assert (log = []) as -> by (destruct log; [auto|discriminate]). destruct (Nat.eq_dec v 0) as [->|]; [|exists []; auto].
      pose proof (@os_step_spec nat A _ depth srv (oneL []) (OPush 0 p 1 0) I) as S. destruct S as [S1 S2].
      { split; cbn; auto. } 
      cbn [os_step spec_step oneL Nat.eqb acceptable newest_of nth_error length Nat.sub fst snd] in S1, S2.
      exists (fst (os_push depth srv 0 p 1 0)). left. cbn [Nat.add length Nat.eqb app].
      destruct (os_push depth srv 0 p 1 0) as [srv' [b|e]]; cbn [fst snd] in *; [|discriminate]. injection S1 as ->.
      split; auto. split; [|lia]. intros _ k. specialize (S2 k). unfold oneL in *.
      destruct (eqb_spec k 0) as [E0|N0]; [subst k; exact S2|destruct (Nat.eqb_spec k 0); [congruence|auto]].
    - assert (NL : log <> []) by (intros ->; apply NZ; reflexivity).
      pose proof (versions_newest _ E) as VN. destruct (newest_of log) as [[w x]|] eqn:EN; [|congruence]. destruct VN as [-> _].
      pose proof (@os_step_spec nat A _ depth srv (oneL log) (OPush 0 p (v + 1) v) I) as S. destruct S as [S1 S2].
      { split; cbn [oneL Nat.eqb no_reuse]; auto. unfold acceptable. rewrite EN. intros Q. right. rewrite E. intros IN. apply in_seq in IN.
        apply Nat.eqb_eq in Q. lia. }
      cbn [os_step spec_step oneL Nat.eqb] in S1, S2. unfold acceptable in S1, S2. rewrite EN in S1, S2.
      exists (fst (os_push depth srv 0 p (v + 1) v)). left.
      assert (W : OW depth srv). { intros k r G. specialize (I k) as [_ I]. rewrite G in I. destruct I as [N ->]. split.
        - intros Q. apply (f_equal (@length _)) in Q. rewrite lastn_length in Q. cbn [length] in Q. destruct (oneL log k); [congruence|cbn in Q; lia].
        - rewrite lastn_length. lia. }
      destruct (OW_push 0 p (v + 1) v W) as (_ & b & Q1 & _ & Q3).
      destruct (os_push depth srv 0 p (v + 1) v) as [srv' [b'|e]]; cbn [fst snd] in *; [|discriminate]. injection Q1 as ->.
      rewrite (Nat.eqb_sym v). destruct (Nat.eqb_spec (length log) v) as [<-|NV]; cbn [fst snd] in *.
      + injection S1 as ->. split; auto. split; [|lia]. intros _ k. specialize (S2 k). unfold oneL in *.
        destruct (eqb_spec k 0) as [E0|N0]; [subst k; cbn [Nat.eqb] in *|destruct (Nat.eqb_spec k 0); [congruence|auto]]. unfold append in S2. rewrite EN in S2. destruct (Nat.eqb_spec (length log) (length log + 1)); [lia|]. exact S2.
      + injection S1 as ->. split; auto. split; [lia|]. intros _ _. auto.
  Qed.

  Lemma os_pull_one depth srv log : OInv depth srv (oneL log) -> map fst log = seq 1 (length log) ->
    os_pull srv 0 None = Ok (match newest_of log with Some (w, p) => Some (p, w) | None => None end).
  Proof.
    intros I E. pose proof (@os_step_spec nat A _ depth srv (oneL log) (OPull 0 None) I (conj Logic.I Logic.I)) as [S1 _].
    cbn in S1. destruct (os_pull srv 0 None); [|discriminate]. injection S1 as ->. reflexivity.
  Qed.

  Lemma setc_same (f : nat -> client A) i c : setc f i c i = c.
  Proof. unfold setc. now rewrite Nat.eqb_refl. Qed.
  Lemma setc_other (f : nat -> client A) i c j : j <> i -> setc f i c j = f j.
  Proof. unfold setc. intros. destruct (Nat.eqb_spec j i); congruence. Qed.

  Lemma ms_step_inv depth s log a : MInv depth s log ->
    let s' := fst (ms_step depth s a) in let ev := snd (ms_step depth s a) in
    MInv depth s' (log ++ accepts [ev]) /\ ev <> @EvErr A /\
    (forall i, ver_of (ms_cl s i) <= ver_of (ms_cl s' i)) /\
    (forall i pof, a = MPush i pof -> cl_wait (ms_cl s i) = false ->
       (ver_of (ms_cl s i) = length log ->
          ev = EvAccept (S (length log)) (cl_par (ms_cl s i)) /\ cl_par (ms_cl s' i) = cl_par (ms_cl s i) /\
          cl_ver (ms_cl s' i) = Some (S (length log)) /\ cl_wait (ms_cl s' i) = false) /\
       (ver_of (ms_cl s i) <> length log -> ev = EvReject /\ ms_srv s' = ms_srv s /\ cl_wait (ms_cl s' i) = pof)) /\
    (forall i, (a = MPullFail i /\ cl_wait (ms_cl s i) = true) \/ (a = MPull i /\ cl_wait (ms_cl s i) = false /\ log <> []) ->
       cl_ver (ms_cl s' i) = Some (length log) /\ cl_wait (ms_cl s' i) = false /\
       (cl_wait (ms_cl s i) = true \/ cl_ver (ms_cl s i) <> Some (length log) -> newest_of log = Some (length log, cl_par (ms_cl s' i)))).
  Proof.
    intros I. pose proof I as [IO IV IC IW]. cbv zeta.
    assert (TRIV : forall ev, accepts [ev] = [] -> ev <> @EvErr A -> MInv depth s (log ++ accepts [ev])).
    { intros ev -> _. now rewrite app_nil_r. }
    destruct a as [i p|i pof|i|i]; cbn [ms_step].
    - destruct (cl_wait (ms_cl s i)) eqn:W; cbn [fst snd accepts flat_map app]; rewrite ?app_nil_r.
      + split; auto. split; [discriminate|]. split; auto. split; [intros; discriminate|intros ? [[? _]|[? _]]; discriminate].
      + split; [|split; [discriminate|split; [|split; [intros; discriminate|intros ? [[? _]|[? _]]; discriminate]]]].
        * split; cbn [ms_srv ms_cl]; auto; intros j; destruct (Nat.eq_dec j i) as [->|N]; rewrite ?setc_same, ?setc_other by auto; auto.
          -- exact (IC i).
          -- discriminate.
          -- exact (IW j).
        * intros j. destruct (Nat.eq_dec j i) as [->|N]; cbn [ms_cl]; rewrite ?setc_same, ?setc_other by auto; auto.
    - destruct (cl_wait (ms_cl s i)) eqn:W; cbn [fst snd accepts flat_map app]; rewrite ?app_nil_r.
      + split; auto. split; [discriminate|]. split; auto. split; [|intros ? [[? _]|[? _]]; discriminate].
        intros j pf Q WJ. injection Q as <- <-. congruence.
      + set (v := ver_of (ms_cl s i)) in *. set (p := cl_par (ms_cl s i)) in *.
        destruct (os_push_one p v IO IV) as (srv' & [(E & OKC & NO)|[Z1 Z2]]).
        2:{ exfalso. pose proof (IC i) as Q. rewrite Z1 in Q. cbn in Q. fold v in Q. lia. }
        rewrite E. destruct (Nat.eqb_spec v (length log)) as [EV|NV]; cbn [fst snd accepts flat_map app ms_srv ms_cl].
        * split; [|split; [discriminate|split; [|split]]].
          -- split; cbn [ms_srv ms_cl]; auto.
             ++ rewrite map_app, app_length, seq_app, IV, EV. cbn. repeat f_equal. lia.
             ++ intros j. rewrite app_length. cbn. destruct (Nat.eq_dec j i) as [->|N]; rewrite ?setc_same, ?setc_other by auto.
                ** cbn. lia.
                ** pose proof (IC j). lia.
             ++ intros j _. destruct log; discriminate.
          -- intros j. destruct (Nat.eq_dec j i) as [->|N]; rewrite ?setc_same, ?setc_other by auto; auto. cbn. fold v. lia.
          -- intros j pf Q WJ. injection Q as <- <-. fold v p. split; [|congruence]. intros _. rewrite setc_same. cbn. rewrite EV.
             replace (length log + 1) with (S (length log)) by lia. auto.
          -- intros j [[Q _]|[Q _]]; discriminate.
        * assert (NL : log <> []) by (intros ->; pose proof (IC i) as Q; cbn in Q, NV; fold v in Q; lia).
          specialize (NO NV NL). subst srv'. rewrite app_nil_r.
          split; [|split; [discriminate|split; [|split]]].
          -- split; cbn [ms_srv ms_cl]; auto.
             intros j. destruct (Nat.eq_dec j i) as [->|N]; rewrite ?setc_same, ?setc_other by auto; auto; try exact (IC i); try exact (IW j); intros; discriminate.
          -- intros j. destruct (Nat.eq_dec j i) as [->|N]; rewrite ?setc_same, ?setc_other by auto; auto.
          -- intros j pf Q WJ. injection Q as <- <-. fold v p. split; [congruence|]. intros _. rewrite setc_same. auto.
          -- intros j [[Q _]|[Q _]]; discriminate.
    - destruct (cl_wait (ms_cl s i)) eqn:W.
      + rewrite (os_pull_one IO IV). pose proof (versions_newest _ IV) as VN. destruct (newest_of log) as [[w p]|] eqn:EN.
        2:{ exfalso. exact (IW i W VN). }
        destruct VN as [-> NL]. cbn [fst snd accepts flat_map app ms_srv ms_cl]. rewrite app_nil_r.
        split; [|split; [discriminate|split; [|split; [discriminate|]]]].
        * split; cbn [ms_srv ms_cl]; auto.
          intros j. destruct (Nat.eq_dec j i) as [->|N]; rewrite ?setc_same, ?setc_other by auto; cbn; auto; try exact (IW j); intros; discriminate.
        * intros j. destruct (Nat.eq_dec j i) as [->|N]; rewrite ?setc_same, ?setc_other by auto; auto; try apply IC.
        * intros j [[Q _]|[Q _]]; [|discriminate]. injection Q as <-. rewrite setc_same. cbn. auto.
      + cbn [fst snd accepts flat_map app]. rewrite app_nil_r. split; auto. split; [discriminate|]. split; auto. split; [discriminate|].
        intros j [[Q ?]|[Q _]]; [|discriminate]. injection Q as <-. congruence.
    - destruct (cl_wait (ms_cl s i)) eqn:W.
      + cbn [fst snd accepts flat_map app]. rewrite app_nil_r. split; auto. split; [discriminate|]. split; auto. split; [discriminate|].
        intros j [[Q ?]|[Q [? _]]]; [discriminate|]. injection Q as <-. congruence.
      + rewrite (os_pull_one IO IV). pose proof (versions_newest _ IV) as VN. destruct (newest_of log) as [[w p]|] eqn:EN.
        2:{ cbn [fst snd accepts flat_map app]. rewrite app_nil_r. split; auto. split; [discriminate|]. split; auto. split; [discriminate|].
            intros j [[Q ?]|[Q [_ ?]]]; [discriminate|]. congruence. }
        destruct VN as [-> NL]. cbn [snd accepts flat_map app]. rewrite app_nil_r.
        pose proof (IC i) as CI. unfold ver_of in CI.
        destruct (cl_ver (ms_cl s i)) as [w|] eqn:EV.
        * destruct (Nat.ltb_spec w (length log)) as [LT|GE]; cbn [fst].
          -- split; [|split; [discriminate|split; [|split; [discriminate|]]]].
             ++ split; cbn [ms_srv ms_cl]; auto.
                intros j. destruct (Nat.eq_dec j i) as [->|N]; rewrite ?setc_same, ?setc_other by auto; cbn; auto; try exact (IW j); intros; discriminate.
             ++ intros j. cbn [ms_cl]. destruct (Nat.eq_dec j i) as [->|N]; rewrite ?setc_same, ?setc_other by auto; auto; try apply IC.
             ++ intros j [[Q _]|[Q _]]; [discriminate|]. injection Q as <-. cbn [ms_cl]. rewrite setc_same. cbn. auto.
          -- assert (w = length log) by lia. subst w.
             split; auto. split; [discriminate|]. split; auto. split; [discriminate|].
             intros j [[Q _]|[Q _]]; [discriminate|]. injection Q as <-. rewrite EV, W. split; auto. split; auto. intros [?|?]; congruence.
        * cbn [fst]. split; [|split; [discriminate|split; [|split; [discriminate|]]]].
          -- split; cbn [ms_srv ms_cl]; auto.
             intros j. destruct (Nat.eq_dec j i) as [->|N]; rewrite ?setc_same, ?setc_other by auto; cbn; auto; try exact (IW j); intros; discriminate.
          -- intros j. cbn [ms_cl]. destruct (Nat.eq_dec j i) as [->|N]; rewrite ?setc_same, ?setc_other by auto; auto; try apply IC.
          -- intros j [[Q _]|[Q _]]; [discriminate|]. injection Q as <-. cbn [ms_cl]. rewrite setc_same. cbn. auto.
  Qed.

  Lemma ms_run_inv depth acts : forall s log, MInv depth s log ->
    MInv depth (fst (ms_run depth s acts)) (log ++ accepts (snd (ms_run depth s acts))) /\
    ~ In (@EvErr A) (snd (ms_run depth s acts)) /\
    (forall i, ver_of (ms_cl s i) <= ver_of (ms_cl (fst (ms_run depth s acts)) i)).
  Proof.
    induction acts as [|a r IH]; intros s log I; cbn [ms_run].
    - cbn. rewrite app_nil_r. auto.
    - destruct (ms_step_inv a I) as (I1 & NE & MO & _). destruct (ms_step depth s a) as [s1 e]. cbn [fst snd] in *.
      destruct (IH s1 _ I1) as (I2 & N2 & M2). destruct (ms_run depth s1 r) as [s2 es]. cbn [fst snd] in *.
      split; [|split].
      + rewrite <- app_assoc in I2. replace (accepts [e] ++ accepts es) with (accepts (e :: es)) in I2; auto.
        cbn. now rewrite app_nil_r.
      + intros [Q|Q]; auto.
      + intros i. etransitivity; eauto.
  Qed.
  Lemma ms_init_inv depth par : MInv depth (ms_init par) [].
  Proof.
    split; auto.
    - intros k. unfold oneL. destruct (k =? 0); cbn; repeat constructor.
    - intros i W. discriminate.
  Qed.
End MSP.
