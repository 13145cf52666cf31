From Verif Require Import Lib.Base Model.Buffer Spec.BufferSpec.
Set Implicit Arguments.
Local Arguments total {T} hist : simpl never.

(* ------------------------------------------------------------------ *)
(* modular windows *)
Lemma mod_window_inj c a n m : 0 < c -> a <= n -> a <= m -> n < a + c -> m < a + c ->
  n mod c = m mod c -> n = m.
Proof.
  intros C A1 A2 B1 B2 E.
  pose proof (Nat.div_mod n c ltac:(lia)) as D1.
  pose proof (Nat.div_mod m c ltac:(lia)) as D2.
  rewrite E in D1. generalize dependent (n / c). generalize dependent (m / c). intros q2 D2 q1 D1.
  assert (q1 = q2) as ->; [|lia].
  destruct (Nat.lt_trichotomy q1 q2) as [L|[L|L]]; auto; exfalso.
  - assert (c * q2 >= c * q1 + c) by nia. lia.
  - assert (c * q1 >= c * q2 + c) by nia. lia.
Qed.

Definition modseq (c s l : nat) : list nat := map (fun n => n mod c) (seq s l).

Lemma modseq_S c s l : modseq c s (S l) = s mod c :: modseq c (S s) l.
Proof. reflexivity. Qed.
Lemma modseq_app c s l1 l2 : modseq c s (l1 + l2) = modseq c s l1 ++ modseq c (s + l1) l2.
Proof. unfold modseq. now rewrite seq_app, map_app. Qed.
Lemma modseq_length c s l : length (modseq c s l) = l.
Proof. unfold modseq. now rewrite map_length, seq_length. Qed.
Lemma In_modseq c s l x : In x (modseq c s l) <-> exists n, n mod c = x /\ s <= n < s + l.
Proof.
  unfold modseq. rewrite in_map_iff. split; intros (n & E & I); exists n; split; auto.
  - now apply in_seq.
  - now apply in_seq.
Qed.
Lemma modseq_NoDup c s l : 0 < c -> l <= c -> NoDup (modseq c s l).
Proof.
  intros C L. unfold modseq.
  cut (forall l', incl l' (seq s l) -> NoDup l' -> NoDup (map (fun n => n mod c) l')).
  { intros H; apply H; [apply incl_refl|apply seq_NoDup]. }
  induction l' as [|x r IH]; cbn; intros I ND; [constructor|].
  inversion ND; subst. constructor; [|apply IH; auto; intros y Hy; apply I; right; auto].
  rewrite in_map_iff. intros (y & E & Hy).
  assert (A : In x (seq s l)) by (apply I; left; auto).
  assert (B : In y (seq s l)) by (apply I; right; auto).
  apply in_seq in A. apply in_seq in B.
  apply (@mod_window_inj c s) in E; try lia. congruence.
Qed.

Lemma has_dup_spec l : has_dup l = false <-> NoDup l.
Proof.
  induction l as [|x r IH]; cbn.
  - split; auto; constructor.
  - rewrite orb_false_iff, IH. split.
    + intros [E N]. constructor; auto. intros I.
      assert (existsb (Nat.eqb x) r = true) by (apply existsb_exists; exists x; split; auto; apply Nat.eqb_refl).
      congruence.
    + intros N; inversion N as [|? ? N1 N2]; subst. split; auto.
      destruct (existsb (Nat.eqb x) r) eqn:E; auto. exfalso.
      apply existsb_exists in E as (y & I & E). apply Nat.eqb_eq in E as ->. auto.
Qed.

Lemma has_dup_modseq_over c s l : 0 < c -> c < l -> has_dup (modseq c s l) = true.
Proof.
  intros C L. destruct (has_dup (modseq c s l)) eqn:E; auto. exfalso.
  apply has_dup_spec in E.
  replace l with (1 + (c - 1) + (1 + (l - c - 1))) in E by lia.
  rewrite modseq_app in E. cbn in E. inversion E as [|? ? N1 N2]; subst.
  apply N1. apply in_or_app. right. left.
  replace (s + S (c - 1)) with (s + 1 * c) by lia.
  apply Nat.mod_add; lia.
Qed.

(* ------------------------------------------------------------------ *)
Section Proofs.
  Context {T : Type}.
  Variable ok : T -> bool.

  (* Storage holds the most recent [cap] writes of the write log W. *)
  Record StInv (s : storage T) (W : list T) : Prop := {
    si_cap : 0 < st_cap s;
    si_len : length (st_data s) = Nat.min (length W) (st_cap s);
    si_idx : length (st_data s) = st_cap s -> st_idx s = length W mod st_cap s;
    si_dat : forall n, n < length W -> length W <= n + st_cap s ->
             nth_error (st_data s) (n mod st_cap s) = nth_error W n
  }.

  Lemma st_new_inv cap : 0 < cap -> StInv (st_new cap) [].
  Proof. intros C. split; cbn; auto; try lia. Qed.

  Lemma st_clear_inv s : 0 < st_cap s -> StInv (st_clear s) [].
  Proof. intros C; split; cbn; auto; try lia. Qed.

  Lemma st_store1_inv s W tr : StInv s W ->
    exists s', st_store1 s tr = (s', Ok (length W mod st_cap s)) /\
               st_cap s' = st_cap s /\ StInv s' (W ++ [tr]).
  Proof.
    intros [C L I D]. unfold st_store1. set (N := length W) in *.
    assert (LW : length (W ++ [tr]) = N + 1) by (rewrite app_length; reflexivity).
    assert (WN : nth_error (W ++ [tr]) N = Some tr).
    { rewrite nth_error_app2 by (unfold N; lia). unfold N. now rewrite Nat.sub_diag. }
    assert (WO : forall n, n < N -> nth_error (W ++ [tr]) n = nth_error W n).
    { intros n Hn. now rewrite nth_error_app1 by (unfold N in Hn; lia). }
    destruct (Nat.eqb_spec (length (st_data s)) (st_cap s)) as [F|F].
    - specialize (I F).
      assert (IB : st_idx s < length (st_data s)).
      { rewrite I, F. apply Nat.mod_upper_bound. lia. }
      destruct (Nat.ltb_spec (st_idx s) (length (st_data s))); [|lia].
      eexists; split; [rewrite <- I; reflexivity|]. split; [reflexivity|].
      split; cbn [st_cap st_data st_idx]; auto.
      + rewrite upd_length, LW. lia.
      + intros _. rewrite LW, I. apply Nat.add_mod_idemp_l. lia.
      + rewrite LW. intros n Hn Hw.
        destruct (Nat.eq_dec n N) as [->|Nn].
        * rewrite <- I, upd_same by auto. congruence.
        * rewrite upd_other.
          { rewrite WO by lia. apply D; lia. }
          rewrite I. intros E. apply (@mod_window_inj (st_cap s) n) in E; lia.
    - destruct (Nat.ltb_spec (length (st_data s)) (st_cap s)); [|lia].
      assert (LN : length (st_data s) = N) by lia.
      assert (NM : N mod st_cap s = N) by (apply Nat.mod_small; lia).
      eexists; split; [rewrite NM, <- LN; reflexivity|]. split; [reflexivity|].
      split; cbn [st_cap st_data st_idx]; auto.
      + rewrite app_length, LW, LN. cbn. lia.
      + intros _. now rewrite LW, LN.
      + rewrite LW. intros n Hn Hw.
        rewrite Nat.mod_small by lia.
        destruct (Nat.eq_dec n N) as [->|Nn].
        * rewrite nth_error_app2 by lia. rewrite LN, Nat.sub_diag. cbn. congruence.
        * rewrite nth_error_app1 by lia. rewrite WO by lia.
          rewrite <- D by lia. now rewrite Nat.mod_small by lia.
  Qed.

  Lemma st_store_loop_inv ep : forall s W, StInv s W ->
    exists s', st_store_loop s ep = (s', Ok (modseq (st_cap s) (length W) (length ep))) /\
               st_cap s' = st_cap s /\ StInv s' (W ++ ep).
  Proof.
    induction ep as [|tr r IH]; intros s W I.
    - exists s. cbn. rewrite app_nil_r. auto.
    - destruct (st_store1_inv tr I) as (s1 & E1 & C1 & I1).
      destruct (IH _ _ I1) as (s2 & E2 & C2 & I2).
      exists s2. cbn [st_store_loop]. rewrite E1, E2, C1. cbn [length]. rewrite modseq_S.
      rewrite app_length. cbn. rewrite Nat.add_1_r. split; auto. split; [congruence|].
      rewrite <- app_assoc in I2. exact I2.
  Qed.

  Lemma st_store_episode_ok s W ep : StInv s W -> length ep <= st_cap s ->
    exists s', st_store_episode s ep = (s', Ok (modseq (st_cap s) (length W) (length ep))) /\
               st_cap s' = st_cap s /\ StInv s' (W ++ ep).
  Proof.
    intros I L. destruct (st_store_loop_inv ep I) as (s' & E & C & I').
    exists s'. unfold st_store_episode. rewrite E.
    assert (H : has_dup (modseq (st_cap s) (length W) (length ep)) = false).
    { apply has_dup_spec, modseq_NoDup; [apply I|auto]. }
    rewrite H. auto.
  Qed.

  Lemma st_store_episode_over s W ep : StInv s W -> st_cap s < length ep ->
    exists s', st_store_episode s ep = (s', Err EValue) /\
               st_cap s' = st_cap s /\ StInv s' (W ++ ep).
  Proof.
    intros I L. destruct (st_store_loop_inv ep I) as (s' & E & C & I').
    exists s'. unfold st_store_episode. rewrite E.
    rewrite has_dup_modseq_over; auto. apply I.
  Qed.

  (* ---------------------------------------------------------------- *)
  (* The dictionaries describe a chain of episodes (number, start, length). *)
  Definition epi := (nat * nat * nat)%type.
  Definition ten_of (c : nat) (ret : list epi) : list (nat * nat) :=
    flat_map (fun '(k, s, l) => map (fun p => (p, k)) (modseq c s l)) ret.
  Definition eth_of (c : nat) (ret : list epi) : list (nat * list nat) :=
    map (fun '(k, s, l) => (k, modseq c s l)) ret.
  Fixpoint chain (s : nat) (ret : list epi) (e : nat) : Prop :=
    match ret with
    | [] => s = e
    | (_, s', l) :: r => s' = s /\ 0 < l /\ chain (s + l) r e
    end.
  Definition epno (x : epi) : nat := fst (fst x).
  Definition eplen (x : epi) : nat := snd x.

  Lemma chain_le s ret e : chain s ret e -> s <= e.
  Proof. revert s; induction ret as [|[[k s'] l] r IH]; cbn; intros s; [lia|].
         intros (_ & L & C). apply IH in C. lia. Qed.

  Lemma chain_app s r1 r2 e : chain s (r1 ++ r2) e <-> exists m, chain s r1 m /\ chain m r2 e.
  Proof.
    revert s; induction r1 as [|[[k s'] l] r IH]; cbn; intros s.
    - split; [intros C; exists s; auto | intros (m & -> & C); auto].
    - rewrite IH. split.
      + intros (E & L & m & C1 & C2). exists m. auto.
      + intros (m & (E & L & C1) & C2). repeat split; auto. exists m; auto.
  Qed.

  Lemma dkeys_ten_of c ret s e : chain s ret e -> dkeys (ten_of c ret) = modseq c s (e - s).
  Proof.
    unfold dkeys. revert s; induction ret as [|[[k s'] l] r IH]; intros s.
    - cbn. intros ->. now rewrite Nat.sub_diag.
    - cbn [chain]. intros (-> & L & C).
      change (ten_of c ((k, s, l) :: r)) with (map (fun p => (p, k)) (modseq c s l) ++ ten_of c r).
      rewrite map_app, map_map. cbn [fst]. rewrite map_id.
      pose proof (chain_le _ _ _ C). apply IH in C. rewrite C.
      replace (e - s) with (l + (e - (s + l))) by lia. now rewrite modseq_app.
  Qed.

  Lemma dkeys_new c N j (k : nat) : dkeys (map (fun p => (p, k)) (modseq c N j)) = modseq c N j.
  Proof. unfold dkeys. rewrite map_map. cbn. apply map_id. Qed.

  Lemma pop_all_prefix hs (k : nat) rest :
    pop_all hs (map (fun p => (p, k)) hs ++ rest) = Ok rest.
  Proof.
    induction hs as [|h r IH]; cbn; auto.
    unfold dpop, dmem. cbn. rewrite Nat.eqb_refl. cbn. exact IH.
  Qed.

  (* one handle of the new episode *)
  Lemma claim1_step c a0 ret N j k :
    0 < c -> chain a0 ret N -> j < c -> N + j <= a0 + c ->
    exists pre ret' a1,
      ret = pre ++ ret' /\ chain a1 ret' N /\ N + j < a1 + c /\
      (pre = [] /\ a1 = a0 \/ exists x, pre = [x] /\ N + j = a0 + c) /\
      claim1 k ((N + j) mod c)
             (ten_of c ret ++ map (fun p => (p, k)) (modseq c N j)) (eth_of c ret)
      = Ok (ten_of c ret' ++ map (fun p => (p, k)) (modseq c N (S j)), eth_of c ret').
  Proof.
    intros C CH J W.
    assert (NEW : forall a1 r1, chain a1 r1 N -> N + j < a1 + c ->
      dset ((N + j) mod c) k (ten_of c r1 ++ map (fun p => (p, k)) (modseq c N j))
      = ten_of c r1 ++ map (fun p => (p, k)) (modseq c N (S j)) /\
      ~ In ((N + j) mod c) (dkeys (ten_of c r1 ++ map (fun p => (p, k)) (modseq c N j)))).
    { intros a1 r1 CH1 W1.
      assert (NI : ~ In ((N + j) mod c) (dkeys (ten_of c r1 ++ map (fun p => (p, k)) (modseq c N j)))).
      { unfold dkeys. rewrite map_app. fold (dkeys (ten_of c r1)).
        fold (dkeys (map (fun p => (p, k)) (modseq c N j))).
        rewrite (@dkeys_ten_of c r1 a1 N CH1), dkeys_new.
        pose proof (chain_le _ _ _ CH1).
        replace N with (a1 + (N - a1)) at 3 by lia.
        rewrite <- modseq_app. rewrite In_modseq. intros (n & E & B).
        apply (@mod_window_inj c a1) in E; lia. }
      split; auto. rewrite dset_new by exact NI.
      rewrite <- app_assoc. f_equal.
      replace (S j) with (j + 1) by lia. rewrite modseq_app, map_app. reflexivity. }
    destruct (Nat.eq_dec (N + j) (a0 + c)) as [E|E].
    - destruct ret as [|[[k0 s0] l0] r].
      { cbn in CH. lia. }
      cbn in CH. destruct CH as (-> & L0 & CH).
      assert (W1 : N + j < a0 + l0 + c) by lia.
      destruct (NEW _ _ CH W1) as (D & NI).
      exists [(k0, a0, l0)], r, (a0 + l0). repeat split; auto.
      { right. eexists; split; eauto. }
      unfold claim1.
      replace (dget ((N + j) mod c) _) with (Some k0).
      2:{ destruct l0 as [|l0]; [lia|]. cbn.
          replace ((N + j) mod c) with (a0 mod c).
          - now rewrite Nat.eqb_refl.
          - rewrite E. replace (a0 + c) with (a0 + 1 * c) by lia. symmetry. apply Nat.mod_add. lia. }
      cbn [eth_of map dget]. cbn [eqb Eqb_nat]. rewrite Nat.eqb_refl.
      cbn [ten_of flat_map]. rewrite <- app_assoc.
      rewrite pop_all_prefix. cbn [bind].
      unfold dpop, dmem. cbn [dget ddel eqb Eqb_nat]. rewrite Nat.eqb_refl. cbn [bind].
      unfold ten_of in D. rewrite D. reflexivity.
    - assert (W1 : N + j < a0 + c) by lia.
      destruct (NEW _ _ CH W1) as (D & NI).
      exists [], ret, a0. repeat split; auto.
      unfold claim1. apply dget_None in NI. rewrite NI. now rewrite D.
  Qed.

  Lemma claim_loop c k N m : forall j a0 ret,
    0 < c -> chain a0 ret N -> j + m <= c -> N + j <= a0 + c -> 
    exists pre ret' a1,
      ret = pre ++ ret' /\ chain a1 ret' N /\ N + j + m <= a1 + c /\
      (forall x, In x pre -> exists s r2, chain s (x :: r2) N /\ exists p2, ret = p2 ++ x :: r2 /\ s + c < N + j + m) /\
      claim k (modseq c (N + j) m)
             (ten_of c ret ++ map (fun p => (p, k)) (modseq c N j)) (eth_of c ret)
      = Ok (ten_of c ret' ++ map (fun p => (p, k)) (modseq c N (j + m)), eth_of c ret').
  Proof.
    induction m as [|m IH]; intros j a0 ret C CH J W.
    - exists [], ret, a0. cbn. repeat split; auto; try lia; try tauto.
      rewrite Nat.add_0_r. reflexivity.
    - destruct (@claim1_step c a0 ret N j k) as (pre1 & r1 & a1 & E1 & CH1 & W1 & PR & CL); auto; try lia.
      destruct (IH (S j) a1 r1) as (pre2 & r2 & a2 & E2 & CH2 & W2 & PR2 & CL2); auto; try lia.
      exists (pre1 ++ pre2), r2, a2. rewrite <- app_assoc, <- E2. repeat split; auto; try lia.
      + intros x I. apply in_app_or in I as [I|I].
        * destruct PR as [[-> _]|(y & -> & E)]; [destruct I|].
          destruct I as [<-|[]]. subst ret. exists a0, r1. split; [exact CH|].
          exists []. split; auto. lia.
        * destruct (PR2 _ I) as (s & q & Hc & p2 & Ep & Lt).
          exists s, q. split; auto. exists (pre1 ++ p2). rewrite <- app_assoc, <- Ep. split; auto. lia.
      + rewrite modseq_S. cbn [claim]. rewrite CL. cbn [bind fst snd].
        replace (S (N + j)) with (N + S j) by lia. rewrite CL2.
        do 3 f_equal. replace (S j + m) with (j + S m) by lia. reflexivity.
  Qed.

  (* ---------------------------------------------------------------- *)
  (* Spec lemmas *)
  Lemma total_app (h1 h2 : list (list T)) : total (h1 ++ h2) = total h1 + total h2.
  Proof. unfold total. now rewrite concat_app, app_length. Qed.
  Lemma total_cons (e : list T) h : total (e :: h) = length e + total h.
  Proof. unfold total. cbn. now rewrite app_length. Qed.

  Lemma fit_app c (x y : list (list T)) :
    total x <= c -> fit c (x ++ y) = x ++ fit (c - total x) y.
  Proof.
    revert c; induction x as [|e r IH]; cbn; intros c L.
    - unfold total; cbn. now rewrite Nat.sub_0_r.
    - rewrite total_cons in L. rewrite total_cons.
      destruct (Nat.leb_spec (length e) c); [|lia].
      rewrite IH by lia. now rewrite Nat.sub_add_distr.
  Qed.

  Lemma total_rev (x : list (list T)) : total (rev x) = total x.
  Proof.
    induction x as [|e r IH]; auto. cbn [rev]. rewrite total_app, IH, !total_cons. unfold total at 2. cbn. lia.
  Qed.

  Lemma fit_spec (es : list (list T)) : forall c,
    exists d, es = fit c es ++ d /\ total (fit c es) <= c /\
      (d = [] \/ exists e d', d = e :: d' /\ c < total (fit c es) + length e).
  Proof.
    induction es as [|e r IH]; intros c; cbn.
    - exists []. unfold total; cbn. repeat split; auto; lia.
    - destruct (Nat.leb_spec (length e) c).
      + destruct (IH (c - length e)) as (d & E & L & M). exists d. cbn. rewrite total_cons.
        split; [congruence|]. split; [lia|]. destruct M as [->|(e1 & d' & -> & M)]; auto.
        right. exists e1, d'. split; auto. lia.
      + exists (e :: r). cbn. unfold total; cbn. repeat split; auto; try lia.
        right. exists e, r. split; auto.
  Qed.

  Lemma fit_longest c (es k d : list (list T)) : es = k ++ d -> total k <= c ->
    length k <= length (fit c es).
  Proof.
    revert es c. induction k as [|e k IH]; intros es c -> L; cbn; [lia|].
    rewrite total_cons in L. destruct (Nat.leb_spec (length e) c); [|lia].
    cbn. specialize (IH (k ++ d) (c - length e) eq_refl ltac:(lia)). lia.
  Qed.

  Lemma retained_longest_suffix cap (hist : list (list T)) :
    (exists d, hist = d ++ retained cap hist) /\ total (retained cap hist) <= cap /\
    (forall d k, hist = d ++ k -> total k <= cap -> length k <= length (retained cap hist)).
  Proof.
    unfold retained. destruct (fit_spec (rev hist) cap) as (d & E & L & _). split; [|split].
    - exists (rev d). rewrite <- rev_app_distr, <- E. symmetry; apply rev_involutive.
    - now rewrite total_rev.
    - intros d1 k -> K. rewrite rev_length, <- (rev_length k).
      eapply fit_longest; [apply rev_app_distr|now rewrite total_rev].
  Qed.

  Lemma retained_split cap (d k : list (list T)) :
    total k <= cap ->
    (d = [] \/ exists d' e, d = d' ++ [e] /\ cap < length e + total k) ->
    retained cap (d ++ k) = k.
  Proof.
    intros L H. unfold retained. rewrite rev_app_distr, fit_app by (now rewrite total_rev).
    rewrite total_rev.
    assert (E : fit (cap - total k) (rev d) = []).
    { destruct H as [->|(d' & e & -> & G)]; cbn; auto.
      rewrite rev_app_distr. cbn. destruct (Nat.leb_spec (length e) (cap - total k)); auto. lia. }
    rewrite E, app_nil_r. apply rev_involutive.
  Qed.

  (* ---------------------------------------------------------------- *)
  (* Buffer invariant.  [hist] = accepted episodes, oldest first. *)
  Definition lens (ret : list epi) (k : list (list T)) : Prop := map eplen ret = map (@length T) k.

  (* Dictionaries only (independent of what the storage holds): they describe the
     chain [ret] ending at write number N. *)
  Record DictInv (c : nat) (b : buffer T) (a0 : nat) (ret : list epi) (N : nat) : Prop := {
    di_ten : b_ten b = ten_of c ret;
    di_eth : b_eth b = eth_of c ret;
    di_chain : chain a0 ret N;
    di_win : N <= a0 + c;
    di_no : forall x, In x ret -> epno x < b_cnt b
  }.

  Record Inv (cap : nat) (b : buffer T) (hist : list (list T)) : Prop := {
    iv_cap : st_cap (b_st b) = cap;
    iv_st : StInv (b_st b) (concat hist);
    iv_di : exists d k ret, hist = d ++ k /\ lens ret k /\
             DictInv cap b (total d) ret (total hist) /\
             (d = [] \/ exists d' e, d = d' ++ [e] /\ cap < length e + total k)
  }.

  Lemma list_eq_dec_nil {A} (l : list A) : l = [] \/ exists l' x, l = l' ++ [x].
  Proof. destruct l as [|x l'] using rev_ind; [auto|right; eauto]. Qed.

  Lemma chain_total s ret e k : chain s ret e -> lens ret k -> e = s + total k.
  Proof.
    unfold lens. revert s k; induction ret as [|[[n s'] l] r IH]; intros s [|x k] C L; cbn in *; try discriminate.
    - unfold total; cbn; lia.
    - injection L as L1 L2. destruct C as (-> & P & C). unfold eplen in L1; cbn in L1.
      apply IH with (k := k) in C; auto. rewrite total_cons. lia.
  Qed.

  Lemma b_new_inv cap : 0 < cap -> Inv cap (b_new cap) [].
  Proof.
    intros C. split; cbn; auto.
    - now apply st_new_inv.
    - exists [], [], []. split; auto. split; [reflexivity|]. split; auto.
      split; cbn; auto; try lia; tauto.
  Qed.

  Lemma b_store_inv cap b hist ep :
    Inv cap b hist -> ep <> [] -> forallb ok ep = true -> length ep <= cap ->
    exists b', b_store_episode ok b ep = (b', Ok tt) /\ Inv cap b' (hist ++ [ep]).
  Proof.
    intros [C S (d & k & ret & EH & LN & DI & MX)] NE OK LE.
    destruct DI as [D1 D2 D3 D4 D5].
    assert (TK : total hist = total d + total k) by (rewrite EH; apply total_app).
    assert (C0 : 0 < cap) by (rewrite <- C; apply S).
    unfold b_store_episode. destruct ep as [|t0 ep0]; [congruence|].
    set (ep := t0 :: ep0) in *. rewrite OK. cbn [negb].
    destruct (@st_store_episode_ok (b_st b) (concat hist) ep) as (s' & E & C' & I'); auto.
    { now rewrite C. }
    rewrite E. rewrite C in *.
    fold (total hist). set (N := total hist) in *. set (m := length ep) in *.
    destruct (@claim_loop cap (b_cnt b) N m 0 (total d) ret) as (pre & r1 & a1 & E1 & CH1 & W1 & PR & CL); auto; try lia.
    rewrite Nat.add_0_r in CL. cbn [modseq seq map] in CL. rewrite app_nil_r in CL.
    rewrite D1, D2, CL. cbn [plus]. cbn [Nat.add] in *.
    eexists; split; [reflexivity|].
    assert (NK : ~ In (b_cnt b) (dkeys (eth_of cap r1))).
    { unfold dkeys, eth_of. rewrite map_map. intros I. apply in_map_iff in I as ([[k1 s1] l1] & E2 & I).
      cbn in E2. subst k1. assert (I2 : In (b_cnt b, s1, l1) ret) by (rewrite E1; apply in_or_app; auto).
      apply D5 in I2. unfold epno in I2; cbn in I2. lia. }
    (* split kept episodes according to ret = pre ++ r1 *)
    set (kd := firstn (length pre) k). set (kk := skipn (length pre) k).
    assert (EK : k = kd ++ kk) by (symmetry; apply firstn_skipn).
    assert (LP : length pre <= length k).
    { unfold lens in LN. apply (f_equal (@length nat)) in LN. rewrite !map_length in LN.
      rewrite <- LN, E1, app_length. lia. }
    assert (LK : lens pre kd /\ lens r1 kk).
    { unfold lens in *. rewrite E1, EK, !map_app in LN.
      apply app_eq_split in LN; auto. rewrite !map_length. unfold kd. rewrite firstn_length. lia. }
    destruct LK as [LK1 LK2].
    pose proof (chain_total _ _ CH1 LK2) as TA.
    assert (TD : a1 = total (d ++ kd)).
    { rewrite total_app. rewrite EK, total_app in TK. lia. }
    assert (TE : total (hist ++ [ep]) = N + m).
    { rewrite total_app, total_cons. unfold total at 2; cbn. fold N m. lia. }
    split; cbn [b_st b_ten b_eth b_cnt].
    - exact C'.
    - rewrite concat_app. cbn. rewrite app_nil_r. exact I'.
    - exists (d ++ kd), (kk ++ [ep]), (r1 ++ [(b_cnt b, N, m)]). split; [|split; [|split]].
      + rewrite EH, EK, <- !app_assoc. reflexivity.
      + unfold lens in *. rewrite !map_app, LK2. reflexivity.
      + split; cbn [b_st b_ten b_eth b_cnt].
        * unfold ten_of. rewrite flat_map_app. cbn. now rewrite app_nil_r.
        * unfold eth_of. rewrite map_app. cbn. now rewrite dset_new.
        * rewrite <- TD, TE. apply chain_app. exists N. split; auto. cbn.
          repeat split; auto; unfold m, ep; cbn; lia.
        * rewrite <- TD, TE. lia.
        * intros x I. apply in_app_or in I as [I|[<-|[]]]; [|cbn; unfold epno; cbn; lia].
          assert (I2 : In x ret) by (rewrite E1; apply in_or_app; auto). apply D5 in I2. lia.
      + assert (TKE : total (kk ++ [ep]) = total kk + m).
        { rewrite total_app, total_cons. unfold total at 2; cbn. fold m. lia. }
        destruct (list_eq_dec_nil pre) as [PE|(pre' & x & PE)].
        * assert (KD : kd = []) by (unfold kd; rewrite PE; reflexivity).
          rewrite KD, app_nil_r. destruct MX as [->|(d' & e & -> & G)]; auto.
          right. exists d', e. split; auto. rewrite TKE. rewrite EK, KD in G. cbn in G. lia.
        * right.
          assert (IX : In x pre) by (rewrite PE; apply in_or_app; right; left; auto).
          assert (LKD : exists kd' e, kd = kd' ++ [e] /\ lens [x] [e]).
          { rewrite PE in LK1. unfold lens in LK1. rewrite map_app in LK1. cbn in LK1.
            symmetry in LK1. apply map_eq_app in LK1 as (u & v & EU & E2 & E3).
            destruct v as [|e [|? ?]]; try discriminate. exists u, e. split; auto.
            unfold lens; cbn. cbn in E3. congruence. }
          destruct LKD as (kd' & e & EKD & LX).
          exists (d ++ kd'), e. rewrite EKD, app_assoc. split; auto.
          rewrite TKE.
          assert (CX : exists s, chain s (x :: r1) N /\ s + cap < N + m).
          { rewrite E1, PE in D3. rewrite <- app_assoc in D3. cbn in D3.
            apply chain_app in D3 as (s & CA & CB). exists s. split; auto.
            destruct (PR _ IX) as (s2 & q & CQ & p2 & EQ & LT).
            (* starts are recorded in x itself *)
            destruct x as [[kx sx] lx]. cbn in CB, CQ. destruct CB as (<- & _). destruct CQ as (<- & _).
            lia. }
          destruct CX as (s & CC & LT).
          assert (LS : lens (x :: r1) (e :: kk)).
          { unfold lens in *. cbn in *. congruence. }
          pose proof (chain_total _ _ CC LS) as TS. rewrite total_cons in TS. lia.
  Qed.

  (* rejected calls *)
  Lemma b_store_empty b : b_store_episode ok b [] = (b, Err EValue).
  Proof. reflexivity. Qed.

  Lemma b_store_missing_inv cap b hist ep :
    Inv cap b hist -> ep <> [] -> forallb ok ep = false ->
    exists b', b_store_episode ok b ep = (b', Err EValue) /\ Inv cap b' hist /\
               b_st b' = b_st b /\ b_ten b' = b_ten b /\ b_eth b' = b_eth b.
  Proof.
    intros I NE OK. unfold b_store_episode. destruct ep as [|t0 ep0]; [congruence|].
    rewrite OK. cbn [negb]. eexists; split; [reflexivity|]. cbn. split; [|auto].
    destruct I as [C S (d & k & ret & EH & LN & [D1 D2 D3 D4 D5] & MX)]. split; cbn; auto.
    exists d, k, ret. split; auto. split; auto. split; auto.
    split; cbn; auto. intros x Hx. apply D5 in Hx. lia.
  Qed.

  Lemma Inv_retained cap b hist : Inv cap b hist ->
    exists d ret, hist = d ++ retained cap hist /\ lens ret (retained cap hist) /\
      DictInv cap b (total d) ret (total hist) /\ total (retained cap hist) <= cap.
  Proof.
    intros [C S (d & k & ret & EH & LN & DI & MX)].
    pose proof (chain_total _ _ (di_chain DI) LN) as TT. pose proof (di_win DI) as W.
    assert (R : retained cap hist = k) by (rewrite EH; apply retained_split; [lia|auto]).
    exists d, ret. rewrite R. split; auto. split; auto. split; auto. lia.
  Qed.

  Lemma index_all_modseq (data W : list T) c a l :
    (forall n, a <= n < a + l -> nth_error data (n mod c) = nth_error W n) ->
    a + l = length W ->
    index_all data (modseq c a l) = Ok (skipn a W).
  Proof.
    revert a. induction l as [|l IH]; intros a H E.
    - cbn. rewrite skipn_all2 by lia. reflexivity.
    - rewrite modseq_S. cbn [index_all]. rewrite H by lia.
      destruct (nth_error W a) as [x|] eqn:NE.
      2:{ apply nth_error_None in NE. lia. }
      rewrite IH; try lia; [|intros; apply H; lia]. cbn [bind].
      f_equal. clear - NE. revert a NE. induction W as [|w W IH]; intros [|a] NE; cbn in *; try discriminate.
      + injection NE as ->. reflexivity.
      + now apply IH.
  Qed.

  Lemma keys_of_inv cap b hist : Inv cap b hist ->
    exists a, dkeys (b_ten b) = modseq cap a (total hist - a) /\
              a + total (retained cap hist) = total hist /\ total (retained cap hist) <= cap /\
              skipn a (concat hist) = concat (retained cap hist).
  Proof.
    intros I. destruct (Inv_retained I) as (d & ret & EH & LN & DI & LE).
    exists (total d). split; [|split; [|split]]; auto.
    - rewrite (di_ten DI). apply dkeys_ten_of. apply DI.
    - rewrite EH at 2. now rewrite total_app.
    - rewrite EH at 1. rewrite concat_app. rewrite skipn_app, skipn_all2 by (unfold total; lia).
      unfold total. now rewrite Nat.sub_diag.
  Qed.

  Lemma data_of_inv cap b hist : Inv cap b hist -> forall a,
    dkeys (b_ten b) = modseq cap a (total hist - a) ->
    a + total (retained cap hist) = total hist -> total (retained cap hist) <= cap ->
    forall n, a <= n < a + (total hist - a) ->
      nth_error (st_data (b_st b)) (n mod cap) = nth_error (concat hist) n.
  Proof.
    intros I a KE TE LE n B. rewrite <- (iv_cap I).
    apply (si_dat (iv_st I)); unfold total in *; rewrite ?(iv_cap I); lia.
  Qed.

  Lemma sample_all_inv cap b hist : Inv cap b hist ->
    sample_all b = Ok (total (retained cap hist), concat (retained cap hist)).
  Proof.
    intros I. destruct (keys_of_inv I) as (a & KE & TE & LE & SK).
    unfold sample_all.
    assert (LT : length (b_ten b) = total (retained cap hist)).
    { transitivity (length (dkeys (b_ten b))); [unfold dkeys; now rewrite map_length|].
      rewrite KE, modseq_length. lia. }
    rewrite KE, LT.
    rewrite (@index_all_modseq _ (concat hist) cap a (total hist - a)).
    - cbn. now rewrite SK.
    - eapply data_of_inv; eauto.
    - unfold total in *. lia.
  Qed.

  (* picking keys at positions [pick] reads the same positions of the retained log *)
  Lemma sample_random_inv cap b hist n pick : Inv cap b hist ->
    (forall i, In i pick -> i < total (retained cap hist)) ->
    exists xs, sample_random b n pick = Ok (Nat.min (total (retained cap hist)) n, xs) /\
      index_all (concat (retained cap hist)) pick = Ok xs.
  Proof.
    intros I P. destruct (keys_of_inv I) as (a & KE & TE & LE & SK).
    assert (LT : length (b_ten b) = total (retained cap hist)).
    { transitivity (length (dkeys (b_ten b))); [unfold dkeys; now rewrite map_length|].
      rewrite KE, modseq_length. lia. }
    unfold sample_random, sample_count. rewrite LT, KE. clear LT.
    assert (LR : length (concat (retained cap hist)) = total hist - a) by (fold (total (retained cap hist)); lia).
    induction pick as [|i r IH].
    - exists []. split; reflexivity.
    - destruct IH as (xs & E1 & E2). { intros; apply P; right; auto. }
      pose proof (P i (or_introl eq_refl)) as Hi.
      assert (K : nth_error (modseq cap a (total hist - a)) i = Some ((a + i) mod cap)).
      { unfold modseq. rewrite nth_error_map. rewrite nth_error_nth' with (d := 0).
        - cbn. rewrite seq_nth; [reflexivity|lia].
        - rewrite seq_length. lia. }
      assert (DI : nth_error (st_data (b_st b)) ((a + i) mod cap) = nth_error (concat (retained cap hist)) i).
      { rewrite (@data_of_inv cap b hist I a) by (auto; lia). rewrite <- SK.
        clear. generalize (concat hist) as W. induction a as [|a IH]; intros W; [reflexivity|].
        destruct W as [|w W]; cbn.
        - destruct i; reflexivity.
        - apply IH. }
      cbn [index_all]. rewrite K.
      destruct (index_all (modseq cap a (total hist - a)) r) as [hs|] eqn:EH; [|discriminate].
      cbn [bind] in E1 |- *. cbn [index_all]. rewrite DI.
      destruct (nth_error (concat (retained cap hist)) i) as [x|] eqn:EX.
      2:{ apply nth_error_None in EX. unfold total in Hi. lia. }
      rewrite E2. cbn [bind].
      destruct (index_all (st_data (b_st b)) hs) as [ys|]; [|discriminate]. cbn [bind] in E1 |- *.
      injection E1 as ->. exists (x :: xs). split; reflexivity.
  Qed.

  Lemma b_size_inv cap b hist : Inv cap b hist -> b_size b = Nat.min (total hist) cap.
  Proof. intros I. unfold b_size. rewrite (si_len (iv_st I)), (iv_cap I). reflexivity. Qed.

  Lemma run_inv cap eps : 0 < cap -> (forall e, In e eps -> length e <= cap) ->
    Inv cap (b_run ok (b_new cap) (map (@BStore T) eps)) (accepted ok eps).
  Proof.
    intros C.
    cut (forall b hist, Inv cap b hist -> (forall e, In e eps -> length e <= cap) ->
         Inv cap (b_run ok b (map (@BStore T) eps)) (hist ++ accepted ok eps)).
    { intros H L. apply (H _ []); auto. now apply b_new_inv. }
    induction eps as [|e r IH]; intros b hist I L.
    - cbn. now rewrite app_nil_r.
    - cbn [map]. unfold b_run. cbn [fold_left]. fold (b_run ok (b_step ok b (BStore e)) (map (@BStore T) r)).
      assert (LE : length e <= cap) by (apply L; left; auto).
      assert (LR : forall x, In x r -> length x <= cap) by (intros; apply L; right; auto).
      cbn [b_step]. unfold accepted; cbn [filter]; fold (accepted ok r).
      destruct e as [|t0 e0].
      + cbn [b_store_episode fst]. apply IH; auto.
      + destruct (forallb ok (t0 :: e0)) eqn:OK.
        * destruct (@b_store_inv cap b hist (t0 :: e0)) as (b' & E & I'); auto; [congruence|].
          rewrite E. cbn [fst].
          change (hist ++ (t0 :: e0) :: accepted ok r) with (hist ++ [t0 :: e0] ++ accepted ok r).
          rewrite app_assoc. apply IH; auto.
        * destruct (@b_store_missing_inv cap b hist (t0 :: e0)) as (b' & E & I' & _); auto; [congruence|].
          rewrite E. cbn [fst]. apply IH; auto.
  Qed.

  (* clear: stale dictionaries *)
  Lemma clear_sample_all_raises cap b hist : Inv cap b hist -> retained cap hist <> [] ->
    (forall e, In e hist -> e <> []) ->
    sample_all (b_clear b) = Err EIndex /\ b_size (b_clear b) = 0.
  Proof.
    intros I NE NN. split; [|reflexivity].
    destruct (keys_of_inv I) as (a & KE & TE & LE & SK).
    unfold sample_all, b_clear; cbn [b_st b_ten st_clear st_data].
    rewrite KE.
    assert (P : 0 < total (retained cap hist)).
    { destruct (Inv_retained I) as (d & ret & EH & _).
      destruct (retained cap hist) as [|e r]; [congruence|]. rewrite total_cons.
      assert (e <> []) by (apply NN; rewrite EH; apply in_or_app; right; left; auto).
      destruct e; [congruence|cbn; lia]. }
    destruct (total hist - a) as [|l] eqn:E; [lia|].
    rewrite modseq_S. cbn. now destruct (a mod cap).
  Qed.

  Lemma clear_sample_random_raises cap b hist n pick : Inv cap b hist ->
    pick <> [] -> (forall i, In i pick -> i < total (retained cap hist)) ->
    sample_random (b_clear b) n pick = Err EIndex.
  Proof.
    intros I NE P. destruct (keys_of_inv I) as (a & KE & TE & LE & SK).
    unfold sample_random, b_clear; cbn [b_st b_ten st_clear st_data]. rewrite KE.
    destruct (@index_all_ok _ (modseq cap a (total hist - a)) pick) as (hs & E & L & _).
    { intros i Hi. rewrite modseq_length. apply P in Hi. lia. }
    rewrite E. cbn [bind]. destruct hs as [|h r]; [destruct pick; [congruence|discriminate]|].
    cbn. now destruct h.
  Qed.

  (* oversized episode: dictionaries unchanged, storage overwritten *)
  Lemma b_store_over cap b hist ep : Inv cap b hist -> forallb ok ep = true -> cap < length ep ->
    exists b', b_store_episode ok b ep = (b', Err EValue) /\
      b_ten b' = b_ten b /\ StInv (b_st b') (concat hist ++ ep).
  Proof.
    intros I OK L. unfold b_store_episode. destruct ep as [|t0 e0]; [cbn in L; lia|].
    rewrite OK. cbn [negb].
    destruct (@st_store_episode_over (b_st b) (concat hist) (t0 :: e0)) as (s' & E & C & S); auto.
    { apply I. } { now rewrite (iv_cap I). }
    rewrite E. eexists; split; [reflexivity|]. cbn. auto.
  Qed.

  (* statements on runs used by the property file *)
  Notation after cap eps := (b_run ok (b_new cap) (map (@BStore T) eps)).

  Lemma run_pick_distinct cap eps pick hs :
    0 < cap -> (forall e, In e eps -> length e <= cap) -> NoDup pick ->
    index_all (dkeys (b_ten (after cap eps))) pick = Ok hs ->
    NoDup hs /\ (forall h, In h hs -> h < b_size (after cap eps)).
  Proof.
    intros C L ND E. pose proof (run_inv eps C L) as I.
    destruct (keys_of_inv I) as (a & KE & TE & LE & SK). rewrite KE in E.
    assert (NDM : NoDup (modseq cap a (total (accepted ok eps) - a))) by (apply modseq_NoDup; auto; lia).
    pose proof (index_all_map _ _ E) as M.
    split.
    - clear - E ND NDM M. revert hs E M. induction pick as [|i r IH]; intros hs E M.
      + cbn in M. destruct hs; [constructor|discriminate].
      + destruct hs as [|h hs]; [discriminate|]. cbn in M. injection M as M1 M2.
        inversion ND as [|? ? N1 N2]; subst. constructor.
        * intros I. apply (in_map Some) in I. rewrite <- M2 in I.
          apply in_map_iff in I as (j & Ej & Ij).
          rewrite NoDup_nth_error in NDM.
          assert (i = j); [|congruence].
          apply NDM; [|congruence]. apply nth_error_Some. rewrite M1. discriminate.
        * apply IH; auto. cbn in E. rewrite M1 in E.
          destruct (index_all (modseq cap a (total (accepted ok eps) - a)) r); [|discriminate].
          cbn in E. injection E as ->. reflexivity.
    - intros h Hh. apply (in_map Some) in Hh. rewrite <- M in Hh.
      apply in_map_iff in Hh as (j & Ej & _).
      apply nth_error_In in Ej. apply In_modseq in Ej as (n & <- & B).
      rewrite (b_size_inv I).
      destruct (Nat.le_gt_cases cap (total (accepted ok eps))) as [G|G].
      + rewrite Nat.min_r by lia. apply Nat.mod_upper_bound. lia.
      + rewrite Nat.min_l by lia. rewrite Nat.mod_small by lia. lia.
  Qed.

  Lemma accepted_ne eps e : In e (accepted ok eps) -> e <> [].
  Proof. unfold accepted. rewrite filter_In. intros [_ H] ->. discriminate. Qed.

  Lemma run_clear_raises cap eps :
    0 < cap -> (forall e, In e eps -> length e <= cap) ->
    retained cap (accepted ok eps) <> [] ->
    sample_all (b_clear (after cap eps)) = Err EIndex /\
    (forall n pick, pick <> [] ->
       (forall i, In i pick -> i < total (retained cap (accepted ok eps))) ->
       sample_random (b_clear (after cap eps)) n pick = Err EIndex).
  Proof.
    intros C L NE. pose proof (run_inv eps C L) as I. split.
    - eapply clear_sample_all_raises; eauto. intros e; apply accepted_ne.
    - intros n pick NP P. eapply clear_sample_random_raises; eauto.
  Qed.

  Lemma run_reject cap eps ep :
    0 < cap -> (forall e, In e eps -> length e <= cap) ->
    ep = [] \/ forallb ok ep = false ->
    snd (b_store_episode ok (after cap eps) ep) = Err EValue /\
    let b' := fst (b_store_episode ok (after cap eps) ep) in
    b_st b' = b_st (after cap eps) /\ b_ten b' = b_ten (after cap eps) /\
    b_eth b' = b_eth (after cap eps).
  Proof.
    intros C L [->|OK]; [cbn; auto|].
    destruct (@b_store_missing_inv cap (after cap eps) _ ep (run_inv eps C L)) as (b' & E & _ & R1 & R2 & R3); auto.
    { intros ->; discriminate. }
    rewrite E. cbn. auto.
  Qed.

  Lemma run_over cap eps ep :
    0 < cap -> (forall e, In e eps -> length e <= cap) ->
    forallb ok ep = true -> cap < length ep ->
    let b := after cap eps in
    let b' := fst (b_store_episode ok b ep) in
    snd (b_store_episode ok b ep) = Err EValue /\ b_ten b' = b_ten b /\
    (forall h, In h (dkeys (b_ten b')) -> exists x, nth_error (st_data (b_st b')) h = Some x /\ In x ep).
  Proof.
    intros C L OK LE b b'. pose proof (run_inv eps C L) as I. fold b in I.
    destruct (@b_store_over cap b _ ep I) as (b1 & E & TE & S); auto.
    unfold b'. rewrite E. cbn [fst snd]. split; auto. split; auto.
    intros h Hh. rewrite TE in Hh.
    destruct (keys_of_inv I) as (a & KE & _ & _ & _). rewrite KE in Hh.
    apply In_modseq in Hh as (n & <- & _).
    assert (CP : st_cap (b_st b1) = cap).
    { unfold b_store_episode in E. destruct ep; [cbn in LE; lia|]. rewrite OK in E. cbn [negb] in E.
      destruct (@st_store_episode_over (b_st b) (concat (accepted ok eps)) (t :: ep)) as (s1 & E1 & C1 & _).
      - apply I. - now rewrite (iv_cap I).
      - rewrite E1 in E. injection E as <-. cbn. now rewrite C1, (iv_cap I). }
    set (M := length (concat (accepted ok eps))) in *.
    set (W := concat (accepted ok eps) ++ ep) in *.
    assert (LW : length W = M + length ep) by (unfold W; apply app_length).
    (* the last write to slot n mod cap *)
    assert (exists q, q < length W /\ length W <= q + cap /\ q mod cap = n mod cap) as (q & Q1 & Q2 & Q3).
    { set (r := n mod cap). assert (r < cap) by (apply Nat.mod_upper_bound; lia).
      set (base := length W - cap).
      exists (base + ((r + cap - base mod cap) mod cap)).
      assert (X : (r + cap - base mod cap) mod cap < cap) by (apply Nat.mod_upper_bound; lia).
      assert (Y : base mod cap < cap) by (apply Nat.mod_upper_bound; lia).
      split; [unfold base in *; lia|]. split; [unfold base in *; lia|].
      rewrite Nat.add_mod_idemp_r by lia.
      rewrite (Nat.div_mod base cap) at 1 by lia.
      replace (cap * (base / cap) + base mod cap + (r + cap - base mod cap))
        with (r + (base / cap + 1) * cap) by lia.
      rewrite Nat.mod_add by lia. apply Nat.mod_small; auto. }
    pose proof (si_dat S) as D. rewrite CP in D. specialize (D q Q1 Q2). rewrite Q3 in D. rewrite D.
    destruct (nth_error W q) as [x|] eqn:NX; [|apply nth_error_None in NX; lia].
    exists x. split; auto. unfold W in NX. rewrite nth_error_app2 in NX by (fold M; lia).
    eapply nth_error_In; eauto.
  Qed.
End Proofs.
