(* C169, C170: perturbed actors of ARS and their names, machin/frame/algorithms/ars.py. *)
From Coq Require Import Ascii QArith.
From Verif Require Import Lib.Rat Lib.Base Model.LoadSave Model.Losses Model.Ars Model.ArsActors Spec.LoadSaveSpec Proofs.LoadSaveProofs
  Props.PropsArs.
Close Scope Q_scope.
Set Implicit Arguments.

(* ---- specification: what a name denotes ---- *)
Definition space (c : ascii) : Prop := let n := nat_of_ascii c in 9 <= n <= 13 \/ 28 <= n <= 32.
(* a decimal number, possibly with a sign and surrounded by white space *)
Inductive int_text : name -> Z -> Prop :=
| it_plain w1 ds w2 v : Forall space w1 -> Forall space w2 -> reads ds v -> int_text (w1 ++ ds ++ w2) (Z.of_nat v)
| it_plus w1 ds w2 v : Forall space w1 -> Forall space w2 -> reads ds v -> int_text (w1 ++ ("+"%char :: ds) ++ w2) (Z.of_nat v)
| it_minus w1 ds w2 v : Forall space w1 -> Forall space w2 -> reads ds v -> int_text (w1 ++ ("-"%char :: ds) ++ w2) (- Z.of_nat v).
Definition sign_prefix (b : bool) : name :=
  if b then ["p"; "o"; "s"; "i"; "t"; "i"; "v"; "e"; "_"]%char else ["n"; "e"; "g"; "a"; "t"; "i"; "v"; "e"; "_"]%char.
(* prefix, number, and possibly anything after a further underscore *)
Definition denotes (s : name) (z : Z) (b : bool) : Prop :=
  exists body tail, s = sign_prefix b ++ body ++ tail /\ ~ In "_"%char body /\
    (tail = [] \/ exists t, tail = "_"%char :: t) /\ int_text body z.

(* ---- reading names ---- *)
Lemma is_space_spec c : is_space c = true <-> space c.
Proof.
  unfold is_space, space. destruct c as [[] [] [] [] [] [] [] []]; vm_compute;
    (split; [intros H; try discriminate H; (left; split; lia) || (right; split; lia)|intros [[H1 H2]|[H1 H2]]; try reflexivity; exfalso; lia]).
Qed.
Lemma digit_not_space c : is_digit c = true -> is_space c = false.
Proof. destruct c as [[] [] [] [] [] [] [] []]; vm_compute; congruence. Qed.
Lemma digit_not_sign c : is_digit c = true -> c <> "+"%char /\ c <> "-"%char /\ c <> "_"%char.
Proof. intros H. repeat split; intros ->; discriminate. Qed.
Lemma space_not_us c : is_space c = true -> c <> "_"%char.
Proof. intros H ->. discriminate. Qed.
Lemma drop_space_spec s : exists w, s = w ++ drop_space s /\ Forall (fun c => is_space c = true) w /\
  (forall c r, drop_space s = c :: r -> is_space c = false).
Proof.
  induction s as [|c s IH]; [exists []; cbn; repeat split; auto; discriminate|]. cbn. destruct (is_space c) eqn:E.
  - destruct IH as (w & H1 & H2 & H3). exists (c :: w). cbn. split; [now rewrite <- H1|]. auto.
  - exists []. repeat split; auto. intros c' r' [= <- <-]. exact E.
Qed.
Lemma drop_space_app w c r : Forall (fun c => is_space c = true) w -> is_space c = false -> drop_space (w ++ c :: r) = c :: r.
Proof. induction 1 as [|a w Ha F IH]; cbn; intros E; [now rewrite E|]. rewrite Ha. auto. Qed.
(* a core without white space at its ends *)
Definition core (m : name) : Prop := (exists c r, m = c :: r /\ is_space c = false) /\ (exists c r, m = r ++ [c] /\ is_space c = false).
Lemma strip_core w1 m w2 : Forall (fun c => is_space c = true) w1 -> Forall (fun c => is_space c = true) w2 -> core m ->
  strip (w1 ++ m ++ w2) = m.
Proof.
  intros F1 F2 [(c & r & E & N) (c' & r' & E' & N')]. unfold strip.
  rewrite E. cbn [app]. rewrite drop_space_app by auto. change (c :: r ++ w2) with ((c :: r) ++ w2). rewrite <- E, E'.
  rewrite !rev_app_distr. cbn. rewrite drop_space_app; auto; [|now apply Forall_rev].
  cbn. now rewrite rev_involutive.
Qed.
Lemma strip_inv s : exists w1 w2, s = w1 ++ strip s ++ w2 /\ Forall (fun c => is_space c = true) w1 /\ Forall (fun c => is_space c = true) w2.
Proof.
  destruct (drop_space_spec s) as (w1 & E1 & F1 & _). destruct (drop_space_spec (rev (drop_space s))) as (w2 & E2 & F2 & _).
  exists w1, (rev w2). unfold strip. rewrite <- rev_app_distr, <- E2, rev_involutive. repeat split; auto. now apply Forall_rev.
Qed.
Lemma digits_value_spec ds v : digits_value ds = Ok v <-> reads ds v.
Proof.
  rewrite reads_int. unfold digits_value. destruct ds as [|c r]; [split; [discriminate|intros [H _]; congruence]|].
  destruct (forallb is_digit (c :: r)) eqn:F.
  - apply Forall_forallb in F. split; [intros [= <-]; repeat split; auto; discriminate|intros (_ & _ & ->); reflexivity].
  - split; [discriminate|]. intros (_ & H & _). apply Forall_forallb in H. congruence.
Qed.
Lemma digits_value_err ds e : digits_value ds = Err e -> e = EValue.
Proof. unfold digits_value. destruct ds; [intros [= <-]; auto|]. destruct (forallb _ _); [discriminate|intros [= <-]; auto]. Qed.
Lemma reads_last ds v : reads ds v -> exists c r, ds = r ++ [c] /\ is_space c = false.
Proof.
  intros H. apply reads_int in H as (N & F & _). destruct ds as [|c r] using rev_ind; [congruence|].
  exists c, r. split; auto. apply Forall_app in F as [_ F]. inversion F; subst. now apply digit_not_space.
Qed.
Lemma reads_first ds v : reads ds v -> exists c r, ds = c :: r /\ is_digit c = true.
Proof. intros H. apply reads_int in H as (N & F & _). destruct ds as [|c r]; [congruence|]. inversion F; subst. eauto. Qed.
Lemma spaces w : Forall (fun c => is_space c = true) w <-> Forall space w.
Proof. split; apply Forall_impl; intros c; apply is_space_spec. Qed.

(* the shape of the argument of digits_value in py_int *)
Definition unsigned (s : name) : (Z -> Z) * name :=
  match s with "+"%char :: r => (fun z => z, r) | "-"%char :: r => (Z.opp, r) | r => (fun z => z, r) end.
Lemma py_int_unsigned s : py_int s = bind (digits_value (snd (unsigned (strip s)))) (fun v => Ok (fst (unsigned (strip s)) (Z.of_nat v))).
Proof.
  unfold py_int. destruct (strip s) as [|c r]; [reflexivity|].
  destruct c as [[] [] [] [] [] [] [] []]; reflexivity.
Qed.
Lemma unsigned_digit c r : is_digit c = true -> unsigned (c :: r) = (fun z => z, c :: r).
Proof. destruct c as [[] [] [] [] [] [] [] []]; vm_compute; congruence. Qed.
Lemma unsigned_cases s : (unsigned s = (fun z => z, s)) \/ (exists r, s = "+"%char :: r /\ unsigned s = (fun z => z, r)) \/
  (exists r, s = "-"%char :: r /\ unsigned s = (Z.opp, r)).
Proof.
  destruct s as [|c r]; [left; reflexivity|].
  destruct c as [[] [] [] [] [] [] [] []]; try (left; reflexivity); [right; left|right; right]; eauto.
Qed.
Lemma py_int_spec s z : py_int s = Ok z <-> int_text s z.
Proof.
  rewrite py_int_unsigned. split.
  - destruct (strip_inv s) as (w1 & w2 & E & F1 & F2). apply spaces in F1, F2.
    destruct (digits_value (snd (unsigned (strip s)))) as [v|] eqn:D; cbn [bind]; [|discriminate]. intros [= <-].
    apply digits_value_spec in D. destruct (unsigned_cases (strip s)) as [U|[(r & Er & U)|(r & Er & U)]]; rewrite U in D |- *; cbn [fst snd] in D |- *; rewrite E.
    + now constructor.
    + rewrite Er. now constructor.
    + rewrite Er. now constructor.
  - intros H. assert (G : forall w1 m w2, Forall space w1 -> Forall space w2 -> core m -> strip (w1 ++ m ++ w2) = m).
    { intros. apply strip_core; auto; now apply spaces. }
    destruct H as [w1 ds w2 v F1 F2 R|w1 ds w2 v F1 F2 R|w1 ds w2 v F1 F2 R];
      destruct (reads_first R) as (c & r & E & Dc); destruct (reads_last R) as (c' & r' & E' & Sc).
    + assert (C : core ds) by (split; [exists c, r; split; auto; now apply digit_not_space|eauto]).
      rewrite (G _ _ _ F1 F2 C), E, unsigned_digit by auto. cbn [fst snd]. rewrite <- E.
      apply digits_value_spec in R. rewrite R. reflexivity.
    + rewrite (G w1 ("+"%char :: ds) w2 F1 F2). { cbn [unsigned fst snd]. apply digits_value_spec in R. rewrite R. reflexivity. }
      split; [eauto|]. exists c', ("+"%char :: r'). split; auto. now rewrite E'.
    + rewrite (G w1 ("-"%char :: ds) w2 F1 F2). { cbn [unsigned fst snd]. apply digits_value_spec in R. rewrite R. reflexivity. }
      split; [eauto|]. exists c', ("-"%char :: r'). split; auto. now rewrite E'.
Qed.
Lemma py_int_err s e : py_int s = Err e -> e = EValue.
Proof. rewrite py_int_unsigned. destruct (digits_value _) eqn:D; cbn; [discriminate|]. intros [= <-]. now apply digits_value_err in D. Qed.

Lemma split_first s : exists body tail rest, s = body ++ tail /\ split_us s = body :: rest /\ ~ In "_"%char body /\ (tail = [] \/ exists t, tail = "_"%char :: t).
Proof.
  induction s as [|c s IH]; [exists [], [], []; cbn; repeat split; auto|]. cbn.
  destruct (Ascii.eqb_spec c "_") as [->|N].
  - exists [], ("_"%char :: s), (split_us s). cbn. repeat split; eauto.
  - destruct IH as (body & tail & rest & E & S & Nb & T). rewrite S. exists (c :: body), tail, rest. cbn. rewrite <- E.
    repeat split; auto. intros [H|H]; congruence.
Qed.
Lemma split_body body tail : ~ In "_"%char body -> (tail = [] \/ exists t, tail = "_"%char :: t) -> exists rest, split_us (body ++ tail) = body :: rest.
Proof.
  intros N T. induction body as [|c b IH].
  - destruct T as [->|(t & ->)]; cbn; eauto.
  - cbn. destruct (Ascii.eqb_spec c "_") as [->|Nc]; [exfalso; apply N; now left|].
    destruct IH as (rest & ->); [intros H; apply N; now right|]. eauto.
Qed.
Lemma startswith_spec p s : startswith p s = true <-> exists r, s = p ++ r.
Proof.
  revert s. induction p as [|a p IH]; intros s; cbn; [split; eauto|]. destruct s as [|b s]; [split; [discriminate|intros (r & H); discriminate]|].
  rewrite andb_true_iff, IH. destruct (Ascii.eqb_spec a b) as [->|N].
  - split; [intros (_ & r & ->); eauto|intros (r & [= ->]); eauto].
  - split; [intros (H & _); discriminate|intros (r & [= -> _]); congruence].
Qed.
Lemma parse_prefixed (b : bool) r : parse (sign_prefix b ++ r) = match split_us r with p :: _ => bind (py_int p) (fun i => Ok (i, b)) | [] => Err EIndex end.
Proof. unfold parse. destruct b; cbn; destruct (split_us r); reflexivity. Qed.
Lemma parse_spec s z b : parse s = Ok (z, b) <-> denotes s z b.
Proof.
  split.
  - intros P. assert (H : exists b' r, s = sign_prefix b' ++ r).
    { unfold parse in P. destruct (startswith positive_ s) eqn:E1.
      - apply startswith_spec in E1 as (r & ->). exists true, r. reflexivity.
      - destruct (startswith negative_ s) eqn:E2; [|discriminate]. apply startswith_spec in E2 as (r & ->). exists false, r. reflexivity. }
    destruct H as (b' & r & ->). rewrite parse_prefixed in P.
    destruct (split_first r) as (body & tail & rest & E & S & N & T). rewrite S in P.
    destruct (py_int body) as [i|] eqn:I; [|discriminate]. cbn in P. injection P as <- <-.
    exists body, tail. rewrite <- E. repeat split; auto. now apply py_int_spec.
  - intros (body & tail & -> & N & T & I). rewrite parse_prefixed.
    destruct (split_body _ N T) as (rest & ->). apply py_int_spec in I. rewrite I. reflexivity.
Qed.
Lemma parse_err s e : parse s = Err e -> e = EValue.
Proof.
  unfold parse. destruct (startswith positive_ s || startswith negative_ s)%bool eqn:E; [|intros [= <-]; auto].
  assert (H : exists b' r, s = sign_prefix b' ++ r).
  { apply orb_true_iff in E as [E|E]; apply startswith_spec in E as (r & ->); [exists true, r|exists false, r]; reflexivity. }
  destruct H as (b' & r & ->). intros P. assert (Q : parse (sign_prefix b' ++ r) = Err e) by (unfold parse; rewrite E; exact P).
  rewrite parse_prefixed in Q. destruct (split_first r) as (body & tail & rest & _ & S & _). rewrite S in Q.
  destruct (py_int body) eqn:I; cbn in Q; [discriminate|]. injection Q as <-. now apply py_int_err in I.
Qed.
Lemma denotes_name k : denotes (actor_name k) (Z.of_nat (fst k)) (snd k).
Proof.
  destruct k as [r b]. exists (show r), []. rewrite app_nil_r. split; [destruct b; reflexivity|]. split; [|split; [auto|]].
  - intros I. pose proof (of_dec_digits (Nat.to_uint r)) as F. rewrite Forall_forall in F. apply F in I. discriminate.
  - cbn [fst]. rewrite <- (app_nil_r (show r)), <- (app_nil_l (show r ++ [])). constructor; auto. apply reads_show.
Qed.
Lemma actor_name_inj k k' : actor_name k = actor_name k' -> k = k'.
Proof.
  intros E. pose proof (denotes_name k) as D. pose proof (denotes_name k') as D'. rewrite E in D.
  apply parse_spec in D, D'. rewrite D in D'. injection D' as E1 E2. destruct k, k'. cbn in *. f_equal; [lia|auto].
Qed.

Lemma key_of_spec z : (exists r, z = Z.of_nat r /\ key_of z = Ok r) \/ ((z < 0)%Z /\ key_of z = Err EKey).
Proof. unfold key_of. destruct (Z.ltb_spec z 0); [right; auto|left]. exists (Z.to_nat z). split; [lia|auto]. Qed.
Lemma key_of_nat r : key_of (Z.of_nat r) = Ok r.
Proof. unfold key_of. destruct (Z.ltb_spec (Z.of_nat r) 0); [lia|]. now rewrite Nat2Z.id. Qed.
Lemma denotes_det s z b z' b' : denotes s z b -> denotes s z' b' -> z = z' /\ b = b'.
Proof. intros D D'. apply parse_spec in D, D'. rewrite D in D'. now injection D' as -> ->. Qed.
Lemma original_denotes_nothing z b : ~ denotes original z b.
Proof. intros D. apply parse_spec in D. discriminate. Qed.

(* Whatever the name, act() uses the base actor for "original" and otherwise the perturbed actor the name
   denotes; a name denoting nothing is a ValueError, one denoting no actor of this worker a KeyError. *)
Theorem C169_act : forall M (base : M) actors s, NoDup (dkeys actors) ->
  choose base actors original = Ok base /\
  (forall r b m, In ((r, b), m) actors -> choose base actors (sign_prefix b ++ show r) = Ok m) /\
  (forall m, s <> original -> choose base actors s = Ok m <-> exists r b, denotes s (Z.of_nat r) b /\ In ((r, b), m) actors) /\
  (choose base actors s = Err EValue <-> s <> original /\ forall z b, ~ denotes s z b) /\
  (choose base actors s = Err EKey <-> exists z b, denotes s z b /\ forall r m, z = Z.of_nat r -> ~ In ((r, b), m) actors) /\
  (forall e, choose base actors s = Err e -> e = EValue \/ e = EKey).
Proof.
  intros M base actors s ND.
  assert (G : forall s m, s <> original -> choose base actors s = Ok m <-> exists r b, denotes s (Z.of_nat r) b /\ In ((r, b), m) actors).
  { clear s. intros s m NO. unfold choose. destruct (eqb_spec s original); [contradiction|]. split.
    - destruct (parse s) as [[z b]|] eqn:P; [|discriminate]. cbn [bind]. apply parse_spec in P.
      destruct (key_of_spec z) as [(r & -> & ->)|[_ ->]]; cbn [bind]; [|discriminate].
      destruct (dget (r, b) actors) as [m'|] eqn:D; [|discriminate]. intros [= ->]. apply dget_Some_In in D. eauto.
    - intros (r & b & D & I). apply parse_spec in D. rewrite D. cbn [bind]. rewrite key_of_nat. cbn [bind].
      rewrite (dget_In _ _ _ ND I). reflexivity. }
  split; [reflexivity|]. split.
  { intros r b m I. apply G.
    - intros E. apply (@original_denotes_nothing (Z.of_nat r) b). rewrite <- E. pose proof (denotes_name (r, b)) as D. destruct b; exact D.
    - exists r, b. split; auto. pose proof (denotes_name (r, b)) as D. destruct b; exact D. }
  split; [intros m; apply G|]. unfold choose. destruct (eqb_spec s original) as [->|NO].
  { repeat split; try discriminate; try (intros [H _]; congruence).
    intros (z & b & D & _). exfalso. exact (original_denotes_nothing D). }
  destruct (parse s) as [[z b]|e] eqn:P; cbn [bind].
  - apply parse_spec in P. destruct (key_of_spec z) as [(r & -> & ->)|[Nz ->]]; cbn [bind].
    + destruct (dget (r, b) actors) as [m'|] eqn:D.
      * repeat split; try discriminate; [intros [_ H]; exfalso; eapply H; eauto|].
        intros (z' & b' & D' & H). destruct (denotes_det P D') as [<- <-]. apply dget_Some_In in D. exfalso. eapply H; eauto.
      * repeat split; try discriminate; try (intros [_ H]; exfalso; eapply H; eauto; fail); [|intros e [= <-]; auto].
        intros _. exists (Z.of_nat r), b. split; auto. intros r' m' E I. apply Nat2Z.inj in E. subst r'.
        rewrite (dget_In _ _ _ ND I) in D. discriminate.
    + repeat split; try discriminate; try (intros [_ H]; exfalso; eapply H; eauto; fail); [|intros e [= <-]; auto].
      intros _. exists z, b. split; auto. intros r' m' E. lia.
  - pose proof (parse_err _ P) as ->. repeat split; auto; try discriminate.
    + intros z b D. apply parse_spec in D. congruence.
    + intros (z & b & D & _). apply parse_spec in D. congruence.
    + intros e [= <-]. auto.
Qed.
Print Assumptions C169_act.

(* rewards of a sequence of store_reward calls whose name denotes one of the two actors of rollout r *)
Inductive collected {R} (r : nat) (b : bool) : list (R * name) -> list R -> Prop :=
| col_nil : collected r b [] []
| col_take x s l xs : denotes s (Z.of_nat r) b -> collected r b l xs -> collected r b ((x, s) :: l) (x :: xs)
| col_skip x s l xs : ~ denotes s (Z.of_nat r) b -> collected r b l xs -> collected r b ((x, s) :: l) xs.

Lemma reset_dget R rollouts r : forall (d : rewards (R := R)), dget r (fold_left (fun d r => dset r ([], []) d) rollouts d) =
  if existsb (Nat.eqb r) rollouts then Some ([], []) else dget r d.
Proof.
  induction rollouts as [|a l IH]; intros d; [reflexivity|]. cbn [fold_left]. rewrite IH. cbn [existsb].
  destruct (existsb (Nat.eqb r) l); [now rewrite orb_true_r|]. rewrite orb_false_r. destruct (Nat.eqb_spec r a) as [->|N].
  - apply dget_dset_same.
  - apply dget_dset_other; congruence.
Qed.
Lemma store_cases R (d : rewards (R := R)) x s :
  (exists r b neg pos, denotes s (Z.of_nat r) b /\ dget r d = Some (neg, pos) /\
     store_reward d x s = (dset r (if (b : bool) then (neg, pos ++ [x]) else (neg ++ [x], pos)) d, Ok tt)) \/
  (store_reward d x s = (d, Err EKey) /\ exists z b, denotes s z b /\ forall r, z = Z.of_nat r -> dget r d = None) \/
  (store_reward d x s = (d, Err EValue) /\ forall z b, ~ denotes s z b).
Proof.
  unfold store_reward. destruct (parse s) as [[z b]|e] eqn:P; cbn [bind].
  - apply parse_spec in P. destruct (key_of_spec z) as [(r & -> & ->)|[Nz ->]]; cbn [bind].
    + destruct (dget r d) as [[neg pos]|] eqn:D.
      * left. exists r, b, neg, pos. auto.
      * right; left. split; auto. exists (Z.of_nat r), b. split; auto. intros r' E. apply Nat2Z.inj in E. now subst.
    + right; left. split; auto. exists z, b. split; auto. intros r' E. lia.
  - pose proof (parse_err _ P) as ->. right; right. split; auto. intros z b D. apply parse_spec in D. congruence.
Qed.

(* Each call stores its reward with the actor its name denotes, or is refused without effect. *)
Theorem C169_store_reward : forall R rollouts (l : list (R * name)) x s,
  let d := store_rewards (reset_reward rollouts) l in
  (* where the rewards are *)
  (forall r, In r rollouts -> exists neg pos, dget r d = Some (neg, pos) /\ collected r false l neg /\ collected r true l pos) /\
  (forall r, ~ In r rollouts -> dget r d = None) /\
  (* which calls are refused *)
  (snd (store_reward d x s) = Ok tt <-> exists r b, In r rollouts /\ denotes s (Z.of_nat r) b) /\
  (snd (store_reward d x s) = Err EValue <-> forall z b, ~ denotes s z b) /\
  (snd (store_reward d x s) = Err EKey <-> exists z b, denotes s z b /\ forall r, z = Z.of_nat r -> ~ In r rollouts) /\
  (snd (store_reward d x s) <> Ok tt -> fst (store_reward d x s) = d).
Proof.
  intros R rollouts l x s d.
  assert (G : forall (l0 : list (R * name)) d0,
    (forall r, dget r (store_rewards d0 l0) = None <-> dget r d0 = None) /\
    (forall r neg0 pos0, dget r d0 = Some (neg0, pos0) -> exists neg pos, dget r (store_rewards d0 l0) = Some (neg0 ++ neg, pos0 ++ pos) /\ collected r false l0 neg /\ collected r true l0 pos)).
  { clear. induction l0 as [|[y t] l0 IH]; intros d0.
    - split; [reflexivity|]. intros r n p E. exists [], []. rewrite !app_nil_r. repeat split; auto; constructor.
    - cbn [store_rewards fold_left fst snd]. fold (store_rewards (fst (store_reward d0 y t)) l0).
      destruct (store_cases d0 y t) as [(r0 & b & n0 & p0 & Dn & Dg & E)|[[E (z & b & Dn & Nk)]|[E Nd]]]; rewrite E; cbn [fst].
      + destruct (IH (dset r0 (if b then (n0, p0 ++ [y]) else (n0 ++ [y], p0)) d0)) as [I1 I2]. split.
        * intros r. rewrite I1. destruct (Nat.eq_dec r r0) as [->|N]; [rewrite dget_dset_same; split; congruence|rewrite dget_dset_other by congruence; auto; reflexivity].
        * intros r n p Er. destruct (Nat.eq_dec r r0) as [->|N].
          -- rewrite Dg in Er. injection Er as <- <-.
             destruct b.
             ++ destruct (I2 r0 n0 (p0 ++ [y])) as (n1 & p1 & E1 & C1 & C2); [apply dget_dset_same|].
                exists n1, (y :: p1). rewrite E1, <- app_assoc. split; [reflexivity|]. split; [|now apply col_take].
                apply col_skip; auto. intros D. destruct (denotes_det Dn D). discriminate.
             ++ destruct (I2 r0 (n0 ++ [y]) p0) as (n1 & p1 & E1 & C1 & C2); [apply dget_dset_same|].
                exists (y :: n1), p1. rewrite E1, <- app_assoc. split; [reflexivity|]. split; [now apply col_take|].
                apply col_skip; auto. intros D. destruct (denotes_det Dn D). discriminate.
          -- destruct (I2 r n p) as (n1 & p1 & E1 & C1 & C2); [rewrite dget_dset_other by congruence; exact Er|].
             exists n1, p1. split; auto.
             split; (apply col_skip; auto; intros D; destruct (denotes_det Dn D) as [X _]; apply Nat2Z.inj in X; congruence).
      + destruct (IH d0) as [I1 I2]. split; auto. intros r n p Er. destruct (I2 r n p Er) as (n1 & p1 & E1 & C1 & C2).
        exists n1, p1. split; auto. split; (apply col_skip; auto; intros D; destruct (denotes_det Dn D) as [X _]; apply Nk in X; congruence).
      + destruct (IH d0) as [I1 I2]. split; auto. intros r n p Er. destruct (I2 r n p Er) as (n1 & p1 & E1 & C1 & C2).
        exists n1, p1. split; auto. split; (apply col_skip; auto). }
  destruct (G l (reset_reward rollouts)) as [G1 G2]. fold d in G1, G2.
  assert (RD : forall r, dget r (reset_reward (R := R) rollouts) = if existsb (Nat.eqb r) rollouts then Some ([], []) else None).
  { intros r. unfold reset_reward. now rewrite reset_dget. }
  assert (IE : forall r, existsb (Nat.eqb r) rollouts = true <-> In r rollouts).
  { intros r. rewrite existsb_exists. split; [intros (y & I & E); apply Nat.eqb_eq in E; now subst|intros I; exists r; split; auto; apply Nat.eqb_refl]. }
  assert (A : forall r, In r rollouts -> exists neg pos, dget r d = Some (neg, pos) /\ collected r false l neg /\ collected r true l pos).
  { intros r I. apply IE in I. destruct (G2 r [] []) as (n & p & E & C1 & C2); [rewrite RD, I; reflexivity|]. exists n, p. auto. }
  assert (B : forall r, ~ In r rollouts -> dget r d = None).
  { intros r I. apply G1. rewrite RD. destruct (existsb (Nat.eqb r) rollouts) eqn:E; auto. apply IE in E. contradiction. }
  assert (B' : forall r, dget r d = None -> ~ In r rollouts) by (intros r E I; destruct (A r I) as (? & ? & X & _); congruence).
  assert (DI : forall r v, dget r d = Some v -> In r rollouts).
  { intros r v E. destruct (existsb (Nat.eqb r) rollouts) eqn:X; [now apply IE|]. rewrite B in E; [discriminate|]. intros I. apply IE in I. congruence. }
  split; [exact A|]. split; [exact B|].
  destruct (store_cases d x s) as [(r0 & b & n0 & p0 & Dn & Dg & E)|[[E (z & b & Dn & Nk)]|[E Nd]]]; rewrite E; cbn [fst snd].
  - repeat split; try discriminate; try congruence.
    + intros _. exists r0, b. split; auto. eauto.
    + intros H. exfalso. eapply H; eauto.
    + intros (z & b' & D & H). destruct (denotes_det Dn D) as [<- _]. exfalso. eapply H; eauto.
  - repeat split; try discriminate; auto.
    + intros (r & b' & I & D). destruct (denotes_det Dn D) as [-> _]. specialize (Nk r eq_refl). apply B' in Nk. contradiction.
    + intros H. exfalso. eapply H; eauto.
    + intros _. exists z, b. split; auto.
  - repeat split; try discriminate; auto.
    + intros (r & b' & I & D). exfalso. eapply Nd; eauto.
    + intros (z & b' & D & H). exfalso. eapply Nd; eauto.
Qed.
Print Assumptions C169_store_reward.

(* ---- C170 ---- *)
Section Gen.
  Variable noise : list Qc.
  Variable ix : nat -> name -> nat.
  (* contract of randint(0, len(noise) - size + 1) *)
  Definition drawn (r : nat) (base : params) : Prop :=
    forall n p, In (n, p) base -> length p <= length noise -> ix r n <= length noise - length p.

  Lemma map2_len A B C (f : A -> B -> C) : forall (a : list A) (b : list B), length a = length b -> length (map2 f a b) = length a.
  Proof. induction a as [|x a IH]; intros [|y b] E; try discriminate; cbn; auto. Qed.
  Lemma map2_nth_lt A B C (f : A -> B -> C) da db dc : forall (a : list A) (b : list B) k, length a = length b -> k < length a ->
    nth k (map2 f a b) dc = f (nth k a da) (nth k b db).
  Proof. induction a as [|x a IH]; intros [|y b] [|k] E L; cbn in *; try lia; auto. apply IH; lia. Qed.

  Lemma perturb_spec r (base : params) : (forall n p, In (n, p) base -> length p <= length noise) -> drawn r base ->
    exists pp pn d, perturb noise ix r base = Ok (pp, pn, d) /\
      map fst pp = map fst base /\ map fst pn = map fst base /\ d = map (fun np => (fst np, ix r (fst np))) base /\
      forall j n p, nth_error base j = Some (n, p) ->
        exists p1 p2, nth_error pp j = Some (n, p1) /\ nth_error pn j = Some (n, p2) /\
          length p1 = length p /\ length p2 = length p /\
          forall k, k < length p -> nth k p1 0%Qc = (nth k p 0 + nth (ix r n + k) noise 0)%Qc /\
                                    nth k p2 0%Qc = (nth k p 0 - nth (ix r n + k) noise 0)%Qc.
  Proof.
    induction base as [|[n p] base IH]; intros S D.
    - exists [], [], []. cbn. repeat split; auto. intros [|j] n p; discriminate.
    - destruct IH as (pp & pn & d & E & F1 & F2 & F3 & F4).
      { intros n' p' I. apply (S n' p'). now right. }
      { intros n' p' I. apply (D n' p'). now right. }
      assert (Sp : length p <= length noise) by (apply (S n p); now left).
      assert (Dp : ix r n <= length noise - length p) by (apply (D n p); [now left|auto]).
      destruct (proj1 (C58_partial _ noise (length p) (ix r n)) Sp Dp) as (sl & E1 & L1 & N1 & _).
      cbn [perturb]. rewrite E1. cbn [bind]. rewrite E. cbn [bind].
      do 3 eexists. split; [reflexivity|]. cbn [map fst]. rewrite F1, F2, F3. repeat split; auto.
      intros [|j] n' p' Ej; cbn [nth_error] in Ej |- *.
      + injection Ej as <- <-. do 2 eexists. split; [reflexivity|]. split; [reflexivity|].
        split; [apply map2_len; auto|]. split; [apply map2_len; auto|]. intros k Hk.
        rewrite !(map2_nth_lt _ 0%Qc 0%Qc) by auto. rewrite (N1 k 0%Qc Hk). auto.
      + apply F4. exact Ej.
  Qed.

  Definition spread (r : nat) (base : params) (act : list ((nat * bool) * params)) (dl : list (nat * list (name * nat))) : Prop :=
    exists pp pn, dget (r, true) act = Some pp /\ dget (r, false) act = Some pn /\
      dget r dl = Some (map (fun np => (fst np, ix r (fst np))) base) /\ map fst pp = map fst base /\ map fst pn = map fst base /\
      forall j n p, nth_error base j = Some (n, p) ->
        exists p1 p2, nth_error pp j = Some (n, p1) /\ nth_error pn j = Some (n, p2) /\
          length p1 = length p /\ length p2 = length p /\
          forall k, k < length p -> nth k p1 0%Qc = (nth k p 0 + nth (ix r n + k) noise 0)%Qc /\
                                    nth k p2 0%Qc = (nth k p 0 - nth (ix r n + k) noise 0)%Qc.

  Lemma generate_spec (base : params) rollouts : (forall n p, In (n, p) base -> length p <= length noise) -> (forall r, In r rollouts -> drawn r base) ->
    NoDup rollouts -> forall act dl, (forall r b, In r rollouts -> ~ In (r, b) (dkeys act)) ->
    exists act' dl', generate noise ix base rollouts act dl = Ok (act', dl') /\
      dkeys act' = dkeys act ++ flat_map (fun r => [(r, false); (r, true)]) rollouts /\
      (forall r, In r rollouts -> spread r base act' dl') /\
      (forall r, ~ In r rollouts -> dget r dl' = dget r dl /\ forall b, dget (r, b) act' = dget (r, b) act).
  Proof.
    intros S. induction rollouts as [|r rest IH]; intros D ND act dl NI.
    - exists act, dl. cbn. rewrite app_nil_r. repeat split; auto; intros; contradiction.
    - inversion ND as [|? ? Nr ND']; subst.
      destruct (@perturb_spec r base S) as (pp & pn & d & E & F1 & F2 & F3 & F4); [apply D; now left|].
      cbn [generate]. rewrite E. cbn [bind].
      assert (K1 : dkeys (dset (r, false) pn act) = dkeys act ++ [(r, false)]).
      { rewrite dset_new by (apply NI; now left). unfold dkeys. now rewrite map_app. }
      assert (K2 : dkeys (dset (r, true) pp (dset (r, false) pn act)) = dkeys act ++ [(r, false); (r, true)]).
      { rewrite dset_new.
        - unfold dkeys in *. rewrite map_app, K1, <- app_assoc. reflexivity.
        - rewrite K1. intros I. apply in_app_or in I as [I|[I|[]]]; [|discriminate]. apply (NI r true); [now left|auto]. }
      destruct (IH (fun r' I => D r' (or_intror I)) ND' (dset (r, true) pp (dset (r, false) pn act)) (dset r d dl)) as (act' & dl' & G1 & G2 & G3 & G4).
      { intros r' b I J. rewrite K2 in J. apply in_app_or in J as [J|[J|[J|[]]]]; [apply (NI r' b); [now right|auto]| |]; injection J as -> _; contradiction. }
      exists act', dl'. split; [exact G1|]. split; [rewrite G2, K2, <- app_assoc; reflexivity|]. split.
      + intros r' [<-|I]; [|now apply G3]. destruct (G4 r Nr) as [H1 H2]. exists pp, pn. rewrite !H2, H1.
        rewrite dget_dset_same. rewrite dget_dset_other by congruence. rewrite dget_dset_same, dget_dset_same, <- F3. repeat split; auto.
      + intros r' N. assert (N1 : ~ In r' rest) by (intros I; apply N; now right). assert (N2 : r <> r') by (intros ->; apply N; now left).
        destruct (G4 r' N1) as [H1 H2]. split; [rewrite H1; now apply dget_dset_other|].
        intros b. rewrite H2, !dget_dset_other by congruence. reflexivity.
  Qed.
End Gen.

(* Every local rollout r gets two actors: "positive" has parameters p + d and "negative" p - d, element by
   element, where d is the piece of the noise array at the index recorded for (r, parameter name) - the
   piece from which the gradient is computed later (C57). The names of the actors to evaluate are exactly
   negative_r, positive_r for the local rollouts. *)
Theorem C170_perturbed : forall noise ix (base : params) rollout_num w_num w dl, 0 < w_num -> w < w_num ->
  let mine := local_rollouts rollout_num w_num w in
  NoDup (map fst base) -> (forall n p, In (n, p) base -> length p <= length noise) -> (forall r, In r mine -> drawn noise ix r base) ->
  exists act dl', generate_parameter noise ix base mine dl = Ok (act, dl') /\
    get_actor_types act = flat_map (fun r => [sign_prefix false ++ show r; sign_prefix true ++ show r]) mine /\
    NoDup (get_actor_types act) /\
    forall r n p, In r mine -> In (n, p) base ->
      exists i pp pn p1 p2 ds,
        dget r dl' = Some ds /\ dget n ds = Some i /\ i + length p <= length noise /\
        choose base act (sign_prefix true ++ show r) = Ok pp /\ dget n pp = Some p1 /\
        choose base act (sign_prefix false ++ show r) = Ok pn /\ dget n pn = Some p2 /\
        length p1 = length p /\ length p2 = length p /\
        forall k, k < length p ->
          nth k p1 0%Qc = (nth k p 0 + nth k (noise_get noise i (length p)) 0)%Qc /\
          nth k p2 0%Qc = (nth k p 0 - nth k (noise_get noise i (length p)) 0)%Qc.
Proof.
  intros noise ix base rn wn w dl Hw Hlt mine NB SZ DR.
  assert (NM : NoDup mine).
  { pose proof (proj1 (C40_partition rn wn Hw)) as S.
    assert (N : NoDup (concat (map (local_rollouts rn wn) (seq 0 wn)))) by (rewrite S; apply seq_NoDup).
    assert (I : In mine (map (local_rollouts rn wn) (seq 0 wn))) by (apply in_map, in_seq; lia).
    clear -N I. induction (map (local_rollouts rn wn) (seq 0 wn)) as [|a l IH]; [destruct I|]. cbn in N.
    destruct I as [->|I].
    - clear -N. induction mine as [|x m IH]; [constructor|]. cbn in N. inversion N; subst. constructor; [|auto]. intros J. apply H1, in_or_app. now left.
    - apply IH; auto. clear -N. induction a as [|x a IH]; [exact N|]. cbn in N. inversion N; subst. auto. }
  destruct (@generate_spec noise ix base mine SZ DR NM [] dl) as (act & dl' & E & K & SP & _); [intros r b _ []|].
  exists act, dl'. split; [exact E|]. cbn [app] in K.
  assert (NK : NoDup (dkeys act)).
  { rewrite K. cbn. clear -NM. induction NM as [|r l Nr NM IH]; [constructor|]. cbn.
    assert (NI : forall b, ~ In (r, b) (flat_map (fun r => [(r, false); (r, true)]) l)).
    { intros b I. apply in_flat_map in I as (r' & I & J). destruct J as [J|[J|[]]]; injection J as -> _; contradiction. }
    constructor; [intros [J|J]; [discriminate|exact (NI _ J)]|]. constructor; [apply NI|auto]. }
  split.
  { unfold get_actor_types. rewrite K. cbn. clear. induction mine as [|r l IH]; [reflexivity|]. cbn [flat_map map app]. rewrite IH. reflexivity. }
  split.
  { unfold get_actor_types. clear -NK. induction NK as [|k l Nk NK IH]; [constructor|]. cbn. constructor; auto.
    intros I. apply in_map_iff in I as (k' & Ek & I). apply actor_name_inj in Ek. now subst. }
  intros r n p Ir Ip. destruct (SP r Ir) as (pp & pn & D1 & D2 & D3 & F1 & F2 & F).
  apply In_nth_error in Ip as (j & Ej). destruct (F j n p Ej) as (p1 & p2 & E1 & E2 & L1 & L2 & EL).
  pose proof (nth_error_In _ _ Ej) as Ip.
  assert (GN : forall (q : params) x, map fst q = map fst base -> nth_error q j = Some (n, x) -> dget n q = Some x).
  { intros q x Q1 Q2. apply dget_In; [unfold dkeys; now rewrite Q1|]. eapply nth_error_In; eauto. }
  assert (B : ix r n <= length noise - length p) by (apply (DR r Ir n p Ip); eauto).
  assert (SZp : length p <= length noise) by eauto.
  exists (ix r n), pp, pn, p1, p2, (map (fun np => (fst np, ix r (fst np))) base).
  split; [exact D3|]. split.
  { apply dget_In; [unfold dkeys; rewrite map_map; cbn; exact NB|]. apply in_map_iff. exists (n, p). auto. }
  split; [lia|].
  pose proof (proj1 (proj2 (@C169_act params base act [] NK))) as CH.
  split; [apply CH, dget_Some_In; exact D1|]. split; [now apply GN|].
  split; [apply CH, dget_Some_In; exact D2|]. split; [now apply GN|]. split; [exact L1|]. split; [exact L2|].
  intros k Hk. destruct (EL k Hk) as [A1 A2].
  assert (NG : nth k (noise_get noise (ix r n) (length p)) 0%Qc = nth (ix r n + k) noise 0%Qc).
  { destruct (proj1 (C58_partial _ noise (length p) (ix r n)) SZp B) as (sl & _ & _ & N1 & <-). now apply N1. }
  rewrite NG. auto.
Qed.
Print Assumptions C170_perturbed.

(* A parameter with more elements than the noise array makes the constructor and every update fail. *)
Theorem C170_small_noise : forall noise ix (base : params) rollouts dl n p,
  rollouts <> [] -> In (n, p) base -> length noise < length p ->
  generate_parameter noise ix base rollouts dl = Err EValue.
Proof.
  intros noise ix base [|r rest] dl n p NE I L; [congruence|]. unfold generate_parameter. cbn [generate].
  assert (E : perturb noise ix r base = Err EValue).
  { induction base as [|[n' p'] base IH]; [destruct I|]. cbn [perturb]. unfold noise_sample at 1.
    destruct (Nat.leb_spec (length noise + 1) (length p')) as [G|G]; [reflexivity|]. cbn [bind].
    destruct I as [I|I]; [injection I as -> ->; lia|]. rewrite IH by auto. reflexivity. }
  rewrite E. reflexivity.
Qed.
Print Assumptions C170_small_noise.

Example C170_nonvacuous :
  match generate_parameter (map q [1; 2; 3; 4]%Z) (fun r _ => r) [(["w"%char], map q [10; 20]%Z)] (local_rollouts 3 2 1) [] with
  | Ok (act, dl) =>
      get_actor_types act = [sign_prefix false ++ ["2"%char]; sign_prefix true ++ ["2"%char]] /\
      dl = [(2, [(["w"%char], 2)])] /\
      map (fun s => match choose [] act s with Ok [(_, p)] => map this p | _ => [] end) (get_actor_types act) = [[7; 16]; [13; 24]]%Q
  | Err _ => False
  end.
Proof. vm_compute. repeat split. Qed.

(* "positive_1", "negative_1_x", "positive_ +01", "original", "positive_7" *)
Example C169_nonvacuous :
  let d := reset_reward (R := nat) [0; 1] in
  let s t := sign_prefix true ++ t in
  dget 1 (store_rewards d [(5, s ["1"%char]); (6, sign_prefix false ++ ["1"; "_"; "x"]%char); (7, s [" "; "+"; "0"; "1"]%char); (8, original)]) = Some ([6], [5; 7]) /\
  snd (store_reward d 1 original) = Err EValue /\ snd (store_reward d 1 (s ["7"%char])) = Err EKey /\
  snd (store_reward d 1 (s ["-"; "1"]%char)) = Err EKey /\ snd (store_reward d 1 (s [])) = Err EValue.
Proof. vm_compute. repeat split. Qed.
