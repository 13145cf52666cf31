(* C124-C125: the submission functions of Pool. *)
From Coq Require Import Lia.
From Verif Require Import Lib.Base Model.PoolProxy.
Set Implicit Arguments.

Section Proxy.
  Context {F D V KW R Ctx CB : Type}.
  Variables (dump : F -> D) (load : D -> F) (kw0 : KW).
  Variable call : F -> list V -> KW -> res R.
  Variable call_ctx : F -> Ctx -> list V -> KW -> res R.
  Hypothesis LD : forall f, load (dump f) = f.
  Let runp (q : @request D V KW CB) : list (res R) := map (proxy_caller load call) (r_tasks q).
  Let runc (ctx : Ctx) (q : @request D V KW CB) : list (res R) := map (proxy_ctx_caller load call_ctx ctx) (r_tasks q).
  Let kws (o : option KW) : KW := match o with Some k => k | None => kw0 end.

  (* ---- C124: the workers evaluate the function itself on the submitted arguments ---- *)
  Theorem C124_apply f args kwds :
    runp (pool_apply dump kw0 f args kwds) = [call f args (kws kwds)] /\
    forall cb ecb, runp (pool_apply_async dump kw0 f args kwds cb ecb) = [call f args (kws kwds)].
  Proof. split; intros; unfold runp, proxy_caller; cbn; now rewrite LD. Qed.
  Theorem C124_map f xs cb ecb :
    runp (pool_map dump kw0 f xs) = map (fun x => call f [x] kw0) xs /\
    runp (pool_map_async dump kw0 f xs cb ecb) = map (fun x => call f [x] kw0) xs.
  Proof.
    assert (H : forall cb ecb, runp (pool_map_async dump kw0 f xs cb ecb) = map (fun x => call f [x] kw0) xs).
    { intros. unfold runp. cbn [pool_map_async r_tasks]. unfold proxy_dumper. rewrite !map_map. apply map_ext. intros x.
      unfold proxy_caller. cbn. now rewrite LD. }
    split; [apply H|apply H].
  Qed.
  Theorem C124_starmap f l cb ecb :
    runp (pool_starmap dump kw0 f l) = map (fun args => call f args kw0) l /\
    runp (pool_starmap_async dump kw0 f l cb ecb) = map (fun args => call f args kw0) l.
  Proof.
    assert (H : forall cb ecb, runp (pool_starmap_async dump kw0 f l cb ecb) = map (fun args => call f args kw0) l).
    { intros. unfold runp. cbn [pool_starmap_async r_tasks]. unfold proxy_dumper. rewrite !map_map. apply map_ext. intros a.
      unfold proxy_caller. cbn. now rewrite LD. }
    split; apply H.
  Qed.
  (* CtxPool: additionally the context of the worker that runs the task, as first argument *)
  Theorem C124_ctx ctx f args kwds xs l cb ecb :
    runc ctx (pool_apply dump kw0 f args kwds) = [call_ctx f ctx args (kws kwds)] /\
    runc ctx (pool_apply_async dump kw0 f args kwds cb ecb) = [call_ctx f ctx args (kws kwds)] /\
    runc ctx (pool_map_async dump kw0 f xs cb ecb) = map (fun x => call_ctx f ctx [x] kw0) xs /\
    runc ctx (pool_starmap_async dump kw0 f l cb ecb) = map (fun args => call_ctx f ctx args kw0) l.
  Proof.
    unfold runc. repeat split; cbn [pool_apply pool_apply_async pool_map_async pool_starmap_async r_tasks];
      unfold proxy_dumper; rewrite ?map_map; cbn [map].
    - unfold proxy_ctx_caller. cbn. now rewrite LD.
    - unfold proxy_ctx_caller. cbn. now rewrite LD.
    - apply map_ext. intros. unfold proxy_ctx_caller. cbn. now rewrite LD.
    - apply map_ext. intros. unfold proxy_ctx_caller. cbn. now rewrite LD.
  Qed.
End Proxy.
Print Assumptions C124_apply.
Print Assumptions C124_map.
Print Assumptions C124_starmap.
Print Assumptions C124_ctx.
Example C124_nonvacuous :
  let call (f : nat) (a : list nat) (k : nat) : res nat := match a with [] => Err EType | _ => Ok (f + fold_right Nat.add 0 a + k) end in
  let dump f := f + 1000 in let load d := d - 1000 in
  map (proxy_caller load call) (r_tasks (@pool_starmap nat nat nat nat unit dump 0 5 [[1; 2]; []; [3]])) = [Ok 8; Err EType; Ok 8] /\
  map (proxy_caller load call) (r_tasks (@pool_apply_async nat nat nat nat unit dump 0 5 [1] (Some 7) None None)) = [Ok 13].
Proof. split; reflexivity. Qed.

(* ---- C125: the callbacks given by the caller are those BasePool calls ---- *)
Section Callbacks.
  Context {F D V KW CB : Type} (dump : F -> D) (kw0 : KW).
  Theorem C125_map_partial f (xs : list V) (l : list (list V)) (cb ecb : option CB) :
    r_callback (pool_map_async dump kw0 f xs cb ecb) = cb /\ r_error (pool_map_async dump kw0 f xs cb ecb) = ecb /\
    r_callback (pool_starmap_async dump kw0 f l cb ecb) = cb /\ r_error (pool_starmap_async dump kw0 f l cb ecb) = ecb.
  Proof. repeat split. Qed.
  Theorem C125_refuted f (args : list V) kwds (cb ecb : CB) :
    r_callback (pool_apply_async dump kw0 f args kwds (Some cb) (Some ecb)) = None /\
    r_error (pool_apply_async dump kw0 f args kwds (Some cb) (Some ecb)) = None.
  Proof. split; reflexivity. Qed.
End Callbacks.
Print Assumptions C125_map_partial.
Print Assumptions C125_refuted.
Example C125_nonvacuous :
  r_callback (@pool_map_async nat nat nat unit nat (fun f => f) tt 1 [1; 2] (Some 3) (Some 4)) = Some 3 /\
  r_error (@pool_map_async nat nat nat unit nat (fun f => f) tt 1 [1; 2] (Some 3) (Some 4)) = Some 4 /\
  r_tasks (@pool_map_async nat nat nat unit nat (fun f => f) tt 1 [1; 2] (Some 3) (Some 4)) = [[Tuple (MkPacked 1 [1] tt)]; [Tuple (MkPacked 1 [2] tt)]].
Proof. repeat split; reflexivity. Qed.
