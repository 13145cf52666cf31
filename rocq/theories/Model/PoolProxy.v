(* machin/parallel/pool.py: how Pool (968-1080), P2PPool and CtxPool hand functions to BasePool, and what the worker
   evaluates: proxy_caller 31-40, proxy_ctx_caller 43-52, proxy_dumper 55-64.

   Simplifications: dumps and loads are inverse (C63-C65 treat them); a function takes a list of positional arguments
   and a keyword dictionary and returns a value or raises; BasePool (Model/Pool.v, C24-C27) evaluates the pairs it is
   given. *)
From Verif Require Import Lib.Base.
Set Implicit Arguments.

Section Proxy.
  Context {F D V KW R Ctx CB : Type}.
  Variables (dump : F -> D) (load : D -> F) (kw0 : KW).
  Variable call : F -> list V -> KW -> res R.                (* func( *args, **kwargs) *)
  Variable call_ctx : F -> Ctx -> list V -> KW -> res R.     (* func(ctx, *args, **kwargs) *)

  (* a serialised call (func_str, args, kwargs), and the value a proxy receives as one positional argument *)
  Record packed := MkPacked { p_fun : D; p_args : list V; p_kw : KW }.
  Inductive item := Tuple (p : packed) | Part1 (d : D) | Part2 (a : list V) | Part3 (k : KW).
  (* proxy_caller( *input_ ), 31-40; unpacking anything else is an error *)
  Definition unpack (input : list item) : res packed :=
    match input with
    | [Tuple p] => Ok p
    | [Part1 d; Part2 a; Part3 k] => Ok (MkPacked d a k)
    | _ => Err EValue
    end.
  Definition proxy_caller (input : list item) : res R :=
    bind (unpack input) (fun p => call (load (p_fun p)) (p_args p) (p_kw p)).
  (* 43-52; the context is that of the worker *)
  Definition proxy_ctx_caller (ctx : Ctx) (input : list item) : res R :=
    bind (unpack input) (fun p => call_ctx (load (p_fun p)) ctx (p_args p) (p_kw p)).

  (* what BasePool is asked to run: the positional arguments for the proxy, one list per task, and the callbacks *)
  Record request := MkReq { r_tasks : list (list item); r_callback : option CB; r_error : option CB }.
  (* 968-984: args=((dumps(func), args, kwds),) *)
  Definition pool_apply (f : F) (args : list V) (kwds : option KW) : request :=
    MkReq [[Tuple (MkPacked (dump f) args (match kwds with Some k => k | None => kw0 end))]] None None.
  (* 986-1003: without the trailing comma, so the proxy gets three arguments; the callbacks are not passed on *)
  Definition pool_apply_async (f : F) (args : list V) (kwds : option KW) (cb ecb : option CB) : request :=
    MkReq [[Part1 (dump f); Part2 args; Part3 (match kwds with Some k => k | None => kw0 end)]] None None.
  (* 55-64 *)
  Definition proxy_dumper (f : F) (l : list (list V)) : list item :=
    let d := dump f in map (fun a => Tuple (MkPacked d a kw0)) l.
  (* 1005-1032: one argument per element; map calls the proxy with each item *)
  Definition pool_map_async (f : F) (xs : list V) (cb ecb : option CB) : request :=
    MkReq (map (fun i => [i]) (proxy_dumper f (map (fun x => [x]) xs))) cb ecb.
  Definition pool_map (f : F) (xs : list V) : request := pool_map_async f xs None None.
  (* 1060-1080: BasePool.starmap unpacks the three components of each item, pool.py 27-28 *)
  Definition star (i : item) : list item :=
    match i with Tuple p => [Part1 (p_fun p); Part2 (p_args p); Part3 (p_kw p)] | x => [x] end.
  Definition pool_starmap_async (f : F) (l : list (list V)) (cb ecb : option CB) : request :=
    MkReq (map star (proxy_dumper f l)) cb ecb.
  Definition pool_starmap (f : F) (l : list (list V)) : request := pool_starmap_async f l None None.
End Proxy.
