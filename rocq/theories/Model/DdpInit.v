(* machin/auto/pl_plugin.py: assert_world_config 16-31, init_ddp_connection of both plugins 35-70, 99-135 (the same code).
   The cluster environment is the values its methods return; the World constructor is modelled by World.v, here only
   its arguments are.  Ports, ranks and sizes are taken to be integers (strings of digits) when they are there. *)
From Verif Require Export Lib.Base.
From Coq Require Export String.
Close Scope string_scope.
Open Scope Z_scope.

Record cluster := MkC { c_addr : option string; c_port : option Z; c_size : option Z; c_rank : option Z }.
Record wargs := MkW { w_name : Z; w_rank : Z; w_size : Z; w_dist : string * Z; w_rpc : string * Z }.
(* 16-31 *)
Definition assert_world_config (a : option string) (p s : option Z) : res unit :=
  match a with None => Err EAssert | Some _ =>
  match p with None => Err EAssert | Some _ =>
  match s with None => Err EAssert | Some _ => Ok tt end end end.
(* the result: the World constructed, None if there is one already *)
Definition init_ddp_connection (c : cluster) (inited : bool) (global_rank world_size : option Z) : res (option wargs) :=
  let world_size := c_size c in                                                     (* 40 *)
  let global_rank := match global_rank with Some r => Some r | None => c_rank c end in
  let world_size := match world_size with Some s => Some s | None => c_size c end in
  bind (assert_world_config (c_addr c) (c_port c) world_size) (fun _ =>
  if inited then Ok None else
  match global_rank, c_addr c, c_port c, world_size with
  | Some r, Some a, Some p, Some s => Ok (Some (MkW r r s (a, p) (a, p + 1)))
  | _, _, _, _ => Err EType                                                        (* int(None) *)
  end).
