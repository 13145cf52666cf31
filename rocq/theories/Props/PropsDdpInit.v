(* C157: the world a training process joins. *)
From Verif Require Import Model.DdpInit.
Open Scope Z_scope.

(* the given rank and world size or those of the environment, the address of the master and the port after it; as long as
   the given world size is that of the environment *)
Definition wanted (given own : option Z) : option Z := match given with Some x => Some x | None => own end.
Theorem C157_partial : forall c a p rank size r s, c_addr c = Some a -> c_port c = Some p -> c_size c <> None ->
  size = None \/ size = c_size c -> wanted rank (c_rank c) = Some r -> wanted size (c_size c) = Some s ->
  init_ddp_connection c false rank size = Ok (Some (MkW r r s (a, p) (a, p + 1))).
Proof.
  intros c a p rank size r s A P N S R W. unfold init_ddp_connection. rewrite A, P.
  assert (c_size c = Some s) as -> by (destruct S as [-> | ->]; [exact W|destruct (c_size c); auto]). cbn [assert_world_config bind].
  change (match rank with Some r0 => Some r0 | None => c_rank c end) with (wanted rank (c_rank c)). now rewrite R.
Qed.
Print Assumptions C157_partial.
(* a world size given explicitly is never used *)
Theorem C157_refuted : forall c rank size w, init_ddp_connection c false rank (Some size) = Ok (Some w) ->
  c_size c = Some (w_size w) /\ (c_size c <> Some size -> w_size w <> size).
Proof.
  intros c rank size w H. assert (c_size c = Some (w_size w)) as E.
  { revert H. unfold init_ddp_connection. destruct (c_addr c), (c_port c), (c_size c); try discriminate. cbn [assert_world_config bind].
    destruct rank as [r|]; [|destruct (c_rank c) as [r|]; [|discriminate]]; intros [= <-]; reflexivity. }
  split; auto. congruence.
Qed.
Print Assumptions C157_refuted.
(* a missing address, port or size is refused, with a world already there or not *)
Theorem C157_missing : forall c inited rank size, c_addr c = None \/ c_port c = None \/ c_size c = None ->
  init_ddp_connection c inited rank size = Err EAssert.
Proof.
  intros c inited rank size H. unfold init_ddp_connection, assert_world_config.
  destruct (c_addr c), (c_port c), (c_size c); cbn; auto. destruct H as [|[|]]; discriminate.
Qed.
Print Assumptions C157_missing.
(* no second world *)
Theorem C157_once : forall c rank size w, init_ddp_connection c true rank size <> Ok (Some w).
Proof.
  intros c rank size w. unfold init_ddp_connection, assert_world_config. destruct (c_addr c), (c_port c), (c_size c); discriminate.
Qed.
Print Assumptions C157_once.
Example C157_nonvacuous :
  let c := MkC (Some "10.0.0.1"%string) (Some 29500) (Some 4) (Some 2) in
  init_ddp_connection c false None None = Ok (Some (MkW 2 2 4 ("10.0.0.1"%string, 29500) ("10.0.0.1"%string, 29501))) /\
  init_ddp_connection c false (Some 3) (Some 8) = Ok (Some (MkW 3 3 4 ("10.0.0.1"%string, 29500) ("10.0.0.1"%string, 29501))) /\
  init_ddp_connection (MkC None (Some 1) (Some 4) (Some 2)) false None None = Err EAssert.
Proof. repeat split. Qed.
