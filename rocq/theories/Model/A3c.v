(* machin/frame/algorithms/a3c.py: syncing and update (109-165) on top of A2C.update (a2c.py 328-422) and
   A2C.store_episode (269-313); PushPullGradServer.push and pull (parallel/server/param_server.py 164-205).

   Simplifications: the gradient of a mini batch, clipped, is an argument (it may fail: an empty buffer, a network that
   raises); parameters and gradients are values of arbitrary types; what the server answers to a pull is an argument,
   so other processes may push at any time; losses, train / eval switches and the buffer are left out. *)
From Verif Require Import Lib.Base Lib.Rat Model.Returns.
Open Scope nat_scope.
Set Implicit Arguments.

Section Update.
  Context {P G B : Type}.
  Variables (zero : G) (add : G -> G -> G).
  (* a network: parameters, and the gradient tensors; None before the first backward pass *)
  Record net := MkNet { prm : P; grd : option G }.
  (* module.zero_grad(): tensors are zeroed, None stays None *)
  Definition zero_grad (n : net) : net := MkNet (prm n) (option_map (fun _ => zero) (grd n)).
  (* loss.backward() accumulates *)
  Definition backward (g : G) (n : net) : net :=
    MkNet (prm n) (Some match grd n with Some h => add h g | None => g end).

  (* a2c.py 347-388 and 390-414: one network; step is disabled by a3c.py 110-111 *)
  Variable gradient : P -> B -> res G.
  Fixpoint passes (enabled : bool) (bs : list B) (n : net) : net * res unit :=
    match bs with
    | [] => (n, Ok tt)
    | b :: r =>
        match gradient (prm n) b with
        | Err e => (n, Err e)
        | Ok g => passes enabled r (if enabled then backward g (zero_grad n) else n)
        end
    end.

  (* param_server.py 187-205 *)
  Definition pull (answer : option P) (n : net) : net :=
    let n := zero_grad n in
    match answer with Some p => MkNet p (grd n) | None => n end.
  (* 164-185: the message sent to a secondary reducer, then a pull *)
  Definition push (answer : option P) (n : net) : net * res G :=
    match grd n with
    | None => (n, Err ERuntime)
    | Some g => (pull answer n, Ok g)
    end.

  Record frame := MkFrame { f_actor : net; f_critic : net; syncing : bool }.
  (* messages sent, in order: true for the actor *)
  Definition msgs := list (bool * G).

  (* a2c.py 328-422: both loops, then the means, which divide by the number of passes *)
  Definition a2c_update (uv up : bool) (ba bc : list B) (f : frame) : frame * res unit :=
    let (a, ra) := passes up ba (f_actor f) in
    match ra with
    | Err e => (MkFrame a (f_critic f) (syncing f), Err e)
    | Ok _ =>
        let (c, rc) := passes uv bc (f_critic f) in
        let f := MkFrame a c (syncing f) in
        match rc with
        | Err e => (f, Err e)
        | Ok _ => if (length ba =? 0) || (length bc =? 0) then (f, Err EZeroDiv) else (f, Ok tt)
        end
    end.
  (* a3c.py 156-165; pa and pc are the answers to the two pulls *)
  Definition a3c_update (uv up : bool) (ba bc : list B) (pa pc : option P) (f : frame) : frame * msgs * res unit :=
    let org := syncing f in
    let (f, r) := a2c_update uv up ba bc (MkFrame (f_actor f) (f_critic f) false) in
    match r with
    | Err e => (f, [], Err e)
    | Ok _ =>
        let (a, ra) := push pa (f_actor f) in
        match ra with
        | Err e => (MkFrame a (f_critic f) org, [], Err e)
        | Ok ga =>
            let (c, rc) := push pc (f_critic f) in
            match rc with
            | Err e => (MkFrame a c org, [(true, ga)], Err e)
            | Ok gc => (MkFrame a c org, [(true, ga); (false, gc)], Ok tt)
            end
        end
    end.

  (* a3c.py 131-148: the frame and the parameters the actor is evaluated with *)
  Definition set_sync (b : bool) (f : frame) : frame := MkFrame (f_actor f) (f_critic f) b.
  Definition manual_sync (pa pc : option P) (f : frame) : frame :=
    MkFrame (pull pa (f_actor f)) (pull pc (f_critic f)) (syncing f).
  Definition act (pa : option P) (f : frame) : frame * P :=
    let f := if syncing f then MkFrame (pull pa (f_actor f)) (f_critic f) (syncing f) else f in
    (f, prm (f_actor f)).
  (* 150-154 *)
  Definition criticize (pc : option P) (f : frame) : frame * P :=
    let f := if syncing f then MkFrame (f_actor f) (pull pc (f_critic f)) (syncing f) else f in
    (f, prm (f_critic f)).
End Update.
Arguments net : clear implicits.
Arguments frame : clear implicits.

(* ---- A2C.store_episode run by an A3C frame: every call of _criticize may pull ---- *)
Section Store.
  Context {P G S : Type}.
  Variables (zero : G) (V : P -> S -> Qc).          (* value of a state under given parameters *)
  Variables (discount lambda : Qc).
  (* the frame and the answers the server will give to the next pulls *)
  Definition world := (frame P G * list (option P))%type.
  Definition value_of (s : S) (w : world) : Qc * world :=
    let (f, answers) := w in
    let (a, rest) := match answers with [] => (None, []) | x :: r => (x, r) end in
    let (f', p) := criticize zero a f in
    (V p s, (f', if syncing f then rest else answers)).
  Fixpoint map_world {A C} (step : A -> world -> C * world) (l : list A) (w : world) : list C * world :=
    match l with
    | [] => ([], w)
    | x :: r => let (y, w) := step x w in let (ys, w) := map_world step r w in (y :: ys, w)
    end.
  (* a2c.py 284-286 *)
  Definition gae1 (t : tr S) (w : world) : tr S * world :=
    let (v, w) := value_of (tr_s t) w in (set_gae (tr_value t - v)%Qc t, w).
  (* 287-295: next_state first *)
  Definition gae0 (t : tr S) (w : world) : tr S * world :=
    let (vn, w) := value_of (tr_n t) w in
    let (v, w) := value_of (tr_s t) w in
    (set_gae (tr_r t + discount * (1 - fl (tr_t t)) * vn - v)%Qc t, w).
  (* 297-313 *)
  Fixpoint gae_back (l : list (tr S)) (st : list (tr S) * Qc * Qc) (w : world) : list (tr S) * world :=
    match l with
    | [] => (fst (fst st), w)
    | t :: r =>
        let (v, w) := value_of (tr_s t) w in
        gae_back r (ac_gae_step discount lambda (fun _ => v) st t) w
    end.
  Definition a3c_store (ep : list (tr S)) (w : world) : res (list (tr S)) * world :=
    match ep with
    | [] => (Err EIndex, w)
    | _ =>
        let e := ac_values discount ep in
        let (out, w) :=
          if Qc_eq_dec lambda 1 then map_world gae1 e w
          else if Qc_eq_dec lambda 0 then map_world gae0 e w
          else gae_back (rev e) ([], 0%Qc, 0%Qc) w in
        (Ok out, w)
    end.
End Store.
