(* Model of the target computations of
     machin/frame/algorithms/rainbow.py  RAINBOW.store_episode (173-201)
     machin/frame/algorithms/a2c.py      A2C.store_episode     (269-326)
     machin/frame/algorithms/impala.py   IMPALA.store_episode  (217-240) and the v-trace part
                                         of IMPALA.update      (304-362).
   Exact rationals instead of floats.  The critic is an arbitrary function of the state. *)
From Verif Require Import Lib.Rat.
Open Scope nat_scope.
Set Implicit Arguments.

(* A transition dictionary with the attributes these functions read or write. *)
Record tr (S : Type) := MkTr {
  tr_s : S; tr_n : S; tr_r : Qc; tr_t : bool;      (* state, next_state, reward, terminal *)
  tr_value : Qc; tr_gae : Qc; tr_len : nat }.      (* value, gae, episode_length; arbitrary before they are set *)
Arguments MkTr {S} _ _ _ _ _ _ _.

Section Returns.
  Context {S : Type}.
  Implicit Types (t : tr S) (ep : list (tr S)).
  Definition set_value (v : Qc) t := MkTr (tr_s t) (tr_n t) (tr_r t) (tr_t t) v (tr_gae t) (tr_len t).
  Definition set_gae (v : Qc) t := MkTr (tr_s t) (tr_n t) (tr_r t) (tr_t t) (tr_value t) v (tr_len t).
  Definition set_len (n : nat) t := MkTr (tr_s t) (tr_n t) (tr_r t) (tr_t t) (tr_value t) (tr_gae t) n.
  (* episode[i]["x"] = ...; the loops below only use indexes inside the episode *)
  Definition at_ (i : nat) (f : tr S -> tr S) ep : list (tr S) :=
    match nth_error ep i with Some t => upd i (f t) ep | None => ep end.
  Definition rew ep (i : nat) : Qc := match nth_error ep i with Some t => tr_r t | None => 0%Qc end.
  Definition val ep (i : nat) : Qc := match nth_error ep i with Some t => tr_value t | None => 0%Qc end.
  (* float(trans["terminal"]) *)
  Definition fl (b : bool) : Qc := if b then 1%Qc else 0%Qc.

  Section Rainbow.
    Variables (n : nat) (discount : Qc).       (* reward_future_steps, discount *)
    (* rainbow.py 182-187: the inner loop for step i *)
    Definition rb_inner ep (i : nat) : Qc :=
      fold_left (fun acc j => (acc * discount + rew ep (i + j))%Qc)
                (rev (seq 0 (Nat.min n (length ep - i)))) 0%Qc.
    (* rainbow.py 173-188; the result is the episode handed to replay_buffer.store_episode (190) *)
    Definition rb_store ep : res (list (tr S)) :=
      match ep with
      | [] => Err EIndex                                                   (* 179: episode[-1] *)
      | _ =>
          let l := length ep - 1 in
          let ep1 := at_ l (set_value (rew ep l)) ep in                    (* 179 *)
          Ok (fold_left (fun e i => at_ i (set_value (rb_inner e i)) e) (rev (seq 0 (length ep))) ep1)
      end.
  End Rainbow.

  Section A2C.
    Variables (discount lambda : Qc).
    Variable V : S -> Qc.                      (* self._criticize(state).item() *)
    (* a2c.py 275-281 *)
    Definition ac_values ep : list (tr S) :=
      let l := length ep - 1 in
      let ep1 := at_ l (set_value (rew ep l)) ep in
      fold_left (fun e i => at_ (i - 1) (set_value (val e i * discount + rew e (i - 1))%Qc) e)
                (rev (seq 1 (length ep - 1))) ep1.
    (* a2c.py 284-286 *)
    Definition ac_gae1 ep : list (tr S) := map (fun t => set_gae (tr_value t - V (tr_s t))%Qc t) ep.
    (* a2c.py 287-295 *)
    Definition ac_gae0 ep : list (tr S) :=
      map (fun t => set_gae (tr_r t + discount * (1 - fl (tr_t t)) * V (tr_n t) - V (tr_s t))%Qc t) ep.
    (* a2c.py 297-313: one iteration of "for trans in reversed(episode)" *)
    Definition ac_gae_step (st : list (tr S) * Qc * Qc) t : list (tr S) * Qc * Qc :=
      let '(done, last_critic, last_gae) := st in
      let critic := V (tr_s t) in
      let delta := (tr_r t + discount * last_critic * (1 - fl (tr_t t)) - critic)%Qc in
      let g := (last_gae * discount * (1 - fl (tr_t t)) * lambda + delta)%Qc in
      (set_gae g t :: done, critic, g).
    Definition ac_gae_general ep : list (tr S) :=
      fst (fst (fold_left ac_gae_step (rev ep) ([], 0%Qc, 0%Qc))).
    (* a2c.py 269-313 *)
    Definition ac_store ep : res (list (tr S)) :=
      match ep with
      | [] => Err EIndex
      | _ =>
          let e := ac_values ep in
          Ok (if Qc_eq_dec lambda 1 then ac_gae1 e
              else if Qc_eq_dec lambda 0 then ac_gae0 e
              else ac_gae_general e)
      end.
  End A2C.

  Section Impala.
    Variables (discount clip_c clip_rho : Qc).
    Variable V : S -> Qc.
    (* 318: exp(current log probability - stored log probability) of a sampled step *)
    Variable sim : tr S -> Qc.
    (* impala.py 217-226 *)
    Definition im_store ep : res (list (tr S)) :=
      match ep with
      | [] => Err EValue
      | t :: r => Ok (set_len (length ep) t :: map (set_len 0) r)
      end.
    (* impala.py 319-331; next_value[terminal] = 0 *)
    Definition im_c (t : tr S) : Qc := Qcmin clip_c (sim t).
    Definition im_rho (t : tr S) : Qc := Qcmin clip_rho (sim t).
    Definition im_delta (t : tr S) : Qc :=
      (im_rho t * (tr_r t + discount * (if tr_t t then 0%Qc else V (tr_n t)) - V (tr_s t)))%Qc.
    (* impala.py 350-356: the inner loop over one episode *)
    Definition im_inner (value delta c : list Qc) (offset len : nat) (vs : list Qc) : list Qc :=
      fold_left (fun v rev_step =>
                   let idx := offset + rev_step in
                   upd idx (nth idx value 0 + nth idx delta 0
                            + discount * nth idx c 0 * (nth (idx + 1) v 0 - nth (idx + 1) value 0))%Qc v)
                (rev (seq 0 (len - 1))) vs.
    (* impala.py 358: vss[offset : offset+len-1] = vs[offset+1 : offset+len] *)
    Definition im_shift (vs : list Qc) (offset len : nat) (vss : list Qc) : list Qc :=
      fold_left (fun v k => upd (offset + k) (nth (offset + k + 1) vs 0%Qc) v) (seq 0 (len - 1)) vss.
    (* impala.py 340-361 *)
    Definition im_loop (value delta c : list Qc) (lens : list nat) (vs vss : list Qc) : list Qc * list Qc :=
      fst (fold_left (fun '((vs, vss), offset) len =>
                        let vs' := im_inner value delta c offset len vs in
                        ((vs', im_shift vs' offset len vss), offset + len))
                     lens ((vs, vss), 0)).
    (* impala.py 302-361: (v_s, v_{s+1}) for the chained batch *)
    Definition im_targets (batch : list (tr S)) : res (list Qc * list Qc) :=
      let lens := filter (fun n => negb (Nat.eqb n 0)) (map (@tr_len S) batch) in   (* 304 *)
      if negb (Nat.eqb (fold_right Nat.add 0 lens) (length batch)) then Err ERuntime (* 307-311 *)
      else
        let value := map (fun t => V (tr_s t)) batch in
        let zeros := repeat 0%Qc (length batch) in
        Ok (im_loop value (map im_delta batch) (map im_c batch) lens zeros zeros).
  End Impala.
End Returns.
