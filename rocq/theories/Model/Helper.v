(* machin/utils/helper_classes.py: Counter 4-26, Switch 48-77, Trigger 80-91.
   (Object is in Model/Config.v.) *)
From Verif Require Import Lib.Base.

(* 5-8 *)
Record counter := { count : Z; start : Z; cstep : Z }.
Definition c_new (s d : Z) : counter := Build_counter s s d.
Inductive cop := Count | Reset.
Definition c_do (c : counter) (o : cop) : counter :=
  match o with
  | Count => Build_counter (count c + cstep c)%Z (start c) (cstep c)     (* 10-14 *)
  | Reset => Build_counter (start c) (start c) (cstep c)                 (* 22-26 *)
  end.
Definition c_run (c : counter) (os : list cop) : counter := fold_left c_do os c.

(* a trigger (a switch whose get also turns it off), with the values get returned *)
Inductive top := On | Off | Flip | Get.
Definition t_do (s : bool * list bool) (o : top) : bool * list bool :=
  let (on, got) := s in
  match o with
  | On => (true, got)                            (* 68-72 *)
  | Off => (false, got)                          (* 74-77 *)
  | Flip => (negb on, got)                       (* 56-60 *)
  | Get => (if on then false else on, got ++ [on])   (* 81-91 *)
  end.
Definition t_run (on : bool) (os : list top) : bool * list bool := fold_left t_do os (on, []).
