(* machin/utils/checker.py 34-204 and 301-307: the default hooks of check_model and the pass counter they share
   (machin/utils/helper_classes.py 4-22).

   Simplifications: a tensor is its list of elements (None is nan), with a flag for integer element types; the
   order in which the hooks of a pass are called is given by the model's forward() and is an argument here; the
   names and values a hook gets are those of Checker.v; the writer is the list of what was written to it. *)
From Coq Require Import String.
From Verif Require Import Lib.Rat.
Open Scope list_scope.
Set Implicit Arguments.

Inductive value :=
| Tensor (integer : bool) (elems : list (option Qc))
| Other.                                   (* not a tensor *)

Inductive stage := SInput | SOutput | SParam.
Record entry := MkEntry { e_name : string; e_min : option Qc; e_max : option Qc; e_mean : option Qc; e_step : nat }.
(* what is written: add_scalars, and add_histogram for parameters *)
Inductive item := Scalars (e : entry) | Histogram (name : string) (elems : list (option Qc)) (step : nat).

(* t.min and t.max of all elements: RuntimeError without elements, nan if one of them is nan *)
Definition pick (f : Qc -> Qc -> Qc) (a b : option Qc) : option Qc :=
  match a, b with Some x, Some y => Some (f x y) | _, _ => None end.
Definition qmin (x y : Qc) : Qc := if Qcleb x y then x else y.
Definition qmax (x y : Qc) : Qc := if Qcleb x y then y else x.
Definition reduce (f : Qc -> Qc -> Qc) (l : list (option Qc)) : res (option Qc) :=
  match l with
  | [] => Err ERuntime
  | x :: r => Ok (fold_left (pick f) r x)
  end.
(* t.mean: RuntimeError for integers, nan without elements *)
Definition mean (integer : bool) (l : list (option Qc)) : res (option Qc) :=
  if integer then Err ERuntime
  else match l with
       | [] => Ok None
       | _ => Ok (match fold_left (pick Qcplus) l (Some 0%Qc) with
                  | Some s => Some (s / nq (List.length l))%Qc
                  | None => None
                  end)
       end.

(* check_nan 34-46; CheckError is EOther *)
Definition is_nan (x : option Qc) : bool := match x with None => true | Some _ => false end.
Definition check_nan (l : list (option Qc)) : res unit := if existsb is_nan l then Err EOther else Ok tt.

(* {i,o,p}_chk_nan 133-138, 158-163, 183-189; every parameter is a tensor *)
Definition chk_nan (v : value) : res unit :=
  match v with Tensor _ l => check_nan l | Other => Ok tt end.
(* {i,o,p}_chk_range 141-155, 166-180, 192-204 *)
Definition scalars (name : string) (integer : bool) (l : list (option Qc)) (step : nat) : res entry :=
  bind (reduce qmin l) (fun mi => bind (reduce qmax l) (fun ma => bind (mean integer l) (fun me =>
    Ok (MkEntry name mi ma me step)))).
Definition chk_range (s : stage) (name : string) (v : value) (step : nat) (w : list item) : list item * res unit :=
  match v with
  | Other => (w, Ok tt)
  | Tensor i l =>
      match scalars name i l step with
      | Err e => (w, Err e)
      | Ok en => (w ++ Scalars en :: (match s with SParam => [Histogram name l step] | _ => [] end), Ok tt)
      end
  end.

(* the loops over values and hooks in 63-72, 94-103 and 119-127, with the default hooks of 229-231 *)
Fixpoint check_values (s : stage) (step : nat) (vs : list (string * value)) (w : list item) : list item * res unit :=
  match vs with
  | [] => (w, Ok tt)
  | (n, v) :: r =>
      match chk_nan v with
      | Err e => (w, Err e)
      | Ok _ => match chk_range s n v step w with
                | (w', Err e) => (w', Err e)
                | (w', Ok _) => check_values s step r w'
                end
      end
  end.

(* 56, 84, 118: counter.get() % interval == 0 *)
Record intervals := MkInt { iv_input : nat; iv_output : nat; iv_param : nat }.
Definition interval (iv : intervals) (s : stage) : nat :=
  match s with SInput => iv_input iv | SOutput => iv_output iv | SParam => iv_param iv end.
Definition check_hook (iv : intervals) (counter : nat) (s : stage) (vs : list (string * value)) (w : list item)
  : list item * res unit :=
  match interval iv s with
  | 0 => (w, Err EZeroDiv)
  | S k => if Nat.eqb (counter mod S k) 0 then check_values s counter vs w else (w, Ok tt)
  end.

(* one call of the model: the counter goes on first (304-307), then the hooks of the checked modules run in the
   order of forward(); an exception ends the pass *)
Fixpoint hooks (iv : intervals) (counter : nat) (calls : list (stage * list (string * value))) (w : list item)
  : list item * res unit :=
  match calls with
  | [] => (w, Ok tt)
  | (s, vs) :: r => match check_hook iv counter s vs w with
                    | (w', Err e) => (w', Err e)
                    | (w', Ok _) => hooks iv counter r w'
                    end
  end.
Definition state := (nat * list item)%type.       (* counter, writer *)
Definition init : state := (0, []).
Definition forward (iv : intervals) (calls : list (stage * list (string * value))) (st : state) : state * res unit :=
  let c := S (fst st) in
  let (w, r) := hooks iv c calls (snd st) in ((c, w), r).
(* several passes, whatever the caller does with exceptions *)
Fixpoint passes (iv : intervals) (ps : list (list (stage * list (string * value)))) (st : state)
  : state * list (res unit) :=
  match ps with
  | [] => (st, [])
  | p :: r => let (st1, o) := forward iv p st in
              let (st2, os) := passes iv r st1 in (st2, o :: os)
  end.

(* a training program: calls of the model and backward passes; no hook of check_model is registered for the latter *)
Inductive event := Fwd (calls : list (stage * list (string * value))) | Bwd.
Definition do_event (iv : intervals) (st : state) (e : event) : state :=
  match e with Fwd calls => fst (forward iv calls st) | Bwd => st end.
Definition program (iv : intervals) (l : list event) : state := fold_left (do_event iv) l init.
