(* machin/model/nets/base.py: NeuralNetworkModule 7-104, static_module_wrapper 107-122,
   dynamic_module_wrapper 125-139.

   Simplifications: a module is the tree of its submodules and the devices of its parameters; forward and
   the shared identity of submodules are left out (no property depends on them); .to(device) moves every
   parameter of a module. *)
From Verif Require Export Lib.Base.
Set Implicit Arguments.

Notation device := nat.
Inductive module :=
| Plain (own : list device) (subs : list module)              (* any other nn.Module *)
| Seq (subs : list module)                                    (* nn.Sequential *)
| NN (own : list device) (subs : list module)                 (* a NeuralNetworkModule: other submodules ... *)
     (input output : option module).                          (* ... input_module and output_module *)

(* module.parameters(): own ones and those of all submodules *)
Fixpoint params (m : module) : list device :=
  match m with
  | Plain own subs => own ++ flat_map params subs
  | Seq subs => flat_map params subs
  | NN own subs i o => own ++ flat_map params subs ++ match i with Some x => params x | None => [] end
                           ++ match o with Some x => params x | None => [] end
  end.
Definition is_nn (m : module) : bool := match m with NN _ _ _ _ => true | _ => false end.
Definition is_seq (m : module) : bool := match m with Seq _ => true | _ => false end.

(* the set {p.device for p in ...} *)
Definition dev_set (l : list device) : list device := nodup Nat.eq_dec l.

(* 90-101; an empty Sequential raises IndexError for [0] and [-1] *)
Fixpoint find_child (is_first : bool) (m : module) : res module :=
  match m with
  | Seq subs =>
      if is_first then
        match subs with [] => Err EIndex | c :: _ => find_child is_first c end
      else
        (fix last_of (l : list module) : res module :=
           match l with
           | [] => Err EIndex
           | [c] => find_child is_first c
           | _ :: r => last_of r
           end) subs
  | _ => Ok m
  end.

(* 19-33, 35-49: the check of set_input_module / set_output_module *)
Definition check_set (is_first : bool) (m : module) : res unit :=
  if is_nn m then Ok tt
  else bind (if is_seq m then find_child is_first m else Ok m) (fun x =>
       if 1 <? length (dev_set (params x)) then Err ERuntime else Ok tt).

(* a NeuralNetworkModule object as far as it is needed here *)
Record net := MkNet { n_in : option module; n_out : option module }.
Definition net0 : net := MkNet None None.
Definition set_input (m : module) (s : net) : net * res unit := (MkNet (Some m) (n_out s), check_set true m).
Definition set_output (m : module) (s : net) : net * res unit := (MkNet (n_in s) (Some m), check_set false m).

Definition single (l : list device) : res device :=
  match dev_set l with [d] => Ok d | _ => Err ERuntime end.
(* 51-66 and 68-88 on modules *)
Fixpoint input_device_of (m : module) : res device :=      (* of the input module m *)
  match m with
  | NN _ _ (Some i) _ => input_device_of i
  | NN _ _ None _ => Err ERuntime
  | _ => single (params m)
  end.
Fixpoint output_device_of (m : module) : res device :=     (* of the output module m *)
  match m with
  | NN _ _ _ (Some o) => output_device_of o
  | NN _ _ (Some i) None => input_device_of i
  | NN _ _ None None => Err ERuntime
  | _ => single (params m)
  end.
Definition input_device (s : net) : res device :=
  match n_in s with None => Err ERuntime | Some m => input_device_of m end.
Definition output_device (s : net) : res device :=
  match n_out s, n_in s with
  | Some m, _ => output_device_of m
  | None, Some m => input_device_of m
  | None, None => Err ERuntime
  end.

(* module.to(d) *)
Fixpoint move (d : device) (m : module) : module :=
  match m with
  | Plain own subs => Plain (map (fun _ => d) own) (map (move d) subs)
  | Seq subs => Seq (map (move d) subs)
  | NN own subs i o => NN (map (fun _ => d) own) (map (move d) subs)
                          (match i with Some x => Some (move d x) | None => None end)
                          (match o with Some x => Some (move d x) | None => None end)
  end.

(* 107-122: the attributes are plain ones, they replace nothing of the module *)
Definition static_wrap (m : module) (i o : device) : res (module * device * device) :=
  if is_nn m then Err EValue else Ok (m, i, o).
(* 125-139 *)
Definition dynamic_wrap (m : module) : res net :=
  if is_nn m then Err EValue
  else let (s1, r1) := set_input m net0 in
       bind r1 (fun _ => let (s2, r2) := set_output m s1 in bind r2 (fun _ => Ok s2)).
(* moving the wrapper moves the wrapped module, which both references share *)
Definition move_net (d : device) (s : net) : net := MkNet (option_map (move d) (n_in s)) (option_map (move d) (n_out s)).
