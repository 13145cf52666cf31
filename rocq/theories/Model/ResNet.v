(* machin/model/nets/resnet.py: shapes of the tensors.  conv1x1 and conv3x3 9-22, cfg 38-70, the four blocks 73-252, ResNet 255-343.

   Simplifications: a tensor is its shape; the batch dimension is carried through unchanged by every layer;
   the addition of the shortcut asks for equal shapes (torch would broadcast dimensions of size 1);
   torch raises RuntimeError for a wrong number of channels, an input smaller than the kernel, a kernel of
   size 0 and a wrong number of features; np.int is taken to be int. *)
From Verif Require Export Lib.Base.
From Coq Require Export String.
Close Scope string_scope.
Open Scope Z_scope.
Set Implicit Arguments.

Record shape := MkS { ch : Z; hh : Z; ww : Z }.
Definition seqb (a b : shape) : bool := (ch a =? ch b) && (hh a =? hh b) && (ww a =? ww b).

(* 9-22, 286-288: nn.Conv2d(cin, cout, k, stride = s, padding = p) *)
Definition out_dim (k s p n : Z) : Z := (n + 2 * p - k) / s + 1.
Definition conv (cin cout k s p : Z) (x : shape) : res shape :=
  if (ch x =? cin) && (k <=? hh x + 2 * p) && (k <=? ww x + 2 * p)
  then Ok (MkS cout (out_dim k s p (hh x)) (out_dim k s p (ww x))) else Err ERuntime.
Definition conv1x1 (cin cout s : Z) := conv cin cout 1 s 0.     (* 9-13 *)
Definition conv3x3 (cin cout s : Z) := conv cin cout 3 s 1.     (* 16-22 *)

Inductive norm := NBatch | NWeight | NNone.
(* BatchNorm2d(c) checks the channels; weight norm and none_norm (an empty Sequential) do nothing *)
Definition norm_layer (n : norm) (c : Z) (x : shape) : res shape :=
  match n with NBatch => if ch x =? c then Ok x else Err ERuntime | _ => Ok x end.

Inductive kind := Basic | Bottle.
Definition expansion (k : kind) : Z := match k with Basic => 1 | Bottle => 4 end.

(* 96-106, 139-147, 181-189, 236-243 *)
Definition shortcut (k : kind) (n : norm) (cin planes stride : Z) (x : shape) : res shape :=
  if negb (stride =? 1) || negb (cin =? expansion k * planes)
  then bind (conv1x1 cin (expansion k * planes) stride x) (norm_layer n (expansion k * planes))
  else Ok x.
Definition main_path (k : kind) (n : norm) (cin planes stride : Z) (x : shape) : res shape :=
  match k with
  | Basic =>     (* 109-110, 192-193 *)
      bind (conv3x3 cin planes stride x) (fun y => bind (norm_layer n planes y) (fun y =>
      bind (conv3x3 planes (expansion k * planes) 1 y) (norm_layer n (expansion k * planes))))
  | Bottle =>    (* 150-152, 246-248 *)
      bind (conv1x1 cin planes 1 x) (fun y => bind (norm_layer n planes y) (fun y =>
      bind (conv3x3 planes planes stride y) (fun y => bind (norm_layer n planes y) (fun y =>
      bind (conv1x1 planes (expansion k * planes) 1 y) (norm_layer n (expansion k * planes))))))
  end.
(* 108-113, 149-155, 191-196, 245-251: forward of a block *)
Definition block (k : kind) (n : norm) (cin planes stride : Z) (x : shape) : res shape :=
  bind (main_path k n cin planes stride x) (fun out =>
  bind (shortcut k n cin planes stride x) (fun sc => if seqb out sc then Ok out else Err ERuntime)).

(* 38-70 *)
Definition cfg (depth : Z) : res (kind * list nat) :=
  match depth with
  | 18 => Ok (Basic, [2; 2; 2; 2]%nat) | 34 => Ok (Basic, [3; 4; 6; 3]%nat) | 50 => Ok (Bottle, [3; 4; 6; 3]%nat)
  | 101 => Ok (Bottle, [3; 4; 23; 3]%nat) | 152 => Ok (Bottle, [3; 8; 36; 3]%nat) | _ => Err EValue
  end.
Definition norm_of (s : string) : res norm :=
  if (s =? "batch")%string then Ok NBatch else if (s =? "weight")%string then Ok NWeight
  else if (s =? "none")%string then Ok NNone else Err EValue.

(* 324-332: _make_layer; the strides of a layer, the blocks in order with the channels so far *)
Definition strides (stride : Z) (num : nat) : list Z := stride :: repeat 1 (num - 1).
Fixpoint layer_blocks (k : kind) (cur planes : Z) (ss : list Z) : list (Z * Z) * Z :=   (* (input planes, stride) *)
  match ss with
  | [] => ([], cur)
  | s :: r => let (bs, c) := layer_blocks k (planes * expansion k) planes r in ((cur, s) :: bs, c)
  end.
Fixpoint run_blocks (k : kind) (n : norm) (planes : Z) (bs : list (Z * Z)) (x : shape) : res shape :=
  match bs with
  | [] => Ok x
  | (cin, s) :: r => bind (block k n cin planes s x) (run_blocks k n planes r)
  end.
(* 291-320: the four layers *)
Fixpoint run_layers (k : kind) (n : norm) (cur : Z) (ls : list (Z * nat * Z)) (x : shape) : res shape :=
  match ls with
  | [] => Ok x
  | (planes, num, stride) :: r =>
      let (bs, cur') := layer_blocks k cur planes (strides stride num) in
      bind (run_blocks k n planes bs x) (run_layers k n cur' r)
  end.
Definition layers_of (nums : list nat) : list (Z * nat * Z) :=
  match nums with [a; b; c; d] => [(64, a, 1); (128, b, 2); (256, c, 2); (512, d, 2)] | _ => [] end.
(* 289: nn.MaxPool2d(kernel_size = 3, stride = 2, padding = 1) *)
Definition maxpool (x : shape) : res shape :=
  if (3 <=? hh x + 2) && (3 <=? ww x + 2) then Ok (MkS (ch x) (out_dim 3 2 1 (hh x)) (out_dim 3 2 1 (ww x))) else Err ERuntime.
(* 341: nn.functional.avg_pool2d(x, (a, b)): stride = kernel *)
Definition avgpool (a b : Z) (x : shape) : res shape :=
  if (1 <=? a) && (1 <=? b) && (a <=? hh x) && (b <=? ww x)
  then Ok (MkS (ch x) (out_dim a a 0 (hh x)) (out_dim b b 0 (ww x))) else Err ERuntime.

Record resnet := MkR { r_in : Z; r_kind : kind; r_nums : list nat; r_out : Z; r_pool : Z * Z; r_norm : norm }.
(* 256-322 *)
Definition new (in_planes depth out_planes : Z) (pool : Z * Z) (nm : string) : res resnet :=
  bind (cfg depth) (fun kn => bind (norm_of nm) (fun n => Ok (MkR in_planes (fst kn) (snd kn) out_planes pool n))).
(* 334-343: the number of features of a row of the result; the batch size stays *)
Definition forward (r : resnet) (x : shape) : res Z :=
  if (hh x =? 224) && (ww x =? 224) then
    bind (conv (r_in r) 64 7 2 3 x) (fun x => bind (norm_layer (r_norm r) 64 x) (fun x => bind (maxpool x) (fun x =>
    bind (run_layers (r_kind r) (r_norm r) 64 (layers_of (r_nums r)) x) (fun x =>
    if (fst (r_pool r) =? 0) || (snd (r_pool r) =? 0) then Err EZeroDiv else
    bind (avgpool (hh x / fst (r_pool r)) (ww x / snd (r_pool r)) x) (fun x =>
    if ch x * hh x * ww x =? 512 * fst (r_pool r) * snd (r_pool r) then Ok (r_out r) else Err ERuntime)))))
  else Err EAssert.
