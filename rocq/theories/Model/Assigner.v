(* machin/parallel/assigner.py: ModelAssigner.__init__ 176-294 and the numeric degeneracy of
   optimize_placement 336-372.

   Simplifications: exact rationals; the estimated sizes and free memory are given data; one
   step of gradient descent on a well-defined cost is an arbitrary function of the placement. When a
   normalisation divides zeros by their zero sum, all its entries are NaN, they enter the gradient of every
   placement entry, and Adam keeps NaN for ever. argmax is an arbitrary function of one row. *)
From Verif Require Import Lib.Base Lib.Rat.
Set Implicit Arguments.

(* t.device: "cpu", "cuda" (no index) or "cuda:i" *)
Inductive device := Cpu | Cuda (i : option nat).
Definition device_eqb (a b : device) : bool :=
  match a, b with
  | Cpu, Cpu => true
  | Cuda (Some i), Cuda (Some j) => i =? j
  | Cuda None, Cuda None => true
  | _, _ => false
  end.

(* 176-198 *)
Definition usable (available : list nat) (d : device) : bool :=
  match d with
  | Cpu => true
  | Cuda _ => existsb (fun i => device_eqb d (Cuda (Some i))) available
  end.
Definition select (devices : option (list device)) (available : list nat) : list device :=
  let ds := match devices with
            | None => map (fun i => Cuda (Some i)) available
            | Some ds => filter (usable available) ds
            end in
  match ds with [] => [Cpu] | _ => ds end.

(* 206-218; gpus = the free memory of GPUtil.getGPUs() *)
Definition capacity (cpu_free : Qc) (gpus : list Qc) (ratio : Qc) (d : device) : res Qc :=
  match d with
  | Cpu => Ok (cpu_free * ratio)%Qc
  | Cuda (Some i) => match nth_error gpus i with Some m => Ok (m * ratio)%Qc | None => Err EIndex end
  | Cuda None => Err EType
  end.
Fixpoint capacities cpu_free gpus ratio (ds : list device) : res (list Qc) :=
  match ds with
  | [] => Ok []
  | d :: r => bind (capacity cpu_free gpus ratio d) (fun c =>
              bind (capacities cpu_free gpus ratio r) (fun cs => Ok (c :: cs)))
  end.

(* 257-273: entry (i, j) *)
Definition pair_distance (gpu_gpu cpu_gpu : Qc) (a b : device) : Qc :=
  match a, b with
  | Cpu, Cuda _ | Cuda _, Cpu => cpu_gpu
  | Cuda i, Cuda j => if device_eqb (Cuda i) (Cuda j) then 0%Qc else gpu_gpu
  | Cpu, Cpu => 0%Qc
  end.
Definition distance (gpu_gpu cpu_gpu : Qc) (ds : list device) (i j : nat) : Qc :=
  if i =? j then 0%Qc
  else pair_distance gpu_gpu cpu_gpu (nth (Nat.max i j) ds Cpu) (nth (Nat.min i j) ds Cpu).

(* an entry of placement: NaN or a number *)
Inductive num := NaN | Num (q : Qc).
Definition zero_sum (xs : list Qc) : bool := if Qc_eq_dec (qsum xs) 0%Qc then true else false.
Definition distances (gg cg : Qc) (ds : list device) : list Qc :=
  flat_map (fun i => map (distance gg cg ds i) (seq 0 (length ds))) (seq 0 (length ds)).
(* 339-340, 352-353: one of the normalisations is 0 / 0 *)
Definition degenerate (conn dist cmplx power : list Qc) : bool :=
  (zero_sum conn || zero_sum dist || zero_sum cmplx || zero_sum power)%bool.

Section Optimize.
  Variable descend : list (list num) -> list (list num).   (* 363-372 on a well-defined cost *)
  Variable argmax : list num -> nat.                       (* 291 *)
  Definition optimize (bad : bool) (p : list (list num)) : list (list num) :=
    if bad then map (map (fun _ => NaN)) p else descend p.
  (* 276-291 *)
  Definition assignment (ds : list device) (bad : bool) (iterations : nat) (p0 : list (list num)) : list device :=
    map (fun row => nth (argmax row) ds Cpu) (Nat.iter iterations (optimize bad) p0).

  (* 176-294; conn = the values of model_connection, power = the computing power of the devices *)
  Definition assign (devices : option (list device)) (available : list nat) (cpu_free : Qc) (gpus : list Qc) (ratio : Qc)
      (sizes conn : list Qc) (power : device -> Qc) (gg cg : Qc) (iterations : nat) (p0 : list (list num))
      : res (list device) :=
    let ds := select devices available in
    bind (capacities cpu_free gpus ratio ds) (fun caps =>
    if Qcltb (qsum caps) (qsum sizes) then Err ERuntime
    else Ok (assignment ds (degenerate conn (distances gg cg ds) sizes (map power ds)) iterations p0)).
End Optimize.
