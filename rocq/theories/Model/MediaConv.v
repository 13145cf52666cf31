(* machin/utils/media.py: create_video 55-97, numpy_array_to_pil_image 152-161;
   machin/auto/dataset.py: determine_precision 14-27, get_loggers_as_list 30-34, log_image 37-40, log_video 43-73.

   Simplifications: arrays are nested lists of two or three levels (H, W) or (H, W, C), the only shapes the
   documentation allows; floats are rationals; astype(np.uint8) of a float outside [0, 256) is undefined in C and is
   an arbitrary function [wild]; the video encoder is not modelled, a video is the list of frames given to it. *)
From Coq Require Export String QArith Qround.
From Verif Require Export Lib.Base.
Close Scope string_scope.
Close Scope Q_scope.
Open Scope Z_scope.
Set Implicit Arguments.

Inductive arr (V : Type) := Grey (rows : list (list V)) | Col (rows : list (list (list V))).
Arguments Grey {V} rows.
Arguments Col {V} rows.
Definition amap {V W} (f : V -> W) (a : arr V) : arr W :=
  match a with Grey r => Grey (map (map f) r) | Col r => Col (map (map (map f)) r) end.
(* dtype: any integer, any float, anything else *)
Inductive frame := FInt (a : arr Z) | FFloat (a : arr Q) | FOther (a : arr bool).

Section Conv.
  Variable wild : Q -> Z.
  (* astype(np.uint8): integers modulo 256, floats truncated *)
  Definition u8_int (z : Z) : Z := z mod 256.
  Definition u8_float (q : Q) : Z :=
    let n := Qfloor q in if (0 <=? n) && (n <? 256) then n else wild q mod 256.
  (* 73-76, 153-156 *)
  Definition to_u8 (f : frame) : frame :=
    match f with
    | FInt a => FInt (amap u8_int a)
    | FFloat a => FInt (amap (fun q => u8_float (q * inject_Z 255)%Q) a)
    | FOther a => FOther a
    end.
  (* 77-79, 157-159 *)
  Definition grey3 {V} (a : arr V) : arr V :=
    match a with Grey r => Col (map (map (fun v => [v; v; v])) r) | Col r => Col r end.
  Definition repeat3 (f : frame) : frame :=
    match f with FInt a => FInt (grey3 a) | FFloat a => FFloat (grey3 a) | FOther a => FOther (grey3 a) end.
  Definition convert (f : frame) : frame := repeat3 (to_u8 f).
  (* 71-97: the loop writes into the list of the caller; (that list afterwards, the video written) *)
  Definition create_video (frames : list frame) : list frame * option (list frame) :=
    match frames with [] => ([], None) | _ => (map convert frames, Some (map convert frames)) end.
End Conv.

(* ---- determine_precision: the parameters of each model as a list of dtypes ---- *)
Section Prec.
  Variable D : Type.
  Context {ED : Eqb D}.
  Definition add1 (s : list D) (d : D) : list D := if existsb (eqb d) s then s else s ++ [d].
  Definition dtypes (models : list (list D)) : list D := fold_left (fun s m => fold_left add1 m s) models [].
  Definition determine_precision (models : list (list D)) : res D :=
    match dtypes models with
    | [] => Err EIndex           (* dtype[0] of an empty list *)
    | [d] => Ok d
    | _ => Err ERuntime
    end.
End Prec.
Arguments add1 {D ED} s d.
Arguments dtypes {D ED} models.
Arguments determine_precision {D ED} models.

(* ---- log_video ---- *)
(* a logger: has it a callable log_artifact, and does that raise *)
Record logger := MkL { has_artifact : bool; raises : bool }.
Inductive levent := Artifact (i : nat) | Removed | Printed.
(* 58-64: the size of the file each time it is asked; the number of rounds slept, None: not within the fuel *)
Fixpoint wait_size (fuel : nat) (sizes : nat -> Z) (k : nat) (size : Z) : option nat :=
  match fuel with
  | O => None
  | S fuel =>
      let new_size := sizes (S k) in
      if negb (size =? 0) && (new_size =? size) then Some (S k) else wait_size fuel sizes (S k) new_size
  end.
(* 66-68 *)
Fixpoint artifacts (i : nat) (ls : list logger) : list levent * bool :=
  match ls with
  | [] => ([], true)
  | l :: r =>
      if has_artifact l then
        if raises l then ([Artifact i], false)
        else let '(es, ok) := artifacts (S i) r in (Artifact i :: es, ok)
      else artifacts (S i) r
  end.
(* 43-73; created: create_video did not raise; None: it never ends within the fuel; the flag: it returns normally *)
Definition log_video (fuel : nat) (created : bool) (sizes : nat -> Z) (ls : list logger) : option (list levent * bool) :=
  if created then
    match wait_size fuel sizes 0 (sizes 0%nat) with
    | None => None
    | Some _ =>
        let '(es, ok) := artifacts 0 ls in Some (if ok then (es ++ [Removed], true) else (es, false))
    end
  else Some ([Printed; Removed], true).
