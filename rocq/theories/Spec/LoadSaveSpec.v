(* What a saved file name means, and what it means that a version exists. *)
From Coq Require Import Ascii Decimal DecimalNat.
From Verif Require Import Lib.Base.

Definition digit_val (c : ascii) : option nat :=
  match c with
  | "0" => Some 0 | "1" => Some 1 | "2" => Some 2 | "3" => Some 3 | "4" => Some 4
  | "5" => Some 5 | "6" => Some 6 | "7" => Some 7 | "8" => Some 8 | "9" => Some 9
  | _ => None
  end%char.
(* [reads ds v]: the digit string ds (most significant first) denotes v *)
Inductive reads : list ascii -> nat -> Prop :=
| reads_one c d : digit_val c = Some d -> reads [c] d
| reads_snoc ds v c d : reads ds v -> digit_val c = Some d -> reads (ds ++ [c]) (10 * v + d).
(* no superfluous leading zero *)
Definition plain (ds : list ascii) : Prop := match ds with "0"%char :: _ :: _ => False | _ => True end.

Definition name_char (c : ascii) : Prop :=
  let n := nat_of_ascii c in
  (97 <= n <= 122) \/ (65 <= n <= 90) \/ (48 <= n <= 57) \/ c = "_"%char \/ c = "-"%char.
Definition good_name (n : list ascii) : Prop := n <> [] /\ Forall name_char n.
(* the name of the file in which version [ds] of network [n] is stored *)
Definition model_file (n ds : list ascii) : list ascii := n ++ ["_"%char] ++ ds ++ ["."; "p"; "t"]%char.
