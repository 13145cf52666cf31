(* machin/utils/save_env.py: SaveEnv.__init__ 13-51, get_trial_root 65-67 with the default time_format
   "%Y_%m_%d_%H_%M_%S"; datetime.strptime and datetime.strftime as far as this format uses them (CPython's _strptime:
   %Y is four digits, the other fields are one or two digits, the day may also be a blank and a digit, the whole string has
   to match; strftime of the C library: two digits, %Y without padding).

   Simplifications: digits are ASCII digits; time zones are left out (there are none in the format). *)
From Verif Require Import Lib.Base.
Set Implicit Arguments.

(* characters of a name: digits, underscore, blank, anything else *)
Inductive ch := D (d : nat) | U | Sp | X (c : nat).

(* datetime: microseconds are part of it *)
Record dtime := MkDt { yr : nat; mon : nat; day : nat; hr : nat; mi : nat; se : nat; us : nat }.

(* calendar *)
Definition leap (y : nat) : bool := ((y mod 4 =? 0) && negb (y mod 100 =? 0) || (y mod 400 =? 0))%bool.
Definition dim (y m : nat) : nat :=
  match m with 2 => if leap y then 29 else 28 | 4 | 6 | 9 | 11 => 30 | _ => 31 end.

(* %m %d %H %M %S *)
Definition pad2 (n : nat) : list ch := [D (n / 10); D (n mod 10)].
(* %Y *)
Definition year_str (n : nat) : list ch :=
  let ds := [D (n / 1000); D (n / 100 mod 10); D (n / 10 mod 10); D (n mod 10)] in
  if 1000 <=? n then ds else if 100 <=? n then skipn 1 ds else if 10 <=? n then skipn 2 ds else skipn 3 ds.
(* env_create_time.strftime(time_format), 66-67 *)
Definition strftime (t : dtime) : list ch :=
  year_str (yr t) ++ U :: pad2 (mon t) ++ U :: pad2 (day t) ++ U :: pad2 (hr t) ++ U :: pad2 (mi t) ++ U :: pad2 (se t).

(* the fields between the underscores *)
Fixpoint split_us (l : list ch) : list (list ch) :=
  match l with
  | [] => [[]]
  | U :: r => [] :: split_us r
  | c :: r => match split_us r with [] => [[c]] | f :: fs => (c :: f) :: fs end
  end.
(* \d\d\d\d *)
Definition field_y (f : list ch) : option nat :=
  match f with [D a; D b; D c; D d] => Some (1000 * a + 100 * b + 10 * c + d) | _ => None end.
(* \d\d|\d; the bounds are checked in strptime *)
Definition field2 (f : list ch) : option nat :=
  match f with [D a; D b] => Some (10 * a + b) | [D a] => Some a | _ => None end.
(* 3[0-1]|[1-2]\d|0[1-9]|[1-9]| [1-9] *)
Definition field_d (f : list ch) : option nat :=
  match f with [Sp; D a] => Some a | _ => field2 f end.
Definition between (lo n hi : nat) : bool := ((lo <=? n) && (n <=? hi))%bool.
(* datetime.strptime(restart_from_trial, time_format), 46-48; None = ValueError *)
Definition strptime (name : list ch) : option dtime :=
  match split_us name with
  | [fy; fm; fd; fh; fi; fs] =>
      match field_y fy, field2 fm, field_d fd, field2 fh, field2 fi, field2 fs with
      | Some y, Some m, Some d, Some h, Some i, Some s =>
          if ((1 <=? y) && between 1 m 12 && between 1 d (dim y m) && (h <=? 23) && (i <=? 59) && (s <=? 59))%bool
          then Some (MkDt y m d h i s 0) else None
      | _, _, _, _, _, _ => None
      end
  | _ => None
  end.

(* 42-48: env_create_time; [now] is datetime.now() *)
Definition create_time (restart : option (list ch)) (now : dtime) : res dtime :=
  match restart with
  | None => Ok now
  | Some name => match strptime name with Some t => Ok t | None => Err EValue end
  end.
(* 65-67: get_trial_root, relative to env_root *)
Definition trial_root (t : dtime) : list ch := strftime t.
