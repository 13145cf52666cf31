(* String literals without the names of the String library. *)
From Coq Require String.
Export String.StringSyntax.
Notation string := String.string.
Delimit Scope string_scope with string.
Bind Scope string_scope with String.string.
