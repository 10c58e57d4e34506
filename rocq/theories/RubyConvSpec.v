(** * RubyConvSpec: what the conversions of the Ruby bindings mean. *)
From Verif Require Import Base Types.
Local Open Scope Z_scope.

(** The numbers an integer type of [n] bytes can represent. *)
Definition representable (n : N) (c : ncat) (z : Z) : Prop :=
  match c with
  | SInt => - 2 ^ (8 * Z.of_N n - 1) <= z < 2 ^ (8 * Z.of_N n - 1)
  | UInt => 0 <= z < 2 ^ (8 * Z.of_N n)
  | Float => False
  end.
(** The integers that the bindings accept for a field of this type, without RangeError: those of int, of int and unsigned
    int together for unsigned fields of 2 and 4 bytes, and of long long for all fields of 8 bytes. *)
Definition accepted (n : N) (c : ncat) (z : Z) : Prop :=
  if (n =? 8)%N then - 2 ^ 63 <= z < 2 ^ 63
  else match c with
       | UInt => if (n =? 1)%N then - 2 ^ 31 <= z < 2 ^ 31 else - 2 ^ 31 <= z < 2 ^ 32
       | _ => - 2 ^ 31 <= z < 2 ^ 31
       end.
(** The integers that a field of this type reads as: those it can represent, but 4 byte fields always read as an int. *)
Definition shown (n : N) (c : ncat) (y : Z) : Prop := if (n =? 4)%N then - 2 ^ 31 <= y < 2 ^ 31 else representable n c y.
(** The integers that are accepted, and can be read back. *)
Definition faithful (n : N) (c : ncat) (z : Z) : Prop := representable n c z /\ accepted n c z /\ shown n c z.

(** A text in a buffer of [n] bytes: the text, a NUL, anything. *)
Definition holds_text (bs : list N) (s : list N) : Prop := ~ In 0%N s /\ exists rest, bs = s ++ 0%N :: rest.
