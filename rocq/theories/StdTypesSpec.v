(** * StdTypesSpec: what the names of the C types mean (specification side). *)
From Verif Require Import Base Types.
Local Open Scope nat_scope.

(** The words integer types are written with. *)
Inductive kw := Signed | Unsigned | Short | Long | Int | Char.
Definition kw_eq (a b : kw) : bool :=
  match a, b with Signed, Signed | Unsigned, Unsigned | Short, Short | Long, Long | Int, Int | Char, Char => true | _, _ => false end.
Definition kw_text (k : kw) : str :=
  s_ (match k with Signed => "signed" | Unsigned => "unsigned" | Short => "short" | Long => "long" | Int => "int" | Char => "char" end).
(** The words one after the other, with spaces between them. *)
Fixpoint spell (l : list kw) : str :=
  match l with [] => [] | [k] => kw_text k | k :: r => kw_text k ++ " "%char :: spell r end.
Definition times_in (k : kw) (l : list kw) : nat := length (filter (kw_eq k) l).
(** The C standard (6.7.2): the order of the words does not matter, only how many times each is there. None: not a type. The sizes
    are those of the platform (LP64, signed char). *)
Definition c_type (l : list kw) : option (N * ncat) :=
  let n k := times_in k l in
  if (length l =? 0) || (1 <? n Signed + n Unsigned) || (1 <? n Int) || (1 <? n Char) || (1 <? n Short) || (2 <? n Long) ||
     ((0 <? n Short) && (0 <? n Long)) || ((0 <? n Char) && (0 <? n Int + n Short + n Long)) then None
  else Some (if 0 <? n Char then 1%N else if 0 <? n Short then 2%N else if 0 <? n Long then 8%N else 4%N, if 0 <? n Unsigned then UInt else SInt).
(** The order in which compilers and people write them: the sign (or the sign second, as gcc prints unsigned types), the length, int. *)
Definition canonical (l : list kw) : Prop :=
  exists sign len int, l <> [] /\ In sign [[]; [Signed]; [Unsigned]] /\ In len [[]; [Short]; [Long]; [Long; Long]; [Char]] /\ In int [[]; [Int]] /\
    (len = [Char] -> int = []) /\ (l = sign ++ len ++ int \/ (len <> [Char] /\ l = len ++ sign ++ int)).
