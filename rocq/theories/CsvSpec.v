(** * CsvSpec: the numbers and enums of a value without containers, the names and texts of their csv columns (specification side). *)
From Verif Require Import Base Types ValueOps Visitor.
Local Open Scope N_scope.

Definition upto (d : N) : list N := map N.of_nat (seq 0 (N.to_nat d)).
(** The numbers and enums in a value of type [t] at offset [off], in the order of the fields and of the elements: the
    path to it, its offset, its type. *)
Fixpoint leaves (t : ty) (p : path) (off : N) : list (path * N * ty) :=
  match t with
  | TNum _ _ | TEnum _ _ => [(p, off, t)]
  | TNull | TOpaque _ | TPtr _ | TCont _ _ _ => []
  | TArray _ d e => concat (map (fun i => leaves e (p ++ [SElt i]) (off + i * sizeof e)) (upto d))
  | TComp _ fs => leaves_fields fs p off
  end
with leaves_fields (fs : fields) (p : path) (off : N) : list (path * N * ty) :=
  match fs with
  | FNil => []
  | FCons nm o t r => leaves t (p ++ [SField nm]) (off + o) ++ leaves_fields r p off
  end.

(** ** Decimal text *)
Definition digit_val (c : ascii) : N := N_of_ascii c - 48.
Definition read_dec (s : str) : N := fold_left (fun a c => 10 * a + digit_val c) s 0.
Definition is_digit (c : ascii) : Prop := 48 <= N_of_ascii c <= 57.
(** [s] is the decimal representation of [n]. *)
Definition decimal (s : str) (n : N) : Prop := s <> [] /\ Forall is_digit s /\ read_dec s = n.
Definition decimalZ (s : str) (z : Z) : Prop :=
  ((0 <= z)%Z /\ decimal s (Z.to_N z)) \/ ((z < 0)%Z /\ exists r, s = "-"%char :: r /\ decimal r (Z.to_N (- z))).

(** ** Names of columns: base.field[index].field *)
Inductive step_name : step -> str -> Prop :=
| sn_field nm : step_name (SField nm) ("."%char :: nm)
| sn_elt i d : decimal d i -> step_name (SElt i) ("["%char :: d ++ ["]"%char]).
Inductive path_name : path -> str -> Prop :=
| pn_nil : path_name [] []
| pn_cons x p a b : step_name x a -> path_name p b -> path_name (x :: p) (a ++ b).

(** ** Texts of columns. The [n] bytes [bs] hold the integer [v]; unsigned, resp. two's complement. *)
Definition uint_of (bs : list N) : N := fold_right (fun b a => b + 256 * a) 0 bs.
Definition holds_int (n : N) (bs : list N) (v : Z) : Prop :=
  (- 2 ^ (8 * Z.of_N n - 1) <= v < 2 ^ (8 * Z.of_N n - 1))%Z /\ (v mod 2 ^ (8 * Z.of_N n))%Z = Z.of_N (uint_of bs).
Definition num_col (fl : list N -> str) (can : bool) (n : N) (c : ncat) (bs : list N) (s : str) : Prop :=
  match c with
  | Float => s = fl bs
  | UInt => if (n =? 1) && negb can then s = map ascii_of_N bs else decimal s (uint_of bs)
  | SInt => if (n =? 1) && negb can then s = map ascii_of_N bs else exists v, holds_int n bs v /\ decimalZ s v
  end.
(** An enum is written as one of its symbols for the value, as the number if there is none. *)
Definition enum_col (vs : list (str * Z)) (bs : list N) (s : str) : Prop :=
  exists v, holds_int 4 bs v /\ (In (s, v) vs \/ ((forall k, ~ In (k, v) vs) /\ decimalZ s v)).
Definition col (fl : list N -> str) (can : bool) (t : ty) (bs : list N) (s : str) : Prop :=
  match t with
  | TNum n c => num_col fl can n c bs s
  | TEnum _ vs => enum_col vs bs s
  | _ => False
  end.

(** ** Separators *)
Definition count (c : ascii) (s : str) : nat := count_occ ascii_dec s c.
(** The character is in no field name and no enum symbol of the type. *)
Fixpoint names_free (c : ascii) (t : ty) : Prop :=
  match t with
  | TEnum _ vs => forall k v, In (k, v) vs -> ~ In c k
  | TArray _ _ e | TCont _ _ e => names_free c e
  | TComp _ fs => names_free_fields c fs
  | _ => True
  end
with names_free_fields (c : ascii) (fs : fields) : Prop :=
  match fs with
  | FNil => True
  | FCons nm _ t r => ~ In c nm /\ names_free c t /\ names_free_fields c r
  end.
