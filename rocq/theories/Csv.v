(** * Csv: csv output of values (typelib/csvoutput.cc), value_cast (typelib/value_cast.hh), value_get_field (typelib/value.hh). *)
From Verif Require Import Base Types Layout ValueOps Visitor.
From Verif Require Registry Graph.
Local Open Scope N_scope.

(** boost::lexical_cast<std::string> of an unsigned or signed integer. *)
Definition decN : N -> str := Registry.dec.
Definition decZ (z : Z) : str := if (z <? 0)%Z then s_ "-" ++ decN (Z.to_N (- z)) else decN (Z.to_N z).
(** The value of [n] bytes as an unsigned, resp. two's complement signed integer. *)
Definition signed (n : N) (bs : list N) : Z :=
  let v := Z.of_N (le_val bs) in if (v <? 2 ^ (8 * Z.of_N n - 1))%Z then v else (v - 2 ^ (8 * Z.of_N n))%Z.

(** HeaderVisitor, csvoutput.cc:15-83: the column names pushed for a type when m_name holds [name]. Every visit_ method
    leaves m_name as it found it, so the model passes it down. (Pointers: the pointee is not part of the model's types;
    containers: TypeVisitor::visit_(Container), typevisitor.cc:18-19, visits the element type once.) *)
Fixpoint hvisit (t : ty) (name : list str) {struct t} : res (list str) :=
  match t with
  | TNull => Throw ENullType
  | TOpaque _ | TNum _ _ | TEnum _ _ => Ok [concat name]
  | TPtr _ => UB UOther
  | TArray _ d e =>
    (fix loop (n : nat) (i : N) {struct n} : res (list str) :=
       match n with
       | O => Ok []
       | Datatypes.S k =>
         a <- hvisit e (name ++ [s_ "["; decN i; s_ "]"]) ;; b <- loop k (i + 1) ;; Ok (a ++ b)
       end) (N.to_nat d) 0
  | TCont _ _ e => hvisit e name
  | TComp _ fs => hvisit_fields fs (name ++ [s_ "."])
  end
with hvisit_fields (fs : fields) (name : list str) {struct fs} : res (list str) :=
  match fs with
  | FNil => Ok []
  | FCons nm _ t r => a <- hvisit t (name ++ [nm]) ;; b <- hvisit_fields r name ;; Ok (a ++ b)
  end.
(** HeaderVisitor::apply, csvoutput.cc:75-82. *)
Definition csv_columns (t : ty) (basename : str) : res (list str) := hvisit t [basename].

(** The texts LineVisitor pushes, csvoutput.cc:91-131. [fl] is the conversion of a float or double to text, which is not
    modelled; [can] is m_char_as_numeric. Enum::get(int), typemodel.cc: the first symbol, in the order of the map, that
    has the value. *)
Definition num_text (fl : list N -> str) (can : bool) (n : N) (c : ncat) (bs : list N) : str :=
  match c with
  | Float => fl bs
  | SInt => if (n =? 1) && negb can then map (fun b => ascii_of_N b) bs else decZ (signed n bs)
  | UInt => if (n =? 1) && negb can then map (fun b => ascii_of_N b) bs else decN (le_val bs)
  end.
Fixpoint enum_get (vs : list (str * Z)) (v : Z) : option str :=
  match vs with
  | [] => None
  | (k, x) :: r => if (x =? v)%Z then Some k else enum_get r v
  end.
Definition enum_text (vs : list (str * Z)) (bs : list N) : str :=
  match enum_get vs (signed 4 bs) with Some k => k | None => decZ (signed 4 bs) end.
(** LineVisitor, csvoutput.cc:85-131. visit_(Value, OpaqueType) (98) takes its first parameter by value: it does not override
    visit_(Value const&, OpaqueType) (value.hh:65), which is the one that is called and returns true. *)
Definition line_visitor (fl : list N -> str) (can : bool) : visitor (list str) := mkV
  (fun n c bs s => Ok (true, bs, s ++ [num_text fl can n c bs]))
  (fun vs bs s => Ok (true, bs, s ++ [enum_text vs bs]))
  (fun _ s => Ok (true, s))
  None
  (fun _ _ _ _ _ => None).
Definition csv_line (fl : list N -> str) (can : bool) (fuel : nat) (t : ty) (m : list cell) : res (list str) :=
  '(_, s) <- apply_visitor (line_visitor fl can) fuel t m [] ;; Ok s.

(** boost::join. *)
Fixpoint join (sep : str) (l : list str) : str :=
  match l with
  | [] => []
  | [x] => x
  | x :: r => x ++ sep ++ join sep r
  end.
(** CSVOutput::header and CSVOutput::display, csvoutput.cc:145-155: the text written on the stream. *)
Definition csv_header (sep : str) (t : ty) (basename : str) : res str := l <- csv_columns t basename ;; Ok (join sep l).
Definition csv_display (fl : list N -> str) (can : bool) (sep : str) (fuel : nat) (t : ty) (m : list cell) : res str :=
  l <- csv_line fl can fuel t m ;; Ok (join sep l).

(** ** value_cast<T>, value_cast.hh:13-46. T is given by the size and category of normalized_numeric_type<T>. The state is
    m_value, None when m_found is false. *)
Definition cast_visitor (n : N) (c : ncat) : visitor (option (list N)) := mkV
  (fun n' c' bs s => Ok (false, bs, if (n' =? n) && match c, c' with SInt, SInt | UInt, UInt | Float, Float => true | _, _ => false end
                                     then Some bs else s))
  (fun _ bs s => Ok (true, bs, s))
  (fun _ s => Ok (true, s))
  None
  (fun _ _ _ _ _ => None).
Definition value_cast (n : N) (c : ncat) (fuel : nat) (t : ty) (m : list cell) : res (list N) :=
  '(_, s) <- apply_visitor (cast_visitor n c) fuel t m None ;;
  match s with Some bs => Ok bs | None => Throw EBadValueCast end.

(** ** value_get_field, value.hh:97-137: the field getter. The state is m_field: the path of the value found, its offset in
    the compound and its type. FieldNotFound is a BadValueCast. *)
Definition field_getter (name : str) : visitor (option (path * N * ty)) := mkV
  (fun _ _ bs s => Ok (true, bs, s))
  (fun _ bs s => Ok (true, bs, s))
  (fun _ s => Ok (true, s))
  None
  (fun p nm off t s => if Graph.seqb nm name then Some (false, Some (p, off, t)) else Some (true, s)).
Definition value_get_field (name : str) (fuel : nat) (t : ty) (m : list cell) : res (path * N * ty) :=
  '(_, s) <- apply_visitor (field_getter name) fuel t m None ;;
  match s with Some f => Ok f | None => Throw EBadValueCast end.
