(** * FromRuby: Typelib.from_ruby on plain Ruby objects (bindings/ruby/lib/typelib.rb:292-327) with the conversions that types have by
    default: numeric_type.rb:17, enum_type.rb:15, compound_type.rb:112-126,295-309, array_type.rb:103-116, container_type.rb:191-201,
    standard_convertions.rb. *)
From Verif Require Import Base Types Layout ValueOps ValueSpec Visitor Csv RubyConv SimpleSpec Vector FromRubySpec.
Local Open Scope N_scope.

Definition no_fl : floats := Floats (fun _ => []) (fun x => x) (fun x => x) (fun _ _ _ => Throw ERange).
(** The bytes a numeric gets (convert.cc:87-96, RubyConv.set_num for Integers). Strings: the conversion of one character Strings for
    CHAR_T, standard_convertions.rb:63-68; simplification: every signed numeric of one byte is CHAR_T. *)
Definition num_bytes (P : env) (n : N) (c : ncat) (s : sval) : res (list N) :=
  match s, c with
  | SNum z, Float => Ok (fl_int P n z)
  | SNum z, _ => set_num no_fl n c (RbInt z)
  | SFlo x, Float => Ok (fl_set P n x)
  | SFlo x, _ => match fl_to_int P n c x with Some bs => Ok bs | None => Throw ERange end
  | SStr bs, SInt =>
    if n =? 1 then if chars P bs =? 1 then set_num no_fl 1 SInt (RbInt (ord P bs)) else Throw EArg
    else Throw EType
  | _, _ => Throw EType
  end.
(** NumericType.from_ruby, numeric_type.rb:17-23. *)
Definition num_from (P : env) (n : N) (c : ncat) (s : sval) : res (list cell) :=
  if num_supported n c then bs <- num_bytes P n c s ;; put_raw bs (new_of P (TNum n c)) else Throw EType.
(** EnumType.from_ruby, enum_type.rb:15-19, with rb2cxx::enum_value (RubyConv.enum_of_ruby). *)
Definition enum_from (P : env) (n : N) (vs : list (str * Z)) (s : sval) : res (list cell) :=
  v <- match s with
       | SNum z => enum_of_ruby (RbInt z) vs
       | SStr bs => enum_of_ruby (RbStr bs (chars P bs)) vs
       | _ => Throw EType
       end ;;
  put_raw (int_bytes enum_size v) (new_of P (TEnum n vs)).

(** t[i] = el for all the elements, array_type.rb:110-112 and raw_set, 158-167: the element is a Typelib value by then, it is copied.
    The offset of the element: array_element, specialized_types.cc:214. *)
Definition set_elts (F : sval -> res (list cell)) (f : nat) (d : N) (e : ty) : N -> list sval -> list cell -> res (list cell) :=
  fix go i l m :=
    match l with
    | [] => Ok m
    | x :: r =>
      v <- F x ;;
      off <- array_element d (sizeof e) (Z.of_N i) ;;
      m' <- at_index off (fun c => copy_value f e c v) m ;; go (i + 1) r m'
    end.
(** concat, container_type.rb:301-311: __element_from_ruby converts if the element type has conversions (233-235; all but numerics,
    for which do_push converts, and enums); do_push: container_element, specialized_types.cc:465-493, refuses what is neither
    a number nor a value of the element type. *)
Definition push_all (F : sval -> res (list cell)) (f : nat) (sz : N) (e : ty) : list sval -> list cell -> res (list cell) :=
  fix go l m :=
    match l with
    | [] => Ok m
    | x :: r =>
      v <- (if is_enum e then Throw EType else F x) ;;
      '(_, m') <- vector_push f sz e true v m ;; go r m'
    end.
Definition push_chars (P : env) (sz : N) : list sval -> list cell -> res (list cell) :=
  fix go l m :=
    match l with
    | [] => Ok m
    | x :: r =>
      v <- num_from P 1 SInt x ;;
      '(_, m') <- string_push sz true v m ;; go r m'
    end.
(** CompoundType#set, compound_type.rb:501-511: has_field?, then the conversion, then raw_set (472-480) copies the value into the field. *)
Fixpoint find_field (fs : fields) (k : str) : option (N * ty) :=
  match fs with
  | FNil => None
  | FCons k' off t r => if list_eq_dec ascii_dec k' k then Some (off, t) else find_field r k
  end.
Definition set_field (F : ty -> sval -> res (list cell)) (f : nat) (fs : fields) (k : str) (x : sval) (m : list cell) : res (list cell) :=
  match find_field fs k with
  | None => Throw EArg
  | Some (off, t) => v <- F t x ;; at_index off (fun c => copy_value f t c v) m
  end.
(** set_hash and set_array, compound_type.rb:112-126. fields[i][0] raises NoMethodError behind the last field. *)
Definition set_hash (F : ty -> sval -> res (list cell)) (f : nat) (fs : fields) : list (str * sval) -> list cell -> res (list cell) :=
  fix go l m := match l with [] => Ok m | (k, x) :: r => m' <- set_field F f fs k x m ;; go r m' end.
Definition set_array (F : ty -> sval -> res (list cell)) (f : nat) (fs : fields) : list str -> list sval -> list cell -> res (list cell) :=
  fix go ks l m {struct l} :=
    match l with
    | [] => Ok m
    | x :: r => match ks with [] => Throw ERuntime | k :: ks' => m' <- set_field F f fs k x m ;; go ks' r m' end
    end.

(** Typelib.from_ruby. Objects without conversion: UnknownConversionRequested. Left out: pointers (from Strings), true and false, packed
    arrays as Hashes, objects that are Typelib values already, custom conversions (C79). *)
Fixpoint from_ruby (P : env) (f : nat) (t : ty) (s : sval) {struct s} : res (list cell) :=
  match t with
  | TNull | TOpaque _ | TPtr _ => Throw EArg
  | TNum n c => num_from P n c s
  | TEnum n vs => enum_from P n vs s
  | TArray sz d e =>
    match s with
    | SArr l => if lenN l =? d then set_elts (from_ruby P f e) f d e 0 l (new_of P t) else Throw EArg
    | SStr bs => if is_char e then value_from_string true (DArray d) (new_of P t) (RbStr bs (chars P bs)) else Throw EArg
    | _ => Throw EArg
    end
  | TCont KVec sz e =>
    match s with
    | SArr l => push_all (from_ruby P f e) f sz e l (new_of P t)
    | _ => Throw EArg
    end
  | TCont KStr sz e =>
    match s with
    | SStr bs => std_string_from_ruby f sz (new_of P t) (RbStr bs (chars P bs))
    | SArr l => push_chars P sz l (new_of P t)
    | _ => Throw EArg
    end
  | TComp sz fs =>
    match s with
    | SHash l => set_hash (from_ruby P f) f fs l (new_of P t)
    | SArr l => set_array (from_ruby P f) f fs (field_names fs) l (new_of P t)
    | _ => Throw EArg
    end
  end.
