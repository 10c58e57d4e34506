(** * Simple: to_simple_value (bindings/ruby/lib/typelib/{type,numeric_type,enum_type,array_type,container_type,compound_type}.rb). *)
From Verif Require Import Base Types Layout ValueOps Visitor Csv SimpleSpec.
From Verif Require RubyConv.
Local Open Scope N_scope.

(** NumericType.pack_code, numeric_type.rb:51-89, with the two tables; [be]: Typelib.big_endian? (ext/typelib_ruby.cc:36-45).
    nil is [None]. *)
Definition pack_code (be : bool) (n : N) (c : ncat) : option str :=
  match c with
  | UInt =>
    if n =? 1 then Some (s_ "C") else if n =? 2 then Some (s_ (if be then "S>" else "S<"))
    else if n =? 4 then Some (s_ (if be then "L>" else "L<")) else if n =? 8 then Some (s_ (if be then "Q>" else "Q<")) else None
  | SInt =>
    if n =? 1 then Some (s_ "c") else if n =? 2 then Some (s_ (if be then "s>" else "s<"))
    else if n =? 4 then Some (s_ (if be then "l>" else "l<")) else if n =? 8 then Some (s_ (if be then "q>" else "q<")) else None
  | Float =>
    if n =? 4 then Some (s_ (if be then "g" else "e")) else if n =? 8 then Some (s_ (if be then "G" else "E")) else None
  end.

(** Base64.strict_encode64 (Ruby's standard library). *)
Definition char64 (x : N) : ascii :=
  ascii_of_N (if x <? 26 then x + 65 else if x <? 52 then x + 71 else if x <? 62 then x - 4 else if x =? 62 then 43 else 47).
Fixpoint encode64 (bs : list N) : str :=
  match bs with
  | [] => []
  | [a] => [char64 (a / 4); char64 (a mod 4 * 16); "="; "="]%char
  | [a; b] => [char64 (a / 4); char64 (a mod 4 * 16 + b / 16); char64 (b mod 16 * 4); "="]%char
  | a :: b :: c :: r =>
    char64 (a / 4) :: char64 (a mod 4 * 16 + b / 16) :: char64 (b mod 16 * 4 + c / 64) :: char64 (c mod 64) :: encode64 r
  end.

(** Type#to_ruby on a numeric, convert.cc:16-25: the number, through INT2NUM for 4 bytes (RubyConv.get_num, C60). Floats are
    the number they hold. /bool, which is shown as true or false (standard_convertions.rb:15), is left out: types have
    no names here. *)
Definition ruby_num (n : N) (c : ncat) (bs : list N) : sval :=
  match c with
  | Float => SFlo (if n =? 4 then ieee 8 23 925 (num_of bs) else ieee 11 52 0 (num_of bs))
  | SInt => SNum (signed n bs)
  | UInt => if n =? 4 then SNum (RubyConv.cast_int (Z.of_N (le_val bs))) else SNum (Z.of_N (le_val bs))
  end.
(** NumericType#to_simple_value, numeric_type.rb:92-113. *)
Definition simple_num (o : sopt) (n : N) (c : ncat) (bs : list N) : res sval :=
  match c with
  | Float =>
    match ruby_num n c bs with
    | SFlo v =>
      match o with
      | OAsIs => Ok (SFlo v)
      | OString =>
        match v with
        | FNaN => Ok (SStr (map N_of_ascii (s_ "NaN")))
        | FInf neg => Ok (SStr (map N_of_ascii (s_ (if neg then "-Infinity" else "Infinity"))))
        | FFin _ _ => Ok (SFlo v)
        end
      | ONil =>
        match v with
        | FNaN | FInf _ => Ok SNil
        | FFin _ _ => Ok (SFlo v)
        end
      | OInvalid => Throw EArg
      end
    | v => Ok v
    end
  | _ => Ok (ruby_num n c bs)
  end.

(** element_t.respond_to?(:pack_code): numeric types only (numeric_type.rb:83). *)
Definition packs (o : opts) (e : ty) : bool := pack o && match e with TNum _ _ => true | _ => false end.
(** element_t.pack_code, on the little-endian machine of the model. *)
Definition code_of (e : ty) : option str := match e with TNum n c => pack_code false n c | _ => None end.

(** Hash#[]= *)
Fixpoint hash_set (l : list (str * sval)) (k : str) (v : sval) : list (str * sval) :=
  match l with
  | [] => [(k, v)]
  | (k', v') :: r => if list_eq_dec ascii_dec k' k then (k, v) :: r else (k', v') :: hash_set r k v
  end.

(** raw_each.map with the elements of [es] bytes behind each other (array_type.rb:85-93, container_type.rb:160-165). *)
Definition each_elt (f : list cell -> res sval) (es : N) : nat -> list cell -> res (list sval) :=
  fix go n m :=
    match n with
    | O => Ok []
    | Datatypes.S k =>
      if lenN m <? es then UB UOob
      else a <- f m ;; r <- go k (dropN es m) ;; Ok (a :: r)
    end.

(** to_simple_value on a value of type [t] at the start of [m]: type.rb:807-809 (NotImplementedError: [ERuntime]),
    numeric_type.rb:92 ([EUnsupported]: sizes without C++ type, value.cc:34-51), enum_type.rb:11-13 with
    cxx2rb::enum_symbol (nil.to_s is the empty string), array_type.rb:218-227, container_type.rb:417-426, compound_type.rb:517-522,
    standard_convertions.rb:47-49 for /std/string. to_byte_array is dump with the default layout (ext/value.cc:577-585).
    apply_changes_from_converted_types does nothing here (C75). *)
Fixpoint simple (o : opts) (f : nat) (t : ty) (m : list cell) {struct t} : res sval :=
  match t with
  | TNull | TOpaque _ | TPtr _ => Throw ERuntime
  | TNum n c => if num_supported n c then '(bs, _) <- take_raw n m ;; simple_num (sp o) n c bs else Throw EUnsupported
  | TEnum _ vs =>
    '(bs, _) <- take_raw enum_size m ;;
    Ok (SStr (map N_of_ascii (match enum_get vs (signed 4 bs) with Some k => k | None => [] end)))
  | TArray s d e =>
    if packs o e then
      '(a, _) <- take_cells s m ;; bs <- do_dump f t a ;; Ok (SPacked (code_of e) d (encode64 bs))
    else
      l <- each_elt (simple o f e) (sizeof e) (N.to_nat d) m ;; Ok (SArr l)
  | TCont KStr s _ => '(a, _) <- take_cells s m ;; bs <- do_dump f t a ;; Ok (SStr (dropN 8 bs))
  | TCont KVec s e =>
    '(ob, _) <- take_obj s m ;;
    match ob with
    | VecObj _ cs =>
      n <- vec_count e cs ;;
      if packs o e then
        '(a, _) <- take_cells s m ;; bs <- do_dump f t a ;; Ok (SPacked (code_of e) n (encode64 (dropN 8 bs)))
      else
        l <- each_elt (simple o f e) (sizeof e) (N.to_nat n) cs ;; Ok (SArr l)
    | StrObj _ => UB URaw
    end
  | TComp _ fs => l <- simple_fields o f fs m [] ;; Ok (SHash l)
  end
with simple_fields (o : opts) (f : nat) (fs : fields) (m : list cell) (h : list (str * sval)) {struct fs} : res (list (str * sval)) :=
  match fs with
  | FNil => Ok h
  | FCons k off t r =>
    if lenN m <? off then UB UOob
    else v <- simple o f t (dropN off m) ;; simple_fields o f r m (hash_set h k v)
  end.
(** Type#to_json_value, type.rb:819-821: special_float_values is :nil unless given. *)
Definition to_json (p : bool) (given : option sopt) (f : nat) (t : ty) (m : list cell) : res sval :=
  simple (Opts p (match given with Some x => x | None => ONil end)) f t m.
