(** * RubyConv: conversions between Ruby objects and C++ values (bindings/ruby/ext/convert.cc, strings.cc, specialized_types.cc). *)
From Verif Require Import Base Types Layout ValueOps Visitor Csv.
From Verif Require Smap Graph.
Local Open Scope N_scope.

(** Ruby objects as the conversions see them. [RbFloat]: the 8 bytes of the double. [RbStr]: the bytes of a String and its
    length in characters, which depends on its encoding. [RbWrap]: a wrapper of a value; the boolean says whether its type
    is the same object as that of the destination. [RbOther]: an object without conversion to a number or a string. *)
Inductive rbobj :=
| RbInt (z : Z)
| RbFloat (bs : list N)
| RbStr (bs : list N) (chars : N)
| RbSym (name : str)
| RbWrap (same : bool) (t : ty) (m : list cell)
| RbOther.
(** What the compiler and Ruby do with floating point numbers is a parameter: conversion of an integer to a double, of a
    double to a float and back, and the bytes written when a Float is assigned to an integer. *)
Record floats := Floats {
  fl_of_int : Z -> list N;
  fl_narrow : list N -> list N;
  fl_widen : list N -> list N;
  fl_to_int : N -> ncat -> list N -> res (list N)
}.

(** The macros of ruby.h on a platform with 32 bit int and 64 bit long. NUM2INT and NUM2LL raise RangeError when the
    number does not fit; NUM2UINT accepts negative numbers down to INT_MIN (numeric.c, check_uint), NUM2ULL down to
    LLONG_MIN. INT2NUM casts its argument to int; INT2FIX, LL2NUM and ULL2NUM are exact. *)
Definition in_range (lo hi z : Z) : bool := ((lo <=? z) && (z <? hi))%Z.
Definition NUM2INT (z : Z) : res Z := if in_range (- 2 ^ 31) (2 ^ 31) z then Ok z else Throw ERange.
Definition NUM2UINT (z : Z) : res Z := if in_range (- 2 ^ 31) (2 ^ 32) z then Ok (z mod 2 ^ 32)%Z else Throw ERange.
Definition NUM2LL (z : Z) : res Z := if in_range (- 2 ^ 63) (2 ^ 63) z then Ok z else Throw ERange.
Definition cast_int (z : Z) : Z := ((z + 2 ^ 31) mod 2 ^ 32 - 2 ^ 31)%Z.
Definition INT2NUM (z : Z) : rbobj := RbInt (cast_int z).
(** The bytes of an integer converted to an integer type of [n] bytes. *)
Definition int_bytes (n : N) (z : Z) : list N := le_bytes (N.to_nat n) (Z.to_N (z mod 2 ^ (8 * Z.of_N n))%Z).

(** RubySetter::visit_ on numbers, convert.cc:87-96: the bytes written. *)
Definition set_num (fl : floats) (n : N) (c : ncat) (o : rbobj) : res (list N) :=
  match c with
  | Float =>
    match o with
    | RbInt z => Ok (if n =? 4 then fl_narrow fl (fl_of_int fl z) else fl_of_int fl z)
    | RbFloat bs => Ok (if n =? 4 then fl_narrow fl bs else bs)
    | _ => Throw EType
    end
  | _ =>
    match o with
    | RbFloat bs => fl_to_int fl n c bs
    | RbInt z =>
      v <- (if n =? 8 then NUM2LL z
            else match c with
                 | SInt => NUM2INT z
                 | _ => if n =? 1 then NUM2INT z else NUM2UINT z
                 end) ;;
      Ok (int_bytes n v)
    | _ => Throw EType
    end
  end.
(** RubyGetter::visit_ on numbers, convert.cc:16-25. *)
Definition get_num (fl : floats) (n : N) (c : ncat) (bs : list N) : rbobj :=
  match c with
  | Float => RbFloat (if n =? 4 then fl_widen fl bs else bs)
  | SInt => RbInt (signed n bs)
  | UInt => if n =? 4 then INT2NUM (Z.of_N (le_val bs)) else RbInt (Z.of_N (le_val bs))
  end.

(** rb2cxx::enum_value, specialized_types.cc:104-131. Integers that are not Fixnums (at least 2^62 in absolute value) are
    treated as strings, for which StringValuePtr raises TypeError. FIX2INT raises RangeError. *)
Definition bytes_of_str (s : str) : list N := map N_of_ascii s.
Definition str_of_bytes (bs : list N) : str := map ascii_of_N bs.
(** A C string ends at the first NUL. *)
Fixpoint c_str (bs : list N) : list N := match bs with [] => [] | b :: r => if b =? 0 then [] else b :: c_str r end.
Definition enum_of_ruby (o : rbobj) (vs : list (str * Z)) : res Z :=
  match o with
  | RbInt z =>
    if in_range (- 2 ^ 62) (2 ^ 62) z then
      v <- NUM2INT z ;;
      match Csv.enum_get vs v with Some _ => Ok v | None => Throw EArg end
    else Throw EType
  | RbSym name => match Smap.m_find name vs with Some v => Ok v | None => Throw EArg end
  | RbStr bs _ => match Smap.m_find (str_of_bytes (c_str bs)) vs with Some v => Ok v | None => Throw EArg end
  | _ => Throw EType
  end.
(** cxx2rb::enum_symbol, typelib.hh:73-80. nil is [RbOther]. *)
Definition enum_to_ruby (vs : list (str * Z)) (v : Z) : rbobj :=
  match Csv.enum_get vs v with Some k => RbSym k | None => RbOther end.

(** The part of the memory that is overwritten. *)
Definition put_raw (bs : list N) (m : list cell) : res (list cell) := '(w, r) <- write_raw bs m ;; Ok (w ++ r).

(** typelib_from_ruby, convert.cc:166-199, on the memory of the destination; UnsupportedType becomes a TypeError. [is_char]:
    the element type of an array is called /char (convert.cc:100). StringValuePtr gives the bytes with a NUL behind them.
    The memory after an exception is unchanged. *)
Definition typelib_from_ruby (fl : floats) (is_char : bool) (fuel : nat) (t : ty) (m : list cell) (o : rbobj) : res (list cell) :=
  match o with
  | RbWrap same _ src => if same then copy_value fuel t m src else Throw EArg
  | _ =>
    match t with
    | TNull => Throw ENullType
    | TNum n c => if num_supported n c then bs <- set_num fl n c o ;; put_raw bs m else Throw EType
    | TEnum _ vs => v <- enum_of_ruby o vs ;; put_raw (int_bytes enum_size v) m
    | TArray _ d _ =>
      if is_char then
        match o with
        | RbStr bs _ =>
          let s := c_str bs in
          if lenN s <? d then put_raw (s ++ [0]) m else Throw EType
        | _ => Throw EType
        end
      else Throw EType
    | TOpaque _ | TPtr _ | TCont _ _ _ | TComp _ _ => Throw EType
    end
  end.
(** typelib_to_ruby, convert.cc:147-154: numbers and enums are converted, the other values are wrapped. *)
Definition typelib_to_ruby (fl : floats) (t : ty) (m : list cell) : res rbobj :=
  match t with
  | TNull => Throw ENullType
  | TNum n c => if num_supported n c then '(bs, _) <- take_raw n m ;; Ok (get_num fl n c bs) else Throw EUnsupported
  | TEnum _ vs => '(bs, _) <- take_raw enum_size m ;; Ok (enum_to_ruby vs (signed 4 bs))
  | _ => Ok (RbWrap true t m)
  end.

(** ** strings.cc *)

(** string_buffer_get, strings.cc:29-41: the size of the buffer is string::npos for pointers. *)
Definition npos : N := two64 - 1.
Inductive string_dest := DArray (dim : N) | DPointer.
Definition buffer_size (d : string_dest) : N := match d with DArray n => n | DPointer => npos end.
(** strncpy: the bytes up to the first NUL, padded with NULs up to [n] bytes. *)
Definition strncpy (n : N) (src : list N) (m : list cell) : res (list cell) :=
  let s := takeN n (c_str src) in put_raw (s ++ repN (n - lenN s) 0) m.
(** buffer[i] = 0. *)
Definition poke (i : N) (m : list cell) : res (list cell) :=
  if lenN m <=? i then UB UOob
  else tl <- put_raw [0] (dropN i m) ;; Ok (takeN i m ++ tl).
(** value_from_string, strings.cc:57-78. [handler]: known_good_type or is_string_handler(.., true). [m] is the memory the
    buffer points to. StringValueCStr raises ArgumentError for a string with a NUL inside. *)
Definition value_from_string (handler : bool) (d : string_dest) (m : list cell) (from : rbobj) : res (list cell) :=
  if handler then
    match from with
    | RbStr bs _ =>
      if wsub (buffer_size d) 1 <? lenN bs then Throw EArg
      else if lenN (c_str bs) <? lenN bs then Throw EArg
      else m' <- strncpy (buffer_size d) bs m ;; poke (wsub (buffer_size d) 1) m'
    | _ => Throw EType
    end
  else Throw EType.
(** value_to_string, strings.cc:84-107, for arrays (the loop) and pointers (rb_str_new2). The Strings have a single byte
    encoding (the Ruby code forces ASCII, standard_convertions.rb:90). *)
Fixpoint scan (bs : list N) : list N := match bs with [] => [] | b :: r => if b =? 0 then [] else b :: scan r end.
Definition value_to_string (handler : bool) (d : string_dest) (m : list cell) : res rbobj :=
  if handler then
    match d with
    | DArray n => '(bs, _) <- take_raw n m ;; let s := scan bs in Ok (RbStr s (lenN s))
    | DPointer =>
      let bs := map byte_of m in
      if negb (forallb is_byte m) then UB URaw
      else if forallb (fun b => negb (b =? 0)) bs then UB UOob
      else let s := scan bs in Ok (RbStr s (lenN s))
    end
  else Throw ERuntime.

(** ** Conversion of Ruby strings to and from /std/string (lib/typelib/standard_convertions.rb:29-38): the marshalled value
    starts with the length in characters, followed by as many bytes of the string; the value is loaded from it. *)
Definition std_string (sz : N) : ty := TCont KStr sz (TNum 1 SInt).
Definition pack_string (bs : list N) (chars : N) : list N := le_bytes 8 chars ++ takeN chars bs ++ repN (chars - lenN bs) 32.
Definition std_string_from_ruby (fuel : nat) (sz : N) (m : list cell) (o : rbobj) : res (list cell) :=
  match o with
  | RbStr bs chars => do_load fuel (std_string sz) m (pack_string bs chars)
  | _ => Throw EArg
  end.
Definition std_string_to_ruby (fuel : nat) (sz : N) (m : list cell) : res (list N) :=
  bs <- do_dump fuel (std_string sz) m ;; Ok (dropN 8 bs).

(** ** Arrays, specialized_types.cc:214-287 *)

Definition to_size (z : Z) : N := Z.to_N (z mod Z.of_N two64).
(** array_element, 214-230, and array_set, 283-287: the offset of the element. *)
Definition array_element (d es : N) (index : Z) : res N :=
  i <- NUM2INT index ;;
  let i := to_size i in
  if d <=? i then Throw EIndex else Ok (wmul es i).
(** The loop of array_get, 263-269: the offsets of the elements pushed. *)
Fixpoint offsets (fuel : nat) (es i hi : N) : res (list N) :=
  match fuel with
  | O => Fuel
  | Datatypes.S f => if i <? hi then r <- offsets f es (wadd i 1) hi ;; Ok (wmul es i :: r) else Ok []
  end.
(** array_get, 239-276. *)
Inductive got := GSelf | GElement (off : N) | GSlice (offs : list N).
Definition array_get (fuel : nat) (d es : N) (args : list Z) : res got :=
  if d =? 0 then Ok GSelf
  else match args with
       | [] => UB UOob
       | a0 :: rest =>
         i <- NUM2INT a0 ;;
         let i := to_size i in
         if d <=? i then Throw EIndex
         else match rest with
              | [] => Ok (GElement (wmul es i))
              | [a1] =>
                s <- NUM2INT a1 ;;
                let s := to_size s in
                if d <? wadd i s then Throw EIndex
                else l <- offsets fuel es i (wadd i s) ;; Ok (GSlice l)
              | _ => Throw EArg
              end
       end.
(** array_size, 316-321, through INT2FIX. *)
Definition array_size (d : N) : Z := Z.of_N d.

(** ** vector_raw_memcpy, specialized_types.cc:614-643. [flat]: the layout of the elements exists and is a single memcpy;
    [mem]: the bytes at the source address. NUM2UINT and getSize are converted to unsigned int. *)
Definition vector_raw_memcpy (flat : option bool) (e : ty) (cap : N) (cs : list cell) (mem : list N) (size : Z)
  : res (N * list cell) :=
  match flat with
  | None | Some false => Throw EType
  | Some true =>
    let es := sizeof e mod 2 ^ 32 in
    n <- NUM2UINT size ;;
    let n := Z.to_N n in
    if es =? 0 then UB UDiv0
    else if negb (n mod es =? 0) then Throw EArg
    else
      '(cap', cs') <- vec_raw_resize n cap cs ;;
      if lenN mem <? n then UB UOob
      else if n =? 0 then UB UOther
      else cs2 <- put_raw (takeN n mem) cs' ;; Ok (cap', cs2)
  end.

(** ** The wrapper of an array, lib/typelib/array_type.rb: @elements caches the wrappers of the elements (here their offsets).
    Array#[] and Array#[]= of Ruby: negative indexes count from the end, nil beyond; storing beyond the end fills with nil. *)
Definition rb_aref {A} (l : list (option A)) (i : Z) : option A :=
  let j := if (i <? 0)%Z then (i + Z.of_N (lenN l))%Z else i in
  if (j <? 0)%Z then None else nth (Z.to_nat j) l None.
Fixpoint nth_set {A} (l : list (option A)) (k : nat) (v : A) : list (option A) :=
  match k, l with
  | O, [] => [Some v]
  | O, _ :: r => Some v :: r
  | Datatypes.S k', [] => None :: nth_set [] k' v
  | Datatypes.S k', x :: r => x :: nth_set r k' v
  end.
Definition rb_aset {A} (l : list (option A)) (i : Z) (v : A) : res (list (option A)) :=
  let j := if (i <? 0)%Z then (i + Z.of_N (lenN l))%Z else i in
  if (j <? 0)%Z then Throw EIndex else Ok (nth_set l (Z.to_nat j) v).
(** raw_get, array_type.rb:154-156, invalidate_children, 60-66 (the wrappers become unusable and are forgotten). The result of
    array_get for an empty array is the array itself, of offset 0. *)
Definition elements := list (option N).
Definition raw_get (fuel : nat) (d es : N) (c : elements) (i : Z) : elements * res N :=
  match rb_aref c i with
  | Some off => (c, Ok off)
  | None =>
    match array_get fuel d es [i] with
    | Ok (GElement off) => match rb_aset c i off with Ok c' => (c', Ok off) | _ => (c, Throw EIndex) end
    | Ok GSelf => match rb_aset c i 0 with Ok c' => (c', Ok 0) | _ => (c, Throw EIndex) end
    | Ok (GSlice _) => (c, UB UOther)
    | Throw e => (c, Throw e) | UB u => (c, UB u) | Fuel => (c, Fuel)
    end
  end.
(** [] with a range, array_type.rb:175-184: range.times { |i| raw_get(i + index) }. *)
Fixpoint raw_get_range (fuel : nat) (d es : N) (c : elements) (i : Z) (count : nat) : elements * res (list N) :=
  match count with
  | O => (c, Ok [])
  | Datatypes.S k =>
    match raw_get fuel d es c i with
    | (c1, Ok off) => match raw_get_range fuel d es c1 (i + 1)%Z k with
                      | (c2, Ok l) => (c2, Ok (off :: l))
                      | (c2, r) => (c2, r)
                      end
    | (c1, Throw e) => (c1, Throw e) | (c1, UB u) => (c1, UB u) | (c1, Fuel) => (c1, Fuel)
    end
  end.
