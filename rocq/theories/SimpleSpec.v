(** * SimpleSpec: what to_simple_value should return (specification side).

    Only the types, the memory of a value (ValueSpec) and Ruby's documentation of String#unpack and Base64 are used here. *)
From Verif Require Import Base Types Layout ValueOps.
Local Open Scope N_scope.

(** A Float: [FFin neg x] is the number x / 2^1074, negated if [neg] (every finite double is one of these). *)
Inductive fval := FNaN | FInf (neg : bool) | FFin (neg : bool) (x : N).
Definition special (x : fval) : bool := match x with FFin _ _ => false | _ => true end.

(** Simple Ruby objects. Hashes have distinct keys. [SPacked code size data]: the Hash with the keys pack_code, size and
    data; the data is in base 64. A String is its bytes. *)
Inductive sval :=
| SNum (z : Z) | SFlo (x : fval) | SStr (bs : list N) | SNil
| SArr (l : list sval)
| SHash (l : list (str * sval))
| SPacked (code : option str) (size : N) (data : str).

(** ** Numbers in memory *)
Fixpoint num_of (bs : list N) : N := match bs with [] => 0 | b :: r => b + 256 * num_of r end.
(** IEEE 754: [eb] bits of exponent, [mb] bits of mantissa; [sh]: the smallest number is 2^sh / 2^1074. *)
Definition ieee (eb mb sh v : N) : fval :=
  let neg := 2 ^ (eb + mb) <=? v in
  let e := (v / 2 ^ mb) mod 2 ^ eb in
  let m := v mod 2 ^ mb in
  if e =? 2 ^ eb - 1 then (if m =? 0 then FInf neg else FNaN)
  else if e =? 0 then FFin neg (m * 2 ^ sh)
  else FFin neg ((2 ^ mb + m) * 2 ^ (e - 1 + sh)).
(** The number that bytes denote, least significant byte first. *)
Definition number (n : N) (c : ncat) (bs : list N) : sval :=
  match c with
  | UInt => SNum (Z.of_N (num_of bs))
  | SInt => SNum (if num_of bs <? 2 ^ (8 * n - 1) then Z.of_N (num_of bs) else (Z.of_N (num_of bs) - 2 ^ Z.of_N (8 * n))%Z)
  | Float => SFlo (if n =? 4 then ieee 8 23 925 (num_of bs) else ieee 11 52 0 (num_of bs))
  end.

(** ** Ruby's String#unpack with one directive and a star *)
(** The directives for numbers: size, kind, and whether the most significant byte is first. *)
Definition directive (code : str) : option (N * ncat * bool) :=
  match code with
  | ["C"] => Some (1, UInt, false) | ["c"] => Some (1, SInt, false)
  | ["S"; "<"] => Some (2, UInt, false) | ["S"; ">"] => Some (2, UInt, true)
  | ["s"; "<"] => Some (2, SInt, false) | ["s"; ">"] => Some (2, SInt, true)
  | ["L"; "<"] => Some (4, UInt, false) | ["L"; ">"] => Some (4, UInt, true)
  | ["l"; "<"] => Some (4, SInt, false) | ["l"; ">"] => Some (4, SInt, true)
  | ["Q"; "<"] => Some (8, UInt, false) | ["Q"; ">"] => Some (8, UInt, true)
  | ["q"; "<"] => Some (8, SInt, false) | ["q"; ">"] => Some (8, SInt, true)
  | ["e"] => Some (4, Float, false) | ["g"] => Some (4, Float, true)
  | ["E"] => Some (8, Float, false) | ["G"] => Some (8, Float, true)
  | _ => None
  end%char.
(** Bytes behind the last complete number are ignored. *)
Fixpoint chunks (fuel : nat) (n : N) (bs : list N) : list (list N) :=
  match fuel with
  | O => []
  | Datatypes.S f => if (n =? 0) || (lenN bs <? n) then [] else takeN n bs :: chunks f n (dropN n bs)
  end.
Definition unpack (code : str) (bs : list N) : option (list sval) :=
  match directive code with
  | Some (n, c, be) => Some (map (fun x => number n c (if (be : bool) then rev x else x)) (chunks (length bs) n bs))
  | None => None
  end.

(** ** Base64.strict_decode64 (RFC 4648) *)
Definition digit64 (c : ascii) : option N :=
  let x := N_of_ascii c in
  if (65 <=? x) && (x <=? 90) then Some (x - 65)
  else if (97 <=? x) && (x <=? 122) then Some (x - 71)
  else if (48 <=? x) && (x <=? 57) then Some (x + 4)
  else if x =? 43 then Some 62 else if x =? 47 then Some 63 else None.
Fixpoint decode64 (s : str) : option (list N) :=
  match s with
  | [] => Some []
  | a :: b :: c :: d :: r =>
    if Ascii.eqb d "=" then
      match r with
      | _ :: _ => None
      | [] =>
        if Ascii.eqb c "=" then
          match digit64 a, digit64 b with
          | Some x, Some y => if y mod 16 =? 0 then Some [x * 4 + y / 16] else None
          | _, _ => None
          end
        else
          match digit64 a, digit64 b, digit64 c with
          | Some x, Some y, Some z => if z mod 4 =? 0 then Some [x * 4 + y / 16; y mod 16 * 16 + z / 4] else None
          | _, _, _ => None
          end
      end
    else
      match digit64 a, digit64 b, digit64 c, digit64 d, decode64 r with
      | Some x, Some y, Some z, Some w, Some l => Some (x * 4 + y / 16 :: y mod 16 * 16 + z / 4 :: z mod 4 * 64 + w :: l)
      | _, _, _, _, _ => None
      end
  | _ => None
  end.

(** ** The receiver's side: packed arrays become arrays of numbers *)
Definition opt_map {A B} (f : A -> option B) : list A -> option (list B) :=
  fix go l := match l with
              | [] => Some []
              | x :: r => match f x, go r with Some y, Some z => Some (y :: z) | _, _ => None end
              end.
Fixpoint expand (s : sval) : option sval :=
  match s with
  | SArr l => match opt_map expand l with Some r => Some (SArr r) | None => None end
  | SHash l =>
    match opt_map (fun '(k, v) => match expand v with Some w => Some (k, w) | None => None end) l with
    | Some r => Some (SHash r)
    | None => None
    end
  | SPacked (Some code) size data =>
    match decode64 data with
    | Some bs =>
      match unpack code bs with
      | Some l => if lenN l =? size then Some (SArr l) else None
      | None => None
      end
    | None => None
    end
  | SPacked None _ _ => None
  | _ => Some s
  end.

(** ** What the result should show *)
(** The option special_float_values. *)
Inductive sopt := OAsIs | OString | ONil | OInvalid.
Record opts := Opts { pack : bool; sp : sopt }.
Definition shown (o : sopt) (v : sval) : sval :=
  match v, o with
  | SFlo FNaN, OString => SStr (map N_of_ascii (s_ "NaN"))
  | SFlo (FInf false), OString => SStr (map N_of_ascii (s_ "Infinity"))
  | SFlo (FInf true), OString => SStr (map N_of_ascii (s_ "-Infinity"))
  | SFlo FNaN, ONil | SFlo (FInf _), ONil => SNil
  | _, _ => v
  end.
Definition numeric (t : ty) : bool := match t with TNum _ _ => true | _ => false end.

(** [shows o t m s]: the value of type [t] in the memory [m] is, once packed arrays are expanded, [s]: numbers are numbers,
    enums the names of symbols with that value, arrays and vectors arrays of their elements in order, strings strings,
    compounds hashes of their fields in order. Special floats are replaced as the option says, unless in packed arrays. *)
Fixpoint shows (p : bool) (o : sopt) (t : ty) (m : list cell) (s : sval) : Prop :=
  match t with
  | TNull | TOpaque _ | TPtr _ => False
  | TNum n c => exists bs, m = map B bs /\ lenN bs = n /\ s = shown o (number n c bs)
  | TEnum n vs => exists bs k z, m = map B bs /\ lenN bs = n /\ number n SInt bs = SNum z /\ In (k, z) vs /\ s = SStr (map N_of_ascii k)
  | TArray _ d e =>
    exists ms ss, lenN ms = d /\ m = concat ms /\ s = SArr ss /\
      Forall2 (shows p (if p && numeric e then OAsIs else o) e) ms ss
  | TCont KVec sz e =>
    exists cap ms ss, m = put_obj sz (VecObj cap (concat ms)) /\ s = SArr ss /\
      Forall2 (shows p (if p && numeric e then OAsIs else o) e) ms ss
  | TCont KStr sz _ => exists bs, m = put_obj sz (StrObj bs) /\ s = SStr bs
  | TComp sz fs => exists l, s = SHash l /\ lenN m = sz /\ shows_fields p o fs 0 m l
  end
with shows_fields (p : bool) (o : sopt) (fs : fields) (cur : N) (m : list cell) (l : list (str * sval)) : Prop :=
  match fs with
  | FNil => l = []
  | FCons k off t r =>
    exists pad a b s l', m = pad ++ a ++ b /\ lenN pad = off - cur /\ lenN a = sizeof t /\ shows p o t a s /\
      l = (k, s) :: l' /\ shows_fields p o r (off + sizeof t) b l'
  end.

(** ** Hypotheses on types and values *)
(** Types whose parts have a representation: numbers of the sizes C++ has, enums of 4 bytes with distinct symbols, distinct
    field names, sizes of objects that can exist. *)
Fixpoint showable (t : ty) : Prop :=
  sizeof t <= max_size /\
  match t with
  | TNull | TOpaque _ | TPtr _ => False
  | TNum n Float => n = 4 \/ n = 8
  | TNum n _ => n = 1 \/ n = 2 \/ n = 4 \/ n = 8
  | TEnum n vs => n = 4 /\ NoDup (map fst vs)
  | TArray _ _ e => showable e
  | TCont KVec _ e => showable e
  | TCont KStr _ _ => True
  | TComp _ fs => NoDup (map (fun f => fst (fst f)) (fields_list fs)) /\ showable_fields fs
  end
with showable_fields (fs : fields) : Prop :=
  match fs with FNil => True | FCons _ _ t r => showable t /\ showable_fields r end.

(** The bytes in memory are bytes. *)
Fixpoint octet (c : cell) : Prop :=
  match c with
  | B n => n < 256
  | Cont => True
  | Obj (VecObj _ cs) => (fix all l := match l with [] => True | x :: r => octet x /\ all r end) cs
  | Obj (StrObj bs) => Forall (fun b => b < 256) bs
  end.
Definition octets (m : list cell) : Prop := Forall octet m.

(** [every Pn Pe t m]: all the numbers of [m], apart from the elements of packed arrays if [p], satisfy [Pn], all the enums [Pe]. *)
Fixpoint every (p : bool) (Pn : N -> ncat -> list N -> Prop) (Pe : list (str * Z) -> list N -> Prop) (t : ty) (m : list cell) : Prop :=
  match t with
  | TNum n c => forall bs, m = map B bs -> Pn n c bs
  | TEnum _ vs => forall bs, m = map B bs -> Pe vs bs
  | TArray _ d e => if p && numeric e then True else forall ms, lenN ms = d -> Forall (fun x => lenN x = sizeof e) ms -> m = concat ms -> Forall (every p Pn Pe e) ms
  | TCont KVec sz e =>
    if p && numeric e then True
    else forall cap ms, m = put_obj sz (VecObj cap (concat ms)) -> Forall (fun x => lenN x = sizeof e) ms -> Forall (every p Pn Pe e) ms
  | TComp _ fs => every_fields p Pn Pe fs 0 m
  | _ => True
  end
with every_fields (p : bool) (Pn : N -> ncat -> list N -> Prop) (Pe : list (str * Z) -> list N -> Prop) (fs : fields) (cur : N) (m : list cell) : Prop :=
  match fs with
  | FNil => True
  | FCons _ off t r =>
    forall pad a b, m = pad ++ a ++ b -> lenN pad = off - cur -> lenN a = sizeof t ->
      every p Pn Pe t a /\ every_fields p Pn Pe r (off + sizeof t) b
  end.
(** An unsigned number of 4 bytes is less than 2^31; a number is not a NaN; an enum has a symbol. *)
Definition low32 (n : N) (c : ncat) (bs : list N) : Prop := n = 4 -> c = UInt -> num_of bs < 2 ^ 31.
Definition no_nan (n : N) (c : ncat) (bs : list N) : Prop := number n c bs <> SFlo FNaN.
Definition any_num (n : N) (c : ncat) (bs : list N) : Prop := True.
Definition known (vs : list (str * Z)) (bs : list N) : Prop := exists k z, number 4 SInt bs = SNum z /\ In (k, z) vs.
Definition any_enum (vs : list (str * Z)) (bs : list N) : Prop := True.

(** No NaN and no infinity. *)
Fixpoint finite (s : sval) : Prop :=
  match s with
  | SFlo x => special x = false
  | SArr l => (fix all l := match l with [] => True | x :: r => finite x /\ all r end) l
  | SHash l => (fix all l := match l with [] => True | (_, x) :: r => finite x /\ all r end) l
  | _ => True
  end.
