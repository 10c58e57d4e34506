(** * Visitor: the traversal of a value by a ValueVisitor (typelib/value.cc, value.hh, typevisitor.cc). *)
From Verif Require Import Base Types Layout ValueOps.
Local Open Scope N_scope.

(** Where the current value is, from the root value: fields by their name, elements by their index. (The code only
    keeps addresses, value.cc:11-12 [m_stack]; the path identifies the address also inside of a vector's buffer.) *)
Inductive step := SField (name : str) | SElt (i : N).
Definition path := list step.

(** The virtual methods of a ValueVisitor (value.hh:53-69), for a visitor with a state of type [S]. The first component
    of a result is the bool the method returns. [vh_num] gets the bytes of the number and returns the bytes it leaves
    there. [vh_ptr]: the exception the pointer method throws ([None]: it follows the pointer, which is not modelled).
    [vh_field] overrides visit_(Value, Compound, Field): [None] is the default, i.e. visit the field's value. *)
Record visitor (S : Type) := mkV {
  vh_num : N -> ncat -> list N -> S -> res (bool * list N * S);
  vh_enum : list (str * Z) -> list N -> S -> res (bool * list N * S);
  vh_opaque : N -> S -> res (bool * S);
  vh_ptr : option exn;
  vh_field : path -> str -> N -> ty -> S -> option (bool * S)
}.
Arguments mkV {S}.

(** TypeDispatch::visit_(Numeric), value.cc:34-51, with integer_cast (18-30): which numerics have a C++ type. *)
Definition num_supported (n : N) (c : ncat) : bool :=
  match c with
  | SInt | UInt => (n =? 1) || (n =? 2) || (n =? 4) || (n =? 8)
  | Float => (n =? 4) || (n =? 8)
  end.
(** sizeof(Enum::integral_type), typemodel.hh:311. *)
Definition enum_size : N := 4.

(** The loops over elements: ValueVisitor::visit_(Value, Array), value.cc:118-133 ([stop]: the loop breaks when a visit
    returns false), Vector::visit, containers.cc:260-274, String::visit, 448-459 (they do not). *)
Fixpoint elts {S} (f : nat) (i n es : N) (stop : bool)
         (vis : N -> list cell -> S -> res (bool * list cell * S)) (m : list cell) (s : S) : res (list cell * S) :=
  match f with
  | O => Fuel
  | Datatypes.S f' =>
    if i <? n then
      if lenN m <? i * es then UB UOob
      else
        '(b, m', s') <- vis i (dropN (i * es) m) s ;;
        let m2 := takeN (i * es) m ++ m' in
        if stop && negb b then Ok (m2, s') else elts f' (i + 1) n es stop vis m2 s'
    else Ok (m, s)
  end.

(** TypeDispatch (value.cc:33-107) and the default methods of ValueVisitor (113-149) on a value of type [t] at the
    beginning of [m]; returns the bool, the memory after the visit and the visitor's state.
    (dispatch on an element or a field goes through [TypeVisitor::visit_(Pointer(type))], by an implicit conversion of
    [Type const&] to a temporary Pointer: it dispatches on the type itself, typevisitor.cc:14-15.) *)
Fixpoint vvisit {S} (h : visitor S) (fuel : nat) (t : ty) (p : path) (m : list cell) (s : S) {struct t}
  : res (bool * list cell * S) :=
  match t with
  | TNull => Throw ENullType
  | TOpaque n => '(b, s') <- vh_opaque h n s ;; Ok (b, m, s')
  | TNum n c =>
    if num_supported n c then
      '(bs, r) <- take_raw n m ;;
      '(b, bs', s') <- vh_num h n c bs s ;;
      Ok (b, map B bs' ++ r, s')
    else Throw EUnsupported
  | TEnum n vs =>
    '(bs, r) <- take_raw enum_size m ;;
    '(b, bs', s') <- vh_enum h vs bs s ;;
    Ok (b, map B bs' ++ r, s')
  | TPtr n => match vh_ptr h with Some e => Throw e | None => UB UOther end
  | TArray _ d e =>
    '(m', s') <- elts fuel 0 d (sizeof e) true (fun i x y => vvisit h fuel e (p ++ [SElt i]) x y) m s ;;
    Ok (true, m', s')
  | TCont KVec sz e =>
    '(o, r) <- take_obj sz m ;;
    match o with
    | VecObj cap cs =>
      n <- vec_count e cs ;;
      '(cs', s') <- elts fuel 0 n (sizeof e) false (fun i x y => vvisit h fuel e (p ++ [SElt i]) x y) cs s ;;
      Ok (true, put_obj sz (VecObj cap cs') ++ r, s')
    | StrObj _ => UB URaw
    end
  | TCont KStr sz e =>
    '(o, r) <- take_obj sz m ;;
    match o with
    | StrObj bs =>
      '(cs', s') <- elts fuel 0 (lenN bs) 1 false (fun i x y => vvisit h fuel e (p ++ [SElt i]) x y) (map B bs) s ;;
      if forallb is_byte cs' then Ok (true, put_obj sz (StrObj (map byte_of cs')) ++ r, s') else UB URaw
    | VecObj _ _ => UB URaw
    end
  | TComp _ fs => vvisit_fields h fuel fs p m s
  end
(** TypeVisitor::visit_(Compound), typevisitor.cc:21-33, and TypeDispatch::visit_(Compound, Field), value.cc:88-94. *)
with vvisit_fields {S} (h : visitor S) (fuel : nat) (fs : fields) (p : path) (m : list cell) (s : S) {struct fs}
  : res (bool * list cell * S) :=
  match fs with
  | FNil => Ok (true, m, s)
  | FCons nm off t r =>
    if lenN m <? off then UB UOob
    else
      '(b, m2, s') <-
        match vh_field h (p ++ [SField nm]) nm off t s with
        | Some (b, s') => Ok (b, m, s')
        | None => '(b, m', s') <- vvisit h fuel t (p ++ [SField nm]) (dropN off m) s ;; Ok (b, takeN off m ++ m', s')
        end ;;
      if (b : bool) then vvisit_fields h fuel r p m2 s' else Ok (false, m2, s')
  end.

(** ValueVisitor::apply, value.cc:170-173. *)
Definition apply_visitor {S} (h : visitor S) (fuel : nat) (t : ty) (m : list cell) (s : S) : res (list cell * S) :=
  '(_, m', s') <- vvisit h fuel t [] m s ;; Ok (m', s').
