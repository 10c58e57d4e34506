(** * Describe: the description of types by simple Ruby objects (Type.to_h, bindings/ruby/lib/typelib).

    Types are those of Graph.v. A Ruby hash is a list of (key, value) in the order of insertion. *)
From Verif Require Import Base Types Graph DescribeSpec.
Local Open Scope N_scope.

Definition hash := list (str * rv).
(** h[k] = v: replaces the value of a key in place or adds the key at the end. *)
Fixpoint hset (k : str) (v : rv) (h : hash) : hash :=
  match h with
  | [] => [(k, v)]
  | (x, w) :: r => if seqb x k then (x, v) :: r else (x, w) :: hset k v r
  end.
(** cxx2rb::class_of, ext/value.cc:91-105, with the names given in ext/specialized_types.cc:712-748: the superclass of a type. *)
Definition superclass_name (k : okind) : str :=
  match category k with
  | 3%nat => s_ "Typelib::NumericType"
  | 5%nat => s_ "Typelib::CompoundType"
  | 2%nat => s_ "Typelib::PointerType"
  | 1%nat => s_ "Typelib::ArrayType"
  | 4%nat => s_ "Typelib::EnumType"
  | 7%nat => s_ "Typelib::ContainerType"
  | 6%nat => s_ "Typelib::OpaqueType"
  | 0%nat => s_ "Typelib::NullType"
  | _ => s_ "Typelib::Type"
  end.
Definition rsize (o : tobj) : rv := RInt (Z.of_N (o_size o)).
(** Type.to_h_minimal, type.rb:123-129. Simplified: integers beyond the range of INT2FIX are not wrapped. *)
Definition to_h_minimal (lay : bool) (o : tobj) : hash :=
  let result := [(s_ "name", RStr (o_name o)); (s_ "class", RStr (superclass_name (o_kind o)))] in
  if lay then hset (s_ "size") (rsize o) result else result.
(** NumericType.integer?, unsigned?, ext/specialized_types.cc:356-360 and 381-393 (unsigned? is only called on integers). *)
Definition integer_p (c : ncat) : bool := match c with Float => false | _ => true end.
Definition unsigned_p (c : ncat) : bool := match c with UInt => true | _ => false end.
(** CompoundType.offset_of, compound_type.rb:310-316. *)
Fixpoint offset_of (n : str) (fs : list fld) : res N :=
  match fs with
  | [] => Throw ERuntime
  | f :: r => if seqb (f_name f) n then Ok (f_off f) else offset_of n r
  end.
(** The loops over the fields, compound_type.rb:366-374; [sub]: to_h or to_h_minimal of the type of the field. *)
Fixpoint fields_h (sub : tid -> res hash) (fs : list fld) : res (list hash) :=
  match fs with
  | [] => Ok []
  | f :: r =>
      d <- sub (f_type f) ;;
      l <- fields_h sub r ;;
      Ok ([(s_ "name", RStr (f_name f)); (s_ "type", RHash d)] :: l)
  end.
(** The loop that adds the offsets, compound_type.rb:376-380. *)
Fixpoint offsets_h (fs : list fld) (l : list hash) : res (list hash) :=
  match l with
  | [] => Ok []
  | g :: r =>
      match hget (s_ "name") g with
      | Some (RStr n) =>
          o <- offset_of n fs ;;
          r' <- offsets_h fs r ;;
          Ok (hset (s_ "offset") (RInt (Z.of_N o)) g :: r')
      | _ => Throw EType
      end
  end.
(** to_h: Type, type.rb:104-106 (null types, opaques and pointers); NumericType, numeric_type.rb:38-48; EnumType, enum_type.rb:36-42
    (keys: ext/specialized_types.cc:136-155, in the order of the std::map); ArrayType, array_type.rb:202-212; ContainerType,
    container_type.rb:400-409; CompoundType, compound_type.rb:364-382. [full]: the option recursive, [lay]: the option layout_info. *)
Fixpoint to_h (fuel : nat) (full lay : bool) (H : heap) (t : tid) : res hash :=
  match fuel with
  | O => Fuel
  | S f =>
    let o := H t in
    let info := to_h_minimal lay o in
    let sub := fun x => if full then to_h f full lay H x else Ok (to_h_minimal lay (H x)) in
    match o_kind o with
    | ONull | OOpaque | OPtr _ => Ok info
    | ONum c =>
        let info := hset (s_ "size") (rsize o) info in
        Ok (if integer_p c then hset (s_ "unsigned") (RBool (unsigned_p c)) (hset (s_ "integer") (RBool true) info)
            else hset (s_ "integer") (RBool false) info)
    | OEnum vs =>
        Ok (hset (s_ "values") (RArr (map (fun p => RHash [(s_ "name", RStr (fst p)); (s_ "value", RInt (snd p))]) vs)) info)
    | OArr d x =>
        let info := hset (s_ "length") (RInt (Z.of_N d)) info in
        e <- sub x ;; Ok (hset (s_ "element") (RHash e) info)
    | OCont _ x => e <- sub x ;; Ok (hset (s_ "element") (RHash e) info)
    | OComp fs =>
        l <- fields_h sub fs ;;
        l <- (if lay then offsets_h fs l else Ok l) ;;
        Ok (hset (s_ "fields") (RArr (map RHash l)) info)
    end
  end.
