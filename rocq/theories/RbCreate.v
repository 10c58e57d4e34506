(** * RbCreate: building types from Ruby (bindings/ruby/lib/typelib/registry.rb, bindings/ruby/ext/registry.cc). *)
From Verif Require Import Base Types NamesSpec Names Graph Registry World Smap TypeObj Tlb RbCreateSpec.
From Verif Require Import Graph.
Local Open Scope nat_scope.

(** Exceptions: [EArg], [ERange] and [ENotFound] are the Ruby exceptions ArgumentError, RangeError and Typelib::NotFound; all others
    are C++ exceptions that leave a function called by the Ruby interpreter, which aborts the process.
    Strings given by Ruby have no NUL (StringValuePtr). A Ruby exception within a function of the extension skips its
    destructors: the memory leaks, which is not modelled. *)
Definition num2int (z : Z) : res Z := if in_int z then Ok z else Throw ERange.
(** int to size_t *)
Definition int_size (z : Z) : N := Z.to_N (z mod 18446744073709551616)%Z.
(** The loop of CompoundBuilder#build, registry.rb:308-313. Type#size (ext/value.cc:229-234). *)
Fixpoint fill_offsets (H : heap) (cur : Z) (l : list given_field) : list (str * tid * Z) :=
  match l with
  | [] => []
  | (n, t, o) :: r =>
      let o' := match o with Some z => z | None => cur end in
      (n, t, o') :: fill_offsets H (o' + Z.of_N (o_size (H t)))%Z r
  end.
(** Compound::addField, typemodel.cc:369-378 (the size_t sum wraps around). *)
Definition add_field (H : heap) (c : N * list fld) (n : str) (t : tid) (off : N) : N * list fld :=
  let new_size := wadd off (o_size (H t)) in
  ((if (fst c <? new_size)%N then new_size else fst c), snd c ++ [Fld n off t]).
(** The loop of registry_create_compound, registry.cc:597-607. *)
Fixpoint add_fields (H : heap) (l : list (str * tid * Z)) (c : N * list fld) : res (N * list fld) :=
  match l with
  | [] => Ok c
  | (n, t, o) :: r => z <- num2int o ;; add_fields H r (add_field H c n t (int_size z))
  end.
(** The end of the functions: new, reg.add(type, true, ""), and the conversion of std::runtime_error to ArgumentError
    (registry.cc:613-615, 642-644, 657-660, 687-690). The types added here are not indirect: modifiedDependencyAliases does
    nothing for them, and the fuel is enough. *)
Definition register (s : store) (r : reg) (o : tobj) : store * reg * res tid :=
  let t := s_next s in
  let s' := alloc s o in
  match add_type 1 (s_heap s') r t true [] with
  | (r', Ok _) => (s', r', Ok t)
  | (r', Throw (EBadName | EAlreadyDefined)) => (s', r', Throw EArg)
  | (r', Throw e) => (s', r', Throw e)
  | (r', UB u) => (s', r', UB u)
  | (r', Fuel) => (s', r', Fuel)
  end.
(** if (size != 0) type->setSize(size), with size_t size = NUM2INT(_size). *)
Definition final_size (size : Z) (own : N) : N := if (int_size size =? 0)%N then own else int_size size.
(** Registry#create_compound, registry.rb:385-389 and registry_create_compound, registry.cc:591-617. The fields are those that
    the block has added (CompoundBuilder#add, registry.rb:324-329), with their types resolved. *)
Definition create_compound (s : store) (r : reg) (name : str) (given : list given_field) (size : Z) : store * reg * res tid :=
  match add_fields (s_heap s) (fill_offsets (s_heap s) 0 given) (0%N, []) with
  | Ok (sz, fs) => match num2int size with
                   | Ok z => register s r (Obj name (final_size z sz) (OComp fs))
                   | Throw e => (s, r, Throw e)
                   | UB u => (s, r, UB u)
                   | Fuel => (s, r, Fuel)
                   end
  | Throw e => (s, r, Throw e)
  | UB u => (s, r, UB u)
  | Fuel => (s, r, Fuel)
  end.
(** The loop of EnumBuilder#build, registry.rb:445-449. *)
Fixpoint fill_values (cur : Z) (l : list (str * option Z)) : list (str * Z) :=
  match l with
  | [] => []
  | (n, o) :: r => let o' := match o with Some z => z | None => cur end in (n, o') :: fill_values (o' + 1)%Z r
  end.
(** The loop of registry_create_enum, registry.cc:630-638; AlreadyExists is not caught. *)
Fixpoint add_symbols (l : list (str * Z)) (e : enum_t) : res enum_t :=
  match l with
  | [] => Ok e
  | (n, v) :: r =>
      z <- num2int v ;;
      match enum_add e n z with
      | (e', Ok _) => add_symbols r e'
      | (_, Throw ex) => Throw ex
      | (_, UB u) => UB u
      | (_, Fuel) => Fuel
      end
  end.
(** Registry#create_enum, registry.rb:494-498, EnumBuilder#build, registry.rb:439-451, registry_create_enum, registry.cc:624-646;
    sizeof(Enum::integral_type) is 4. *)
Definition create_enum (s : store) (r : reg) (name : str) (given : list (str * option Z)) (size : Z) : store * reg * res tid :=
  match given with
  | [] => (s, r, Throw EArg)
  | _ =>
      match (e0 <- enum_new 0 ;; e <- add_symbols (fill_values 0 given) e0 ;; z <- num2int size ;; Ok (e, z)) with
      | Ok (e, z) => register s r (Obj name (final_size z 4) (OEnum (en_values e)))
      | Throw x => (s, r, Throw x)
      | UB u => (s, r, UB u)
      | Fuel => (s, r, Fuel)
      end
  end.
(** registry_create_opaque, registry.cc:654-662. *)
Definition create_opaque (s : store) (r : reg) (name : str) (size : Z) : store * reg * res tid :=
  match num2int size with
  | Ok z => register s r (Obj name (int_size z) OOpaque)
  | Throw e => (s, r, Throw e)
  | UB u => (s, r, UB u)
  | Fuel => (s, r, Fuel)
  end.
(** Registry#create_numeric, registry.rb:354-364, registry_do_create_numeric, registry.cc:672-691. The category: [None] is a symbol
    other than :sint, :uint and :float. *)
Definition create_numeric (s : store) (r : reg) (name : str) (size : Z) (cat : option ncat) : store * reg * res tid :=
  match cat with
  | None => (s, r, Throw EArg)
  | Some c =>
      match num2int size with
      | Ok z => register s r (Obj name (int_size z) (ONum c))
      | Throw e => (s, r, Throw e)
      | UB u => (s, r, UB u)
      | Fuel => (s, r, Fuel)
      end
  end.
(** Registry::isIncluded, registry.cc:127-131. *)
Definition isIncluded (s : store) (r : reg) (t : tid) : bool :=
  match get r (o_name (s_heap s t)) with Some u => u =? t | None => false end.
(** registry_define_container, registry.cc:551-571 (Registry#create_container, registry.rb:399-404): only UnknownContainer is
    caught. *)
Definition define_container (f : nat) (kind : str) (element : tid) (size : Z) : M tid := fun st =>
  if negb (isIncluded (i_store st) (i_reg st) element) then (st, Throw EArg)
  else
    match createContainer f kind element st with
    | (st', Ok t) =>
        match num2int size with
        | Ok z => if (int_size z =? 0)%N then (st', Ok t)
                  else match m_setSize t z st' with
                       | (st2, Ok _) => (st2, Ok t)
                       | (st2, Throw e) => (st2, Throw e)
                       | (st2, UB u) => (st2, UB u)
                       | (st2, Fuel) => (st2, Fuel)
                       end
        | Throw e => (st', Throw e)
        | UB u => (st', UB u)
        | Fuel => (st', Fuel)
        end
    | x => x
    end.
