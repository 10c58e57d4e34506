(** * RubyCalls: the methods of the Ruby extension around the operations of the library, with their try blocks
    (bindings/ruby/ext/value.cc, memory.cc, registry.cc).

    Results: as in RbCreate.v, [Throw e] with a Ruby exception (EArg...) is rb_raise, any other exception is a C++ exception that
    leaves the function. *)
From Verif Require Import Base Types Layout ValueOps Visitor Endian Names Graph Registry.
Local Open Scope N_scope.

(** catch(std::exception const& e) { rb_raise(rb_eArgError, ...) } *)
Definition catch_all {A} (r : res A) : res A := match r with Throw _ => Throw EArg | x => x end.

(** type_memory_layout, value.cc:361-379. *)
Definition rb_memory_layout (ap ao merge rts : bool) (t : ty) : res layout := catch_all (layout_of ap ao merge rts t).
(** value_new, value.cc:447-461 (Type.new, Type.zero: type.rb:597-625) and memory_init, memory.cc:236-265: the cells are those of the block
    that malloc returned, zeroed or not. Not modelled: the tables of memory.cc (Memory.v). *)
Definition rb_new (fuel : nat) (t : ty) (raw : list cell) : res (list cell) :=
  catch_all (l <- layout_of true false true true t ;; do_init fuel l raw).
(** value_do_byte_array, value.cc:576-585: no try block; Typelib::dump(Value, vector, layout), value_ops.cc:596-600. *)
Definition rb_do_byte_array (fuel : nat) (ap ao merge rts : bool) (t : ty) (m : list cell) : res (list N) :=
  l <- layout_of ap ao merge rts t ;; do_dump_stream wr_vector fuel l m [].
(** Type#to_byte_array with the default options, type.rb:709-718 (the options: type.rb:389-394). *)
Definition rb_to_byte_array (fuel : nat) (t : ty) (m : list cell) : res (list N) := rb_do_byte_array fuel false false true true t m.
(** value_do_from_buffer, value.cc:463-477: the layout is computed before the try block. *)
Definition rb_do_from_buffer (fuel : nat) (ap ao merge rts : bool) (t : ty) (m : list cell) (buf : list N) : res (list cell) :=
  l <- layout_of ap ao merge rts t ;;
  catch_all ('(m', i, it) <- load_at fuel (0, buf) m (ops l) ;;
             match it with
             | _ :: _ => Throw ERuntime
             | [] => if negb (fst i =? lenN buf) && negb (fst i + trailing_padding t =? lenN buf) then Throw ERuntime else Ok m'
             end).
(** value_marshalling_size, value.cc:593-600: NoLayout is nil; INT2NUM takes an int. *)
Definition rb_marshalling_size (fuel : nat) (t : ty) (m : list cell) : res (option Z) :=
  match do_dump_size fuel t m with
  | Ok n => Ok (Some (to_int n))
  | Throw ENoLayout => Ok None
  | Throw e => Throw e
  | UB u => UB u
  | Fuel => Fuel
  end.
(** value_zero, value.cc:643-649: no try block. *)
Definition rb_zero (fuel : nat) (t : ty) (m : list cell) : res (list cell) := zero_value fuel t m.
(** typelib_do_copy, value.cc:651-664, of two values of one type (CastCopy.v has the others): no try block. *)
Definition rb_do_copy (fuel : nat) (t : ty) (to from : list cell) : res (list cell) := copy_value fuel t to from.
(** typelib_compare, value.cc:672-692, of two values of one type. *)
Definition rb_do_compare (fuel : nat) (t : ty) (to from : list cell) : res bool := catch_all (ValueOps.do_compare fuel t to from).
(** value_endian_swap_b, value.cc:535-541: no try block. *)
Definition rb_endian_swap_b (fuel : nat) (t : ty) (m : list cell) : res (list cell) := endian_swap fuel t m.
(** PointerType.create_null, pointer_type.rb:12-16. *)
Definition rb_create_null (fuel : nat) (n : N) (raw : list cell) : res (list cell) :=
  m <- rb_new fuel (TPtr n) raw ;; rb_zero fuel (TPtr n) m.
(** registry_alias, registry.cc:183-195: BadName and Undefined are caught, AlreadyDefined is not. *)
Definition rb_alias (fuel : nat) (H : heap) (r : reg) (name aliased : str) : reg * res unit :=
  let '(r', out) := alias fuel H r aliased name [] in
  (r', match out with Throw EBadName => Throw EArg | Throw EUndefined => Throw ENotFound | x => x end).
(** registry_remove_alias, registry.cc:465-473: every std::runtime_error. *)
Definition rb_remove_alias (H : heap) (r : reg) (name : str) : reg * res unit :=
  let '(r', out) := removeAlias H r name in (r', catch_all out).
