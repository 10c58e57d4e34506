(** * World: the memory the type objects live in, as the program runs.

    Graph.v's heaps map identities to objects. Here objects are created one after the other: identities below [s_next]
    are in use. Not a model of a particular file. *)
From Verif Require Import Base Types NamesSpec Names Graph Registry RegistrySpec.
Local Open Scope nat_scope.

Record store := Store { s_heap : heap; s_next : tid }.
Definition null_obj : tobj := Obj [] 0 ONull.
Definition upd (H : heap) (t : tid) (o : tobj) : heap := fun x => if x =? t then o else H x.
(** operator new with a constructor of a subclass of Type. *)
Definition alloc (s : store) (o : tobj) : store := Store (upd (s_heap s) (s_next s) o) (S (s_next s)).

(** What the constructors guarantee: a type is built from existing types (Field's constructor takes a Type const&) and
    the constructors of Pointer (typemodel.cc:561-562), Array (typemodel.cc:520-522) and Vector (containers.cc:20-24)
    choose the name. *)
Definition constructed (s : store) (o : tobj) : Prop :=
  (forall d, In d (match o_kind o with OPtr x | OArr _ x | OCont _ x => [x] | OComp fs => map f_type fs | _ => [] end) -> d < s_next s) /\
  match o_kind o with
  | OPtr x => o_name o = getPointerName (o_name (s_heap s x))
  | OArr d x => o_name o = getArrayName (o_name (s_heap s x)) d
  | OCont KVec x => o_name o = vector_fullName (o_name (s_heap s x))
  | _ => True
  end.
(** The types an operation names exist. *)
Definition op_exists (s : store) (o : op) : Prop :=
  match o with OpAdd t _ _ | OpRemove t => t < s_next s | _ => True end.
(** The stores and registries a program can build: it creates types and calls the operations of the registry. (Types
    and registries that the program also creates appear as additional objects of the store.) *)
Inductive world : store -> reg -> Prop :=
| world_init : world (Store (fun _ => null_obj) 0) reg0
| world_new s r o : world s r -> constructed s o -> world (alloc s o) r
| world_op s r o f r' out : world s r -> op_exists s o -> op_ok (s_heap s) o -> exec f (s_heap s) r o = (r', out) -> out <> Fuel -> world s r'.
