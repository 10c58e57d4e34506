(** * Types: the type descriptions the value operations work on (typelib/typemodel.hh). *)
From Verif Require Import Base.

(** Numeric::NumericCategory, typemodel.hh:283-290. *)
Inductive ncat := SInt | UInt | Float.
(** The two containers of lang/csupport/containers.cc: std::vector<> and std::string. *)
Inductive ckind := KVec | KStr.

(** Models class Type and its subclasses (typemodel.hh:70-680) as seen by the value operations: the size
    stored in the object (m_size) and the structure.
    Simplifications: the types are trees (the pointee of a pointer is left out, as no value operation
    follows it; the objects of a registry form graphs, GraphLayout.v relates them to trees, which exist for every type that
    does not hold itself through fields, arrays or containers); names of types and metadata are left out. *)
Inductive ty :=
| TNull                                          (* NullType, typemodel.hh:254 *)
| TOpaque (size : N)                             (* OpaqueType, typemodel.hh:270 *)
| TNum (size : N) (cat : ncat)                   (* Numeric, typemodel.hh:280 *)
| TEnum (size : N) (values : list (str * Z))     (* Enum, typemodel.hh:308; the std::map in its iteration order *)
| TPtr (size : N)                                (* Pointer, typemodel.hh:491 *)
| TArray (size : N) (dim : N) (elt : ty)         (* Array, typemodel.hh:472 *)
| TCont (k : ckind) (size : N) (elt : ty)        (* Container, typemodel.hh:514 *)
| TComp (size : N) (fs : fields)                 (* Compound, typemodel.hh:395 *)
with fields :=
| FNil
| FCons (name : str) (off : N) (t : ty) (fs : fields).  (* Field, typemodel.hh:359 *)

Scheme ty_mind := Induction for ty Sort Prop
  with fields_mind := Induction for fields Sort Prop.
Combined Scheme ty_fields_ind from ty_mind, fields_mind.

(** Type::getSize, typemodel.cc:50; NullType has size 0 (typemodel.hh:257). *)
Definition sizeof (t : ty) : N :=
  match t with
  | TNull => 0
  | TOpaque n | TNum n _ | TEnum n _ | TPtr n => n
  | TArray n _ _ | TCont _ n _ | TComp n _ => n
  end%N.

Fixpoint fields_list (fs : fields) : list (str * N * ty) :=
  match fs with
  | FNil => []
  | FCons n o t r => (n, o, t) :: fields_list r
  end.
