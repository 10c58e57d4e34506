(** * ClangSpec: C++ types as the clang importer sees them, and what they look like (specification side). *)
From Verif Require Import Base Types GccxmlSpec.
Local Open Scope nat_scope.

Inductive access := Pub | Prot | Priv.
Inductive bkind := KFloat | KSigned | KUnsigned | KNone.      (* KNone: void and other built-in types *)
Inductive ctype :=
| CBuiltin (name : str) (k : bkind) (bits : N)
| CRecord (i : nat)
| CEnum (e : nat)
| CArray (t : ctype) (n : N)
| CTypedef (name : str) (of : ctype)
| CElab (t : ctype)                          (* struct X as it is written *)
| CPtr (t : ctype)
| CRef (name : str)
| COther (name : str).
Record fieldd := FieldD { cf_name : str; cf_type : ctype; cf_bits : N; cf_access : access; cf_anon : bool }.
Record cbase := CBase { cb_type : ctype; cb_off : N; cb_access : access }.
Record record := RecordD { rd_name : str; rd_fields : list fieldd; rd_bases : list cbase; rd_size : Z; rd_named : bool; rd_defined : bool;
  rd_poly : bool; rd_bad : bool; rd_container : option ctype }.
Record enumd := EnumD { en_name : str; en_named : bool; en_access : access; en_values : list (str * Z) }.
(** c_type: the types that occur in the program; c_cont: the name of the container of a type; c_num: the name of an integer type of a
    number of bits; c_valid: names that Typelib accepts. *)
Record cprog := CProg { c_type : ctype -> Prop; c_record : nat -> record; c_enum : nat -> enumd; c_cont : nm -> str; c_num : bool -> N -> str; c_valid : nm -> bool }.

Section Spec.
  Variable P : cprog.
  (** C++ writes int[2][3] for an array of 2 int[3]: the dimension that comes last is that of the inner array. *)
  Fixpoint of_array (x : nm) (n : N) : nm := match x with NArrOf y k => NArrOf (of_array y n) k | _ => NArrOf x n end.
  (** The name of a type: qualifiers, typedefs and elaborations are transparent. *)
  Fixpoint cname (t : ctype) : nm :=
    match t with
    | CBuiltin s _ _ | CRef s | COther s => NBase s
    | CRecord i => NBase (rd_name (c_record P i))
    | CEnum e => NBase (en_name (c_enum P e))
    | CArray u n => of_array (cname u) n
    | CPtr u => NPtrOf (cname u)
    | CTypedef _ u | CElab u => cname u
    end.
  (** The type without typedefs and elaborations. *)
  Fixpoint canon (t : ctype) : ctype :=
    match t with CArray u n => CArray (canon u) n | CPtr u => CPtr (canon u) | CTypedef _ u | CElab u => canon u | _ => t end.
  (** The class a base type is. *)
  Fixpoint as_record (t : ctype) : option nat := match t with CRecord i => Some i | CTypedef _ u | CElab u => as_record u | _ => None end.
  (** The name of the numeric type a built-in type is represented by. *)
  Definition numeric_name (s : str) (k : bkind) (bits : N) : option str :=
    if (bits mod 8 =? 0)%N then match k with KFloat => Some s | KSigned => Some (c_num P true bits) | KUnsigned => Some (c_num P false bits) | KNone => None end
    else None.
  (** Names of the registry one starts with. *)
  Variable std : str -> option nm.
  (** What a plain name stands for, and names in general. *)
  Inductive denotes : str -> nm -> Prop :=
  | dn_std s c : std s = Some c -> denotes s c
  | dn_builtin_std s k bits n c : c_type P (CBuiltin s k bits) -> numeric_name s k bits = Some n -> std s = None -> std n = Some c -> denotes s c
  | dn_builtin s k bits n : c_type P (CBuiltin s k bits) -> numeric_name s k bits = Some n -> std s = None -> std n = None -> denotes s (NBase n)
  | dn_numeric s k bits n : c_type P (CBuiltin s k bits) -> numeric_name s k bits = Some n -> std s = None -> std n = None -> denotes n (NBase n)
  | dn_record i : c_type P (CRecord i) -> rd_container (c_record P i) = None -> denotes (rd_name (c_record P i)) (NBase (rd_name (c_record P i)))
  | dn_container i e c : c_type P (CRecord i) -> rd_container (c_record P i) = Some e -> stands (cname e) c ->
      denotes (rd_name (c_record P i)) (NBase (c_cont P c))
  | dn_container_name i e c : c_type P (CRecord i) -> rd_container (c_record P i) = Some e -> stands (cname e) c -> denotes (c_cont P c) (NBase (c_cont P c))
  | dn_enum e : c_type P (CEnum e) -> denotes (en_name (c_enum P e)) (NBase (en_name (c_enum P e)))
  | dn_typedef s u c : c_type P (CTypedef s u) -> stands (cname u) c -> denotes s c
  with stands : nm -> nm -> Prop :=
  | st_base s c : denotes s c -> stands (NBase s) c
  | st_arr n c k : stands n c -> stands (NArrOf n k) (NArrOf c k)
  | st_ptr n c : stands n c -> stands (NPtrOf n) (NPtrOf c).
  (** The data members of an object of class i: those of the bases at the places of the bases, then its own. *)
  Definition own_field (f : fieldd) (x : cfield) : Prop := fst (fst x) = cf_name f /\ stands (cname (cf_type f)) (snd (fst x)) /\ snd x = Z.of_N (cf_bits f / 8).
  Inductive cmembers : nat -> list cfield -> Prop :=
  | cm_class i fb fo : cbase_members (rd_bases (c_record P i)) fb -> Forall2 own_field (rd_fields (c_record P i)) fo -> cmembers i (fb ++ fo)
  with cbase_members : list cbase -> list cfield -> Prop :=
  | cb_nil : cbase_members [] []
  | cb_cons b bs j fs r : as_record (cb_type b) = Some j -> cmembers j fs -> cbase_members bs r ->
      cbase_members (b :: bs) (map (shift (Z.of_N (cb_off b))) fs ++ r).
  (** The types without a representation. *)
  Inductive excluded : ctype -> Prop :=
  | ex_ptr u : excluded (CPtr u)
  | ex_ref s : excluded (CRef s)
  | ex_other s : excluded (COther s)
  | ex_builtin s k bits : numeric_name s k bits = None -> excluded (CBuiltin s k bits)
  | ex_arr u n : excluded u -> excluded (CArray u n)
  | ex_arr_arr u n v m : canon u = CArray v m -> excluded (CArray u n)
  | ex_typedef s u : excluded u -> excluded (CTypedef s u)
  | ex_elab u : excluded u -> excluded (CElab u)
  | ex_enum e : en_named (c_enum P e) = false \/ en_access (c_enum P e) = Priv -> excluded (CEnum e)
  | ex_record i : rd_named (c_record P i) = false \/ rd_defined (c_record P i) = false \/ rd_poly (c_record P i) = true \/ rd_bad (c_record P i) = true -> excluded (CRecord i)
  | ex_container i e : rd_container (c_record P i) = Some e -> excluded e -> excluded (CRecord i)
  | ex_empty i : cmembers i [] -> excluded (CRecord i)
  | ex_base i b j : In b (rd_bases (c_record P i)) -> as_record (cb_type b) = Some j -> cb_access b = Priv -> excluded (CRecord i)
  | ex_member i : bad_member i -> excluded (CRecord i)
  with bad_member : nat -> Prop :=
  | bad_own i f : In f (rd_fields (c_record P i)) -> cf_anon f = true \/ cf_access f = Priv \/ (cf_bits f mod 8 <> 0)%N \/ excluded (cf_type f) -> bad_member i
  | bad_base i b j : In b (rd_bases (c_record P i)) -> as_record (cb_type b) = Some j -> bad_member j -> bad_member i.
  (** Layers of a type, and the class of which an object of a type contains objects. *)
  Fixpoint nesting (t : ctype) : nat := match t with CArray u _ | CTypedef _ u | CElab u | CPtr u => S (nesting u) | _ => 1 end.
  Fixpoint holds (t : ctype) (j : nat) : Prop := match t with CArray u _ | CTypedef _ u | CElab u => holds u j | CRecord i => i = j | _ => False end.
  (** What class i consists of: its members, its bases, the elements if it is a container. *)
  Definition part_of (i : nat) (t : ctype) : Prop :=
    (exists f, In f (rd_fields (c_record P i)) /\ cf_type f = t) \/ (exists b, In b (rd_bases (c_record P i)) /\ cb_type b = t) \/ rd_container (c_record P i) = Some t.
  (** A class and the classes it is derived from. *)
  Inductive ancestor : nat -> nat -> Prop :=
  | an_self i : ancestor i i
  | an_base i b j k : In b (rd_bases (c_record P i)) -> as_record (cb_type b) = Some j -> ancestor j k -> ancestor i k.
  (** Who defines a type of the registry. *)
  Inductive source := SRecord (i : nat) | SEnum (e : nat) | SNum (bits : N) | SCont (c : nm).
  Inductive defines : str -> source -> Prop :=
  | df_record i : c_type P (CRecord i) -> rd_container (c_record P i) = None -> defines (rd_name (c_record P i)) (SRecord i)
  | df_enum e : c_type P (CEnum e) -> defines (en_name (c_enum P e)) (SEnum e)
  | df_num s k bits n : c_type P (CBuiltin s k bits) -> numeric_name s k bits = Some n -> std s = None -> std n = None -> defines n (SNum bits)
  | df_cont i e c : c_type P (CRecord i) -> rd_container (c_record P i) = Some e -> stands (cname e) c -> defines (c_cont P c) (SCont c).
  (** What C++ guarantees about names; standard names are not defined again. *)
  Record well_named : Prop := {
    wn_denotes : forall s c c', denotes s c -> denotes s c' -> c = c';
    wn_defines : forall s a b, defines s a -> defines s b -> a = b;
    wn_std : forall s a, defines s a -> std s = None
  }.
  (** The types of the program are closed: what a type mentions is one. Arrays of arrays are written as such (see C74_nested_array_refuted). *)
  Record closed : Prop := {
    cl_canon : forall t, c_type P t -> c_type P (canon t);
    cl_flat : forall u n, c_type P (CArray u n) -> (forall v m, canon u <> CArray v m) \/ exists v m, u = CArray v m;
    cl_arr : forall u n, c_type P (CArray u n) -> c_type P u;
    cl_typedef : forall s u, c_type P (CTypedef s u) -> c_type P u;
    cl_elab : forall u, c_type P (CElab u) -> c_type P u;
    cl_field : forall i f, c_type P (CRecord i) -> In f (rd_fields (c_record P i)) -> c_type P (cf_type f);
    cl_base : forall i b, c_type P (CRecord i) -> In b (rd_bases (c_record P i)) -> c_type P (cb_type b);
    cl_cont : forall i e, c_type P (CRecord i) -> rd_container (c_record P i) = Some e -> c_type P e
  }.
End Spec.
