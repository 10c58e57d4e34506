(** * GccxmlSpec: the C++ types of a GCCXML/castxml document, and what they look like (specification side). *)
From Verif Require Import Base Types.
Local Open Scope nat_scope.

Definition id := nat.
(** Type names, as trees: the texts are /name, n*, n[k], n const, n volatile, n const volatile. *)
Inductive nm := NBase (s : str) | NPtrOf (n : nm) | NArrOf (n : nm) (k : N) | NQual (n : nm) (cst vol : bool).
(** The nodes of the document. Offsets of fields and sizes are in bits, offsets of bases in bytes. *)
Record field_n := FieldN { fn_name : str; fn_type : id; fn_off : Z; fn_public : bool }.
Record base_n := BaseN { bn_type : id; bn_off : Z; bn_virtual : bool; bn_public : bool }.
Inductive node :=
| Fund (name : str)
| Ptr (to : id)
| Arr (to : id) (max : option N)       (* None: the attribute max is not a number *)
| Cv (to : id) (cst vol : bool)
| Class (name : str) (public : bool) (bases : list base_n) (incomplete : bool) (members : list id) (size : Z)
| Fieldn (f : field_n)
| Typedef (name : str) (public : bool) (to : id)
| Enumn (name : str) (public : bool) (values : list (str * Z))
| Anon                                  (* no name *)
| Other (name : str) (public : bool).
(** p_virtual: ids of virtual members; p_hidden: names reserved to the compiler and its library (/\/__\w+$/); p_valid: names that
    Typelib accepts. *)
Record program := Prog { p_node : id -> option node; p_virtual : id -> bool; p_hidden : str -> bool; p_valid : nm -> bool }.

(** The fully qualified name a node declares. *)
Definition declares (n : node) : option str :=
  match n with Fund s | Class s _ _ _ _ _ | Typedef s _ _ | Enumn s _ _ | Other s _ => Some s | _ => None end.
Definition names (P : program) (i : id) (s : str) : Prop := exists n, p_node P i = Some n /\ declares n = Some s.

Section Spec.
  Variable P : program.
  (** The name of the type a fundamental type stands for. *)
  Variable std : str -> option nm.
  (** The type a node designates: qualifiers and typedefs are transparent. *)
  Inductive designates : id -> nm -> Prop :=
  | ds_fund i s c : p_node P i = Some (Fund s) -> std s = Some c -> designates i c
  | ds_ptr i to c : p_node P i = Some (Ptr to) -> designates to c -> designates i (NPtrOf c)
  | ds_arr i to m c : p_node P i = Some (Arr to (Some m)) -> designates to c -> designates i (NArrOf c (m + 1))
  | ds_cv i to a b c : p_node P i = Some (Cv to a b) -> designates to c -> designates i c
  | ds_class i s pub bs inc ms sz : p_node P i = Some (Class s pub bs inc ms sz) -> designates i (NBase s)
  | ds_enum i s pub vs : p_node P i = Some (Enumn s pub vs) -> designates i (NBase s)
  | ds_typedef i s pub to c : p_node P i = Some (Typedef s pub to) -> designates to c -> designates i c.
  (** The class behind typedefs and qualifiers. *)
  Inductive class_of : id -> id -> Prop :=
  | co_class i s pub bs inc ms sz : p_node P i = Some (Class s pub bs inc ms sz) -> class_of i i
  | co_cv i to a b cls : p_node P i = Some (Cv to a b) -> class_of to cls -> class_of i cls
  | co_typedef i s pub to cls : p_node P i = Some (Typedef s pub to) -> class_of to cls -> class_of i cls.
  (** The non-static data members, in order: name, type, offset in bytes. *)
  Definition cfield : Type := (str * nm * Z)%type.
  Inductive own_fields : list id -> list cfield -> Prop :=
  | of_nil : own_fields [] []
  | of_field m ms f c fs : p_node P m = Some (Fieldn f) -> designates (fn_type f) c -> own_fields ms fs ->
      own_fields (m :: ms) ((fn_name f, c, fn_off f / 8)%Z :: fs)
  | of_other m ms fs : (forall f, p_node P m <> Some (Fieldn f)) -> own_fields ms fs -> own_fields (m :: ms) fs.
  (** All the data members of an object of the class: those of its bases at the places of the bases, then its own. *)
  Definition shift (o : Z) (f : cfield) : cfield := (fst f, snd f + o)%Z.
  Inductive data_members : id -> list cfield -> Prop :=
  | dm_class i s pub bs inc ms sz fb fo : p_node P i = Some (Class s pub bs inc ms sz) -> base_members bs fb -> own_fields ms fo ->
      data_members i (fb ++ fo)
  with base_members : list base_n -> list cfield -> Prop :=
  | bm_nil : base_members [] []
  | bm_cons b bs cls fs r : class_of (bn_type b) cls -> data_members cls fs -> base_members bs r ->
      base_members (b :: bs) (map (shift (bn_off b)) fs ++ r).
  (** The types that have no representation. *)
  Inductive left_out : id -> Prop :=
  | lo_missing i : p_node P i = None -> left_out i
  | lo_unnamed i n : p_node P i = Some n -> declares n = None -> (forall t, n <> Ptr t) -> (forall t m, n <> Arr t m) -> (forall t a b, n <> Cv t a b) -> left_out i
  | lo_ptr i to : p_node P i = Some (Ptr to) -> left_out to -> left_out i
  | lo_arr i to m : p_node P i = Some (Arr to m) -> left_out to -> left_out i
  | lo_cv i to a b : p_node P i = Some (Cv to a b) -> left_out to -> left_out i
  | lo_typedef i s pub to : p_node P i = Some (Typedef s pub to) -> left_out to -> left_out i
  | lo_private_typedef i s to : p_node P i = Some (Typedef s false to) -> left_out i
  | lo_private_class i s bs inc ms sz : p_node P i = Some (Class s false bs inc ms sz) -> left_out i
  | lo_private_enum i s vs : p_node P i = Some (Enumn s false vs) -> left_out i
  | lo_hidden i s n : p_node P i = Some n -> declares n = Some s -> (forall s pub to, n <> Typedef s pub to) -> p_hidden P s = true -> left_out i
  | lo_fund i s : p_node P i = Some (Fund s) -> std s = None -> left_out i
  | lo_other i s pub : p_node P i = Some (Other s pub) -> left_out i
  | lo_incomplete i s pub bs ms sz : p_node P i = Some (Class s pub bs true ms sz) -> left_out i
  | lo_virtual i s pub bs inc ms sz m : p_node P i = Some (Class s pub bs inc ms sz) -> In m ms -> p_virtual P m = true -> left_out i
  | lo_base i s pub bs inc ms sz b : p_node P i = Some (Class s pub bs inc ms sz) -> In b bs ->
      (left_out (bn_type b) \/ bn_virtual b = true \/ bn_public b = false) -> left_out i
  | lo_field i s pub bs inc ms sz m f : p_node P i = Some (Class s pub bs inc ms sz) -> In m ms -> p_node P m = Some (Fieldn f) ->
      (left_out (fn_type f) \/ fn_public f = false) -> left_out i
  | lo_empty i : data_members i [] -> left_out i.
  (** What a C++ program guarantees about names: a class or an enum has one node and a name of its own; nodes with the same name
      designate the same type; so do standard types. *)
  Definition defines (i : id) (s : str) : Prop :=
    (exists pub bs inc ms sz, p_node P i = Some (Class s pub bs inc ms sz)) \/ (exists pub vs, p_node P i = Some (Enumn s pub vs)).
  Record one_definition : Prop := {
    od_defines : forall i j s, defines i s -> defines j s -> i = j;
    od_names : forall i j s c, names P i s -> names P j s -> designates i c -> designates j c;
    od_std : forall i s c, names P i s -> std s = Some c -> designates i c;
    od_own : forall i s, defines i s -> std s = None
  }.
  (** No data member hides one of a base. *)
  Definition no_hiding : Prop := forall i fs, data_members i fs -> NoDup (map (fun f => fst (fst f)) fs).
End Spec.
