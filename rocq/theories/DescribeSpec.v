(** * DescribeSpec: what the description of a type (Ruby's Type.to_h) has to say.

    Descriptions are simple Ruby objects. Hashes are compared as Ruby does: the order of the keys does not matter. *)
From Verif Require Import Base Types Graph.
Local Open Scope N_scope.

(** Simple Ruby objects: strings, integers, booleans, arrays, and hashes with symbols as keys. *)
Inductive rv :=
| RStr (s : str)
| RInt (z : Z)
| RBool (b : bool)
| RArr (l : list rv)
| RHash (l : list (str * rv)).
(** h[k], None when the key is absent. *)
Fixpoint hget (k : str) (h : list (str * rv)) : option rv :=
  match h with
  | [] => None
  | (x, v) :: r => if seqb x k then Some v else hget k r
  end.
(** Ruby's == on simple objects. *)
Inductive same : rv -> rv -> Prop :=
| Same_str s : same (RStr s) (RStr s)
| Same_int z : same (RInt z) (RInt z)
| Same_bool b : same (RBool b) (RBool b)
| Same_arr l m : Forall2 same l m -> same (RArr l) (RArr m)
| Same_hash h g :
    (forall k, hget k h = None <-> hget k g = None) ->
    (forall k x y, hget k h = Some x -> hget k g = Some y -> same x y) ->
    same (RHash h) (RHash g).

(** The keys of a hash are among [ks]. *)
Definition keys_in (ks : list string) (h : list (str * rv)) : Prop := forall k, hget k h <> None -> exists s, In s ks /\ k = s_ s.
Definition entry (h : list (str * rv)) (k : string) (v : rv) : Prop := hget (s_ k) h = Some v.
(** The name of the Ruby class for a category. *)
Definition class_name (k : okind) : string :=
  match k with
  | ONull => "Typelib::NullType" | OOpaque => "Typelib::OpaqueType" | ONum _ => "Typelib::NumericType" | OEnum _ => "Typelib::EnumType"
  | OPtr _ => "Typelib::PointerType" | OArr _ _ => "Typelib::ArrayType" | OCont _ _ => "Typelib::ContainerType" | OComp _ => "Typelib::CompoundType"
  end.
(** Name and class, and the size if layout information is asked for. *)
Definition headed (lay : bool) (o : tobj) (h : list (str * rv)) : Prop :=
  entry h "name" (RStr (o_name o)) /\ entry h "class" (RStr (s_ (class_name (o_kind o)))) /\
  (lay = true -> entry h "size" (RInt (Z.of_N (o_size o)))).
(** The keys of all descriptions. *)
Definition head_keys (lay : bool) : list string := if lay then ["name"; "class"; "size"]%string else ["name"; "class"]%string.
(** The minimal description: nothing else. *)
Definition minimal_of (lay : bool) (o : tobj) (d : rv) : Prop :=
  exists h, d = RHash h /\ headed lay o h /\ keys_in (head_keys lay) h.

(** The documented description of a type. [full]: the option recursive; [lay]: the option layout_info. *)
Inductive describes (full lay : bool) (H : heap) : tid -> rv -> Prop :=
| Describes_plain t h :
    match o_kind (H t) with ONull | OOpaque | OPtr _ => True | _ => False end ->
    headed lay (H t) h -> keys_in (head_keys lay) h ->
    describes full lay H t (RHash h)
| Describes_float t h :
    o_kind (H t) = ONum Float -> headed true (H t) h -> entry h "integer" (RBool false) -> keys_in ("integer" :: head_keys true)%string h ->
    describes full lay H t (RHash h)
| Describes_integer t h c :
    o_kind (H t) = ONum c -> c <> Float -> headed true (H t) h -> entry h "integer" (RBool true) ->
    entry h "unsigned" (RBool (match c with UInt => true | _ => false end)) -> keys_in ("integer" :: "unsigned" :: head_keys true)%string h ->
    describes full lay H t (RHash h)
| Describes_enum t h vs l :
    o_kind (H t) = OEnum vs -> headed lay (H t) h -> entry h "values" (RArr l) ->
    Forall2 (fun p d => exists g, d = RHash g /\ entry g "name" (RStr (fst p)) /\ entry g "value" (RInt (snd p)) /\ keys_in ["name"; "value"]%string g) vs l ->
    keys_in ("values" :: head_keys lay)%string h ->
    describes full lay H t (RHash h)
| Describes_array t h d x e :
    o_kind (H t) = OArr d x -> headed lay (H t) h -> entry h "length" (RInt (Z.of_N d)) -> entry h "element" e -> part_describes full lay H x e ->
    keys_in ("length" :: "element" :: head_keys lay)%string h ->
    describes full lay H t (RHash h)
| Describes_container t h k x e :
    o_kind (H t) = OCont k x -> headed lay (H t) h -> entry h "element" e -> part_describes full lay H x e ->
    keys_in ("element" :: head_keys lay)%string h ->
    describes full lay H t (RHash h)
| Describes_compound t h fs l :
    o_kind (H t) = OComp fs -> headed lay (H t) h -> entry h "fields" (RArr l) -> Forall2 (field_describes full lay H) fs l ->
    keys_in ("fields" :: head_keys lay)%string h ->
    describes full lay H t (RHash h)
(** A part is described in full, or minimally. *)
with part_describes (full lay : bool) (H : heap) : tid -> rv -> Prop :=
| Part_full x d : full = true -> describes full lay H x d -> part_describes full lay H x d
| Part_minimal x d : full = false -> minimal_of lay (H x) d -> part_describes full lay H x d
with field_describes (full lay : bool) (H : heap) : fld -> rv -> Prop :=
| Field_describes f g d :
    entry g "name" (RStr (f_name f)) -> entry g "type" d -> part_describes full lay H (f_type f) d ->
    (lay = true -> entry g "offset" (RInt (Z.of_N (f_off f)))) ->
    keys_in (if lay then ["name"; "type"; "offset"] else ["name"; "type"])%string g ->
    field_describes full lay H f (RHash g).

(** The types a description goes through: elements and fields (not what pointers point to). *)
Definition parts (H : heap) (t : tid) : list tid :=
  match o_kind (H t) with
  | OArr _ x | OCont _ x => [x]
  | OComp fs => map f_type fs
  | _ => []
  end.
Inductive inside (H : heap) (t : tid) : tid -> Prop :=
| In_self : inside H t t
| In_part x y : inside H t x -> In y (parts H x) -> inside H t y.
(** No type within [t] contains itself: going down through the parts always ends. *)
Inductive finite (H : heap) (t : tid) : Prop :=
| Finite : (forall x, In x (parts H t) -> finite H x) -> finite H t.
(** The fields of the structures have different names. *)
Definition distinct (H : heap) (t : tid) : Prop :=
  forall fs, o_kind (H t) = OComp fs -> NoDup (map f_name fs).

(** Two types have the same definition, up to what pointers point to (types are told apart by the names of the pointers) and
    to the kind of the containers (told apart by their names). *)
Inductive alike (H H' : heap) : tid -> tid -> Prop :=
| Alike_plain t t' :
    o_name (H t) = o_name (H' t') -> o_size (H t) = o_size (H' t') ->
    match o_kind (H t), o_kind (H' t') with
    | ONull, ONull | OOpaque, OOpaque | OPtr _, OPtr _ => True
    | ONum c, ONum c' => c = c'
    | OEnum v, OEnum v' => v = v'
    | _, _ => False
    end -> alike H H' t t'
| Alike_array t t' d x x' :
    o_name (H t) = o_name (H' t') -> o_size (H t) = o_size (H' t') ->
    o_kind (H t) = OArr d x -> o_kind (H' t') = OArr d x' -> alike H H' x x' -> alike H H' t t'
| Alike_container t t' k k' x x' :
    o_name (H t) = o_name (H' t') -> o_size (H t) = o_size (H' t') ->
    o_kind (H t) = OCont k x -> o_kind (H' t') = OCont k' x' -> alike H H' x x' -> alike H H' t t'
| Alike_compound t t' fs fs' :
    o_name (H t) = o_name (H' t') -> o_size (H t) = o_size (H' t') ->
    o_kind (H t) = OComp fs -> o_kind (H' t') = OComp fs' -> Forall2 (field_alike H H') fs fs' -> alike H H' t t'
with field_alike (H H' : heap) : fld -> fld -> Prop :=
| Field_alike f f' : f_name f = f_name f' -> f_off f = f_off f' -> alike H H' (f_type f) (f_type f') -> field_alike H H' f f'.
