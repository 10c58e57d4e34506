(** * IdlSpec: what an IDL file looks like, and the names of types in it. *)
From Verif Require Import Base Types NamesSpec Names.
From Verif Require Import Graph Registry Exporter Idl.
Local Open Scope char_scope.

(** ** Documents *)
(** An IDL document is made of modules and of declarations (given by their lines). *)
Inductive item :=
| Decl (lines : list str)
| Module (name : str) (body : list item).
(** The text of an item at some nesting depth: four spaces per level. *)
Fixpoint render (depth : nat) (i : item) : str :=
  match i with
  | Decl lines => concat (map (fun l => spaces (4 * depth) ++ l ++ nl) lines)
  | Module n body =>
      spaces (4 * depth) ++ s_ "module " ++ n ++ s_ " {" ++ nl ++ concat (map (render (S depth)) body) ++
      nl ++ spaces (4 * depth) ++ s_ "};" ++ nl
  end.
Definition text (doc : list item) : str := concat (map (render 0) doc).
(** The declarations of a document in order, each with the modules it is in. *)
Definition decl : Type := list str * list str.
Fixpoint flat (path : list str) (i : item) : list decl :=
  match i with
  | Decl lines => [(path, lines)]
  | Module n body => flat_map (flat (path ++ [n])) body
  end.
Definition decls (doc : list item) : list decl := flat_map (flat []) doc.
(** IDL does not accept empty modules. *)
Fixpoint full (i : item) : Prop :=
  match i with
  | Decl _ => True
  | Module _ body => body <> [] /\ fold_right (fun x P => full x /\ P) True body
  end.

(** ** Names *)
(** An IDL identifier for a name: no special characters, and one leading underscore removed. *)
Definition idl_id (s : str) : str := strip1 (map (fun c => if special c then "_" else c) s).
(** The modules of a namespace. *)
Definition path (c : cfg) (ns : str) : list str := map idl_id (tokens (absolute_ns c ns)).
(** [::a::b::] *)
Definition scope (p : list str) : str := concat (map (fun m => s_ "::" ++ m) p) ++ s_ "::".
Definition mangle (s : str) : str := map (fun c => if ceqb c "/" || ceqb c " " then "_" else c) s.

(** [named c H t o n d]: values of type [t] are written with the identifier [n] of the modules [o] (None: a builtin type
    of IDL), and [d] after the name of the field. *)
Inductive named (c : cfg) (H : heap) : tid -> option (list str) -> str -> str -> Prop :=
| named_num t k : o_kind (H t) = ONum k -> named c H t None (numeric_name (H t) k) []
| named_string t k x : o_kind (H t) = OCont k x -> o_name (H t) = s_ "/std/string" -> named c H t None (s_ "string") []
| named_any t : o_kind (H t) = OOpaque -> c_any c = true -> named c H t None (s_ "any") []
| named_comp t fs : o_kind (H t) = OComp fs ->
    named c H t (Some (path c (getNamespace (o_name (H t))))) (idl_id (getTypename (o_name (H t)))) []
| named_enum t vs : o_kind (H t) = OEnum vs ->
    named c H t (Some (path c (getNamespace (o_name (H t))))) (idl_id (getTypename (o_name (H t)))) []
| named_seq t k x o n d : o_kind (H t) = OCont k x -> o_name (H t) <> s_ "/std/string" -> named c H x o n d ->
    named c H t (Some (match o with Some p => p | None => path c [slash] end))
          (idl_id (getTypename (container_kind k) ++ s_ "_" ++ mangle (o_name (H x)) ++ s_ "_")) []
| named_arr t dim x o n : o_kind (H t) = OArr dim x -> named c H x o n [] ->
    named c H t o n (s_ "[" ++ dec dim ++ s_ "]").
(** A reference to a type. *)
Definition ref (o : option (list str)) (n : str) : str := match o with None => n | Some p => scope p ++ n end.

(** ** Declarations *)
(** The line of a field. *)
Definition field_line (c : cfg) (H : heap) (f : fld) (l : str) : Prop :=
  exists o n d, named c H (f_type f) o n d /\ l = s_ "    " ++ ref o n ++ s_ " " ++ strip1 (f_name f) ++ d ++ s_ ";".
(** [declares c H t p n ls]: the declaration of [t] is found in the modules [p], under the identifier [n]. *)
Inductive declares (c : cfg) (H : heap) (t : tid) : list str -> str -> list str -> Prop :=
| declares_comp fs ls : o_kind (H t) = OComp fs -> Forall2 (field_line c H) fs ls ->
    declares c H t (path c (getNamespace (o_name (H t)))) (idl_id (getTypename (o_name (H t))))
             ((s_ "struct " ++ idl_id (getTypename (o_name (H t))) ++ s_ " {") :: ls ++ [s_ "};"])
| declares_enum vs : o_kind (H t) = OEnum vs ->
    declares c H t (path c (getNamespace (o_name (H t)))) (idl_id (getTypename (o_name (H t))))
             [s_ "enum " ++ idl_id (getTypename (o_name (H t))) ++ s_ " { " ++
              join (s_ ", ") (map (fun v => strip1 (fst v)) vs) ++ s_ " };"]
| declares_seq k x o n d : o_kind (H t) = OCont k x -> o_name (H t) <> s_ "/std/string" -> named c H x o n d ->
    let id := idl_id (getTypename (container_kind k) ++ s_ "_" ++ mangle (o_name (H x)) ++ s_ "_") in
    declares c H t (match o with Some p => p | None => path c [slash] end) id
             [s_ "typedef sequence<" ++ ref o n ++ d ++ s_ "> " ++ id ++ s_ ";"].
(** Types IDL knows already. *)
Definition builtin (c : cfg) (H : heap) (t : tid) : Prop :=
  match o_kind (H t) with
  | ONum _ => True
  | OOpaque => c_any c = true
  | OCont _ _ => o_name (H t) = s_ "/std/string"
  | _ => False
  end.

(** ** Entries *)
Definition selected (c : cfg) (H : heap) (p : ent) : Prop := c_sel c = [] \/ In (o_name (H (e_type (snd p)))) (c_sel c).
(** Types that are too big, if there is a threshold, are exported as blobs. *)
Definition too_big (c : cfg) (H : heap) (p : ent) : Prop := c_blob c <> 0%Z /\ (c_blob c < to_int (o_size (H (e_type (snd p)))))%Z.
(** The declarations that an entry of the registry gives. *)
Inductive gives (c : cfg) (H : heap) (p : ent) : list decl -> Prop :=
| gives_unselected : ~ selected c H p -> gives c H p []
| gives_alias : selected c H p -> isAlias H p = true -> gives c H p []
| gives_blob : selected c H p -> isAlias H p = false -> too_big c H p ->
    gives c H p [(path c (getNamespace (fst p)),
                  [s_ "typedef sequence<octet> " ++ getTypename (o_name (H (e_type (snd p)))) ++ s_ ";"])]
| gives_builtin : selected c H p -> isAlias H p = false -> ~ too_big c H p -> builtin c H (e_type (snd p)) -> gives c H p []
| gives_decl m n ls : selected c H p -> isAlias H p = false -> ~ too_big c H p -> declares c H (e_type (snd p)) m n ls ->
    gives c H p [(m, ls)].

(** The typedef line for another name of a type. *)
Inductive typedef_line (c : cfg) (H : heap) (t : tid) (name : str) : str -> Prop :=
| td_arr dim x o n : o_kind (H t) = OArr dim x -> named c H x o n [] ->
    typedef_line c H t name (s_ "typedef " ++ ref o n ++ s_ " " ++ strip1 name ++ s_ "[" ++ dec dim ++ s_ "];")
| td_seq k x o n d : o_kind (H t) = OCont k x -> o_name (H t) <> s_ "/std/string" -> named c H x o n d ->
    typedef_line c H t name (s_ "typedef sequence<" ++ ref o n ++ d ++ s_ "> " ++ strip1 name ++ s_ ";")
| td_any : o_kind (H t) = OOpaque -> c_any c = true ->
    typedef_line c H t name (s_ "typedef any " ++ strip1 name ++ s_ ";")
| td_plain o n : (forall dim x, o_kind (H t) <> OArr dim x) ->
    (forall k x, o_kind (H t) = OCont k x -> o_name (H t) = s_ "/std/string") ->
    ~ In " " name -> named c H t o n [] ->
    typedef_line c H t name (s_ "typedef " ++ ref o n ++ s_ " " ++ strip1 name ++ s_ ";").
(** The name a sequence type is known by, among the names of the registry. *)
Definition seq_name (c : cfg) (H : heap) (q : ent) (n : str) : Prop :=
  selected c H q /\ isAlias H q = false /\ ~ too_big c H q /\
  exists k x, o_kind (H (e_type (snd q))) = OCont k x /\ o_name (H (e_type (snd q))) <> s_ "/std/string" /\
    n = getNamespace (o_name (H x)) ++ idl_id (getTypename (container_kind k) ++ s_ "_" ++ mangle (o_name (H x)) ++ s_ "_").
(** Two names of one namespace that differ by the C keyword in front of the second part. *)
Definition c_like (a b : str) : Prop :=
  getNamespace a = getNamespace b /\
  exists kw, (kw = s_ "struct " \/ kw = s_ "enum ") /\ (getTypename a = kw ++ getTypename b \/ getTypename b = kw ++ getTypename a).
(** Aliases that have no typedef: names that IDL cannot have, those with or without the C keyword, those that are already
    the name of a sequence, and those of opaques that are not exported. *)
Definition no_typedef (c : cfg) (H : heap) (earlier : list ent) (p : ent) : Prop :=
  let t := e_type (snd p) in
  c_like (o_name (H t)) (fst p) \/
  (exists q, In q earlier /\ seq_name c H q (fst p)) \/
  In "/" (getTypename (fst p)) \/ In "<" (getTypename (fst p)) \/ In ">" (getTypename (fst p)) \/
  (In " " (getTypename (fst p)) /\
   match o_kind (H t) with OArr _ _ | OOpaque => False | OCont _ _ => o_name (H t) = s_ "/std/string" | _ => True end) \/
  (o_kind (H t) = OOpaque /\ c_any c = false).
(** The typedefs that an entry gives, after the entries [earlier]. *)
Inductive aliased (c : cfg) (H : heap) (earlier : list ent) (p : ent) : list decl -> Prop :=
| aliased_other : ~ selected c H p \/ isAlias H p = false -> aliased c H earlier p []
| aliased_not : selected c H p -> isAlias H p = true -> no_typedef c H earlier p -> aliased c H earlier p []
| aliased_line l : selected c H p -> isAlias H p = true -> ~ no_typedef c H earlier p ->
    typedef_line c H (e_type (snd p)) (getTypename (fst p)) l -> aliased c H earlier p [(path c (getNamespace (fst p)), [l])].
(** The same for a sequence of entries. *)
Inductive all_aliased (c : cfg) (H : heap) : list ent -> list ent -> list decl -> Prop :=
| aa_nil earlier : all_aliased c H earlier [] []
| aa_cons earlier p l a b : aliased c H earlier p a -> all_aliased c H (earlier ++ [p]) l b -> all_aliased c H earlier (p :: l) (a ++ b).

(** What the theorems assume of the names in a program: no colons; fields have names; no type or template starts with two
    underscores; enums are not templates. *)
Definition no_colon (s : str) : Prop := ~ In ":" s.
Definition tame (o : tobj) : Prop :=
  no_colon (o_name o) /\
  match o_kind o with
  | OComp fs => forall f, In f fs -> f_name f <> [] /\ no_colon (f_name f)
  | OEnum vs => (forall v, In v vs -> no_colon (fst v)) /\ forallb (fun c => negb (special c)) (getTypename (o_name o)) = true
  | _ => True
  end /\
  match map (fun c => if special c then "_" else c) (getTypename (o_name o)) with
  | "_" :: "_" :: _ => False
  | _ => True
  end.
(** A component of a name that IDL accepts as it is. *)
Definition clean (w : str) : Prop :=
  w <> [] /\ Forall (fun x => ~ In x (s_ "<>/,:")) w /\ match w with x :: _ => x <> "_" | [] => False end.

(** The basic numbers of CORBA IDL 3 (section 7.4.13.4): category and size in bytes. *)
Definition idl_numbers : list (str * (ncat * N)) :=
  [ (s_ "boolean", (UInt, 1)); (s_ "octet", (UInt, 1));
    (s_ "short", (SInt, 2)); (s_ "long", (SInt, 4)); (s_ "long long", (SInt, 8));
    (s_ "unsigned short", (UInt, 2)); (s_ "unsigned long", (UInt, 4)); (s_ "unsigned long long", (UInt, 8));
    (s_ "float", (Float, 4)); (s_ "double", (Float, 8)) ]%N.
