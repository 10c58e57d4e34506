(** * Gccxml: the GCCXML/castxml importer (bindings/ruby/lib/typelib/gccxml.rb).

    Simplifications: the document is parsed (GCCXMLInfo); the names of nodes are their full Typelib names (resolve_node_typelib_name,
    see C71); there are no class templates, so that normalize_type_name is the identity and there are no containers to create; no
    opaques; metadata and documentation are left out; type names are trees, on which an indirect name resolves through the
    aliases of what it is an indirection to (C41). The registry is modelled by its specification (C21, C72). *)
From Verif Require Import Base Types TypeObj GccxmlSpec.
Local Open Scope nat_scope.

Definition str_dec : forall a b : str, {a = b} + {a <> b} := list_eq_dec ascii_dec.
Definition nm_dec (a b : nm) : {a = b} + {a <> b}.
Proof. decide equality; first [apply str_dec | apply N.eq_dec | apply Bool.bool_dec]. Defined.
(** ** The registry *)
Inductive tdef := DNum (size : N) | DString | DPtr (on : nm) | DArr (on : nm) (k : N) | DComp (size : Z) (fs : list cfield) | DEnum (vs : list (str * Z)) | DCont (on : nm).
Record areg := AR { a_types : list (nm * tdef); a_alias : list (nm * nm) }.
Fixpoint assoc {A} (n : nm) (l : list (nm * A)) : option A :=
  match l with [] => None | (k, v) :: r => if nm_dec k n then Some v else assoc n r end.
Definition def (r : areg) (n : nm) : option tdef := assoc n (a_types r).
(** Registry::get: the (own) name of the type a name designates. *)
Fixpoint get (r : areg) (n : nm) : option nm :=
  match def r n with
  | Some _ => Some n
  | None =>
      match assoc n (a_alias r) with
      | Some c => Some c
      | None =>
          match n with
          | NPtrOf m => match get r m with Some c => match def r (NPtrOf c) with Some _ => Some (NPtrOf c) | None => None end | None => None end
          | NArrOf m k => match get r m with Some c => match def r (NArrOf c k) with Some _ => Some (NArrOf c k) | None => None end | None => None end
          | _ => None
          end
      end
  end.
Definition add_def (r : areg) (n : nm) (d : tdef) : areg := AR ((n, d) :: a_types r) (a_alias r).
Section Import.
  Variable P : program.
  (** Adding a new type: BadName, AlreadyDefined (ArgumentError in Ruby). *)
  Definition add_type (r : areg) (n : nm) (d : tdef) : res areg :=
    if p_valid P n then match get r n with Some _ => Throw EArg | None => Ok (add_def r n d) end else Throw EArg.
  (** Registry::build (C30): NotFound if the type below the pointers and arrays does not exist. *)
  Fixpoint build (r : areg) (n : nm) : res (areg * nm) :=
    match get r n with
    | Some c => Ok (r, c)
    | None =>
        match n with
        | NPtrOf m => '(r1, c) <- build r m ;; match def r1 (NPtrOf c) with Some _ => Ok (r1, NPtrOf c) | None => r2 <- add_type r1 (NPtrOf c) (DPtr c) ;; Ok (r2, NPtrOf c) end
        | NArrOf m k => '(r1, c) <- build r m ;; match def r1 (NArrOf c k) with Some _ => Ok (r1, NArrOf c k) | None => r2 <- add_type r1 (NArrOf c k) (DArr c k) ;; Ok (r2, NArrOf c k) end
        | _ => Throw ENotFound
        end
    end.
  (** Registry#alias(new, base). *)
  Definition alias (r : areg) (n base : nm) : res areg :=
    match get r base with
    | None => Throw ENotFound
    | Some c => match get r n with
                | Some c' => if nm_dec c c' then Ok r else Throw EAlreadyDefined
                | None => if p_valid P n then Ok (AR (a_types r) ((n, c) :: a_alias r)) else Throw EArg
                end
    end.

  (** ** The loader: registry, id_to_name, ignore_message, @empty_compounds (gccxml.rb:170-180). *)
  Record gst := GS { g_reg : areg; g_names : list (id * nm); g_ign : list id; g_empty : list id }.
  Fixpoint name_of (l : list (id * nm)) (i : id) : option nm := match l with [] => None | (j, n) :: r => if j =? i then Some n else name_of r i end.
  Definition set_name (s : gst) (i : id) (n : nm) : gst := GS (g_reg s) ((i, n) :: g_names s) (g_ign s) (g_empty s).
  Definition set_reg (s : gst) (r : areg) : gst := GS r (g_names s) (g_ign s) (g_empty s).
  Definition inb (i : id) (l : list id) : bool := existsb (Nat.eqb i) l.
  (** ignore, gccxml.rb:439-449 *)
  Definition ignore (s : gst) (i : id) : gst := GS (g_reg s) (g_names s) (i :: g_ign s) (g_empty s).
  Definition set_empty (s : gst) (i : id) : gst := GS (g_reg s) (g_names s) (g_ign s) (i :: g_empty s).
  (** Compound#offset_of: the first field of that name. *)
  Fixpoint offset_of (n : str) (fs : list cfield) : Z := match fs with [] => 0%Z | f :: r => if str_dec (fst (fst f)) n then snd f else offset_of n r end.
  (** The first loop of the create_compound block, gccxml.rb:670-675. *)
  Fixpoint base_fields (r : areg) (bs : list (nm * Z)) : res (list cfield) :=
    match bs with
    | [] => Ok []
    | (c, o) :: bs' =>
        match def r c with
        | Some (DComp _ fs) => rest <- base_fields r bs' ;; Ok (map (fun f => (fst f, o + offset_of (fst (fst f)) fs)%Z) fs ++ rest)
        | _ => Throw EStd           (* NoMethodError: each_field *)
        end
    end.
  (** The second one, gccxml.rb:677-679: CompoundBuilder#add builds the type. *)
  Fixpoint built_fields (r : areg) (l : list (str * nm * Z)) : res (areg * list cfield) :=
    match l with
    | [] => Ok (r, [])
    | (n, t, o) :: l' => '(r1, c) <- build r t ;; '(r2, fs) <- built_fields r1 l' ;; Ok (r2, (n, c, o) :: fs)
    end.
  (** NUM2INT on the offsets and on the size (registry.cc:604, 610). *)
  Definition check_ints (l : list Z) : res unit := if forallb in_int l then Ok tt else Throw ERange.
  (** Registry#create_compound (C72). *)
  Definition create_compound (r : areg) (name : nm) (size : Z) (bs : list (nm * Z)) (l : list (str * nm * Z)) : res areg :=
    fb <- base_fields r bs ;;
    '(r1, fo) <- built_fields r l ;;
    _ <- check_ints (size :: map snd (fb ++ fo)) ;;
    add_type r1 name (DComp size (fb ++ fo)).
  (** Registry#create_enum (C72): an empty enum, values that are not ints, conflicting values. *)
  Fixpoint consistentb (vs : list (str * Z)) : bool :=
    match vs with [] => true | (n, v) :: r => forallb (fun p => if str_dec (fst p) n then Z.eqb (snd p) v else true) r && consistentb r end.
  Definition create_enum (r : areg) (name : nm) (vs : list (str * Z)) : res areg :=
    match vs with
    | [] => Throw EArg
    | _ => _ <- check_ints (map snd vs) ;; if consistentb vs then add_type r name (DEnum vs) else Throw EAlreadyExists
    end.

  Definition is_field (i : id) : list field_n := match p_node P i with Some (Fieldn f) => [f] | _ => [] end.
  Definition is_typedef (n : node) : bool := match n with Typedef _ _ _ => true | _ => false end.
  Definition public_ (n : node) : bool := match n with Class _ p _ _ _ _ | Typedef _ p _ | Enumn _ p _ | Other _ p => p | _ => true end.
  (** The loop over the bases, gccxml.rb:603-623, [rec]: resolve_type_id. None: return ignore(...). *)
  Fixpoint bases_loop (rec : gst -> id -> res (option nm * gst)) (s : gst) (bs : list base_n) : res (option (list (nm * Z)) * gst) :=
    match bs with
    | [] => Ok (Some [], s)
    | b :: bs' =>
        '(r, s1) <- rec s (bn_type b) ;;
        if inb (bn_type b) (g_empty s1) then bases_loop rec s1 bs'
        else match r with
             | None => Ok (None, s1)
             | Some n =>
                 match get (g_reg s1) n with
                 | None => Throw ENotFound
                 | Some c =>
                     if bn_virtual b then Ok (None, s1)
                     else if negb (bn_public b) then Ok (None, s1)
                     else '(l, s2) <- bases_loop rec s1 bs' ;; Ok (option_map (cons (c, bn_off b)) l, s2)
                 end
             end
    end.
  (** base_classes.all? { |type, _| type.empty? }, gccxml.rb:648 *)
  Fixpoint bases_empty (r : areg) (bs : list (nm * Z)) : res bool :=
    match bs with
    | [] => Ok true
    | (c, _) :: bs' => match def r c with Some (DComp _ fs) => match fs with [] => bases_empty r bs' | _ => Ok false end | _ => Throw EStd end
    end.
  (** The loop over the fields, gccxml.rb:656-668. *)
  Fixpoint fields_loop (rec : gst -> id -> res (option nm * gst)) (s : gst) (fs : list field_n) : res (option (list (str * nm * Z)) * gst) :=
    match fs with
    | [] => Ok (Some [], s)
    | f :: fs' =>
        if negb (fn_public f) then Ok (None, s)
        else '(r, s1) <- rec s (fn_type f) ;;
             match r with
             | None => Ok (None, s1)
             | Some n => '(l, s2) <- fields_loop rec s1 fs' ;; Ok (option_map (cons (fn_name f, n, fn_off f / 8)%Z) l, s2)
             end
    end.
  (** The end of resolve_type_definition for classes, gccxml.rb:602-680. *)
  Definition resolve_class (rec : gst -> id -> res (option nm * gst)) (s : gst) (i : id) (name : nm) (bs : list base_n) (inc : bool) (ms : list id) (size : Z)
    : res (option nm * gst) :=
    '(b, s1) <- bases_loop rec s bs ;;
    match b with
    | None => Ok (None, ignore s1 i)
    | Some bl =>
        if inc then Ok (None, ignore s1 i)
        else if existsb (p_virtual P) ms then Ok (None, ignore s1 i)
        else
          let fl := concat (map is_field ms) in
          e <- match fl with [] => bases_empty (g_reg s1) bl | _ => Ok false end ;;
          if e : bool then Ok (None, ignore (set_empty s1 i) i)
          else
            '(l, s2) <- fields_loop rec s1 fl ;;
            match l with
            | None => Ok (None, ignore s2 i)
            | Some defs => r <- create_compound (g_reg s2) name (size / 8)%Z bl defs ;; Ok (Some name, set_reg s2 r)
            end
    end.
  (** The end of resolve_type_definition for typedefs, gccxml.rb:704-721. *)
  Definition resolve_typedef (rec : gst -> id -> res (option nm * gst)) (s : gst) (i : id) (name : nm) (to : id) : res (option nm * gst) :=
    '(r, s1) <- rec s to ;;
    match r with
    | None => Ok (None, ignore s1 i)
    | Some n =>
        match get (g_reg s1) n with
        | None => Throw ENotFound
        | Some c => r' <- (if nm_dec name c then Ok (g_reg s1) else alias (g_reg s1) name c) ;; Ok (Some name, set_name (set_reg s1 r') i c)
        end
    end.
  (** resolve_type_definition, gccxml.rb:509-739. *)
  Definition resolve_node (rec : gst -> id -> res (option nm * gst)) (s : gst) (i : id) (nd : node) : res (option nm * gst) :=
    match name_of (g_names s) i with
    | Some n => Ok (Some n, s)
    | None =>
        match nd with
        | Ptr to =>
            '(r, s1) <- rec s to ;;
            match r with
            | None => Ok (None, ignore s1 i)
            | Some n => '(r', _) <- build (g_reg s1) (NPtrOf n) ;; Ok (Some (NPtrOf n), set_reg (set_name s1 i (NPtrOf n)) r')
            end
        | Arr to max =>
            '(r, s1) <- rec s to ;;
            match r with
            | None => Ok (None, ignore s1 i)
            | Some n => match max with
                        | None => Throw ERuntime
                        | Some m => '(r', _) <- build (g_reg s1) (NArrOf n (m + 1)) ;; Ok (Some (NArrOf n (m + 1)), set_reg (set_name s1 i (NArrOf n (m + 1))) r')
                        end
            end
        | Cv to a b =>
            '(r, s1) <- rec s to ;;
            match r with
            | None => Ok (None, s1)
            | Some n => r' <- alias (g_reg s1) (NQual n a b) n ;; Ok (Some n, set_reg (set_name s1 i (NQual n a b)) r')
            end
        | _ =>
            match declares nd with
            | None => Ok (None, s)
            | Some name =>
                match get (g_reg s) (NBase name) with
                | Some c => Ok (Some c, set_name s i c)
                | None =>
                    if negb (is_typedef nd) && p_hidden P name then Ok (None, ignore s i)
                    else
                      let s1 := set_name s i (NBase name) in
                      if negb (public_ nd) then Ok (None, ignore s1 i)
                      else
                        match nd with
                        | Class _ _ bs inc ms size => resolve_class rec s1 i (NBase name) bs inc ms size
                        | Typedef _ _ to => resolve_typedef rec s1 i (NBase name) to
                        | Enumn _ _ vs => r <- create_enum (g_reg s1) (NBase name) vs ;; Ok (Some (NBase name), set_reg s1 r)
                        | _ => Ok (None, ignore s1 i)
                        end
                end
            end
        end
    end.
  (** resolve_type_id, gccxml.rb:413-422. *)
  Fixpoint resolve_id (fuel : nat) (s : gst) (i : id) : res (option nm * gst) :=
    match fuel with
    | 0 => Fuel
    | S f =>
        if inb i (g_ign s) then Ok (None, s)
        else match name_of (g_names s) i with
             | Some n => Ok (Some n, s)
             | None => match p_node P i with Some nd => resolve_node (resolve_id f) s i nd | None => Ok (None, s) end
             end
    end.
  (** load, gccxml.rb:862-884: the types of the required files, then the typedefs. The base registry is that of
      add_standard_cxx_types (C67). *)
  Fixpoint load_nodes (fuel : nat) (s : gst) (l : list id) : res gst :=
    match l with
    | [] => Ok s
    | i :: l' => match p_node P i with
                 | Some nd => '(_, s1) <- resolve_node (resolve_id fuel) s i nd ;; load_nodes fuel s1 l'
                 | None => load_nodes fuel s l'
                 end
    end.
  Definition load (fuel : nat) (base : areg) (types typedefs : list id) : res gst := load_nodes fuel (GS base [] [] []) (types ++ typedefs).
End Import.
