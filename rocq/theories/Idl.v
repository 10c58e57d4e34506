(** * Idl: the IDL exporter (lang/idl/export.cc, export.hh).

    Strings are lists of characters. The output stream is a string that grows. *)
From Verif Require Import Base Types NamesSpec Names.
From Verif Require Import Graph Registry Exporter.
Local Open Scope char_scope.

(** boost::split(.., is_any_of(..), token_compress_on): adjacent separators count as one; there is an empty token before
    a leading separator and after a trailing one. [cur]: the current token, [insep]: just after a separator. *)
Fixpoint csplit (sep : ascii -> bool) (insep : bool) (cur : str) (s : str) : list str :=
  match s with
  | [] => [cur]
  | x :: r =>
      if sep x then if insep then csplit sep true [] r else cur :: csplit sep true [] r
      else csplit sep false (cur ++ [x]) r
  end.
Definition split_compress (sep : ascii -> bool) (s : str) : list str := csplit sep false [] s.
Fixpoint drop_empty (l : list str) : list str := match l with [] :: r => drop_empty r | _ => l end.
(** nameSplit, export.cc:21-30. *)
Definition nameSplit (s : str) : list str :=
  rev (drop_empty (rev (drop_empty (split_compress (ceqb "/") s)))).
(** namespaceIndentLevel, export.cc:32-35. *)
Definition namespaceIndentLevel (ns : str) : nat := length (nameSplit ns).
(** boost::join. *)
Fixpoint join (sep : str) (l : list str) : str :=
  match l with
  | [] => []
  | [x] => x
  | x :: r => x ++ sep ++ join sep r
  end.
(** The body of the loop of stripLeadingUnderscore, export.cc:41-45 ([0] of an empty string is the final zero). *)
Definition strip1 (s : str) : str := match s with x :: r => if ceqb x "_" then r else s | [] => [] end.
(** stripLeadingUnderscore, export.cc:37-48; is_any_of "::" is the single character. *)
Definition stripLeadingUnderscore (s : str) : str := join (s_ "::") (map strip1 (split_compress (ceqb ":") s)).
(** normalizeIDLName, export.cc:50-58: each of the characters < > / , becomes an underscore, one after the other.
    Simplification: names have less than 2^32-1 characters (template_mark is an unsigned int). *)
Definition special (c : ascii) : bool := ceqb c "<" || ceqb c ">" || ceqb c "/" || ceqb c ",".
Definition normalizeIDLName (s : str) : str :=
  stripLeadingUnderscore (map (fun c => if special c then "_" else c) s).
(** boost::replace_all with a pattern of one character, or of two. *)
Definition replace1 (c : ascii) (by_ : str) (s : str) : str := flat_map (fun x => if ceqb x c then by_ else [x]) s.
Fixpoint replace_colons (by_ : str) (s : str) : str :=
  match s with
  | ":" :: ((":" :: r) as r1) => by_ ++ replace_colons by_ r
  | x :: r => x :: replace_colons by_ r
  | [] => []
  end.

(** The configuration: m_ns_prefix, m_ns_suffix, m_blob_threshold (an int), m_opaque_as_any, m_selected_types. *)
Record cfg := Cfg { c_prefix : str; c_suffix : str; c_blob : Z; c_any : bool; c_sel : list str }.
(** save(stream, config, registry), export.cc:476-485: the prefix gets a leading slash and the suffix a final one. *)
Definition make_cfg (prefix suffix : str) (blob : Z) (any : bool) (sel : list str) : cfg :=
  Cfg (match prefix with [] => [] | _ => if isAbsoluteName prefix then prefix else slash :: prefix end)
      (match suffix with [] => [] | _ => if last_is_slash suffix then suffix else suffix ++ [slash] end)
      blob any sel.
(** getIDLAbsoluteNamespace, export.cc:60-70. *)
Definition absolute_ns (c : cfg) (ns : str) : str := c_prefix c ++ ns ++ c_suffix c.

Definition container_kind (k : ckind) : str := match k with KVec => s_ "/std/vector" | KStr => s_ "/std/string" end.
Definition is_string (o : tobj) : bool := seqb (o_name o) (s_ "/std/string").
(** IDLTypeIdentifierVisitor::visit_(Numeric), export.cc:200-227. *)
Definition numeric_name (o : tobj) (c : ncat) : str :=
  if seqb (o_name o) (s_ "/bool") then s_ "boolean"
  else match c with
       | Float => if (o_size o =? 4)%N then s_ "float" else s_ "double"
       | _ =>
           (match c with UInt => if (o_size o =? 1)%N then [] else s_ "unsigned " | _ => [] end) ++
           (if (o_size o =? 1)%N then s_ "octet" else if (o_size o =? 2)%N then s_ "short"
            else if (o_size o =? 4)%N then s_ "long" else if (o_size o =? 8)%N then s_ "long long" else [])
       end.
(** IDLTypeIdentifierVisitor, export.cc:72-101, 158-243, after apply: m_namespace, m_front, m_back. [fuel] bounds the
    depth of the recursion through element types. *)
Fixpoint ident (fuel : nat) (c : cfg) (H : heap) (t : tid) : res (str * str * str) :=
  match fuel with
  | O => Fuel
  | S f =>
    let o := H t in
    match o_kind o with
    | OOpaque => if c_any c then Ok ([], normalizeIDLName (s_ "any"), []) else Throw EUnsupported
    | ONull => Throw EUnsupported
    | OCont k x =>
        if is_string o then Ok ([], normalizeIDLName (s_ "string"), [])
        else
          '(ns, _, _) <- ident f c H x ;;
          let ns' := match ns with [] => absolute_ns c [slash] | _ => ns end in
          let element := replace1 " " (s_ "_") (replace1 slash (s_ "_") (o_name (H x))) in
          Ok (ns', normalizeIDLName (getTypename (container_kind k) ++ s_ "_" ++ element ++ s_ "_"), [])
    | OComp _ | OEnum _ => Ok (absolute_ns c (getNamespace (o_name o)), normalizeIDLName (getTypename (o_name o)), [])
    | ONum n => Ok ([], normalizeIDLName (numeric_name o n), [])
    | OPtr _ => Throw EUnsupported
    | OArr d x =>
        match o_kind (H x) with
        | OArr _ _ => Throw EUnsupported
        | _ => '(ns, front, back) <- ident f c H x ;;
               Ok (ns, normalizeIDLName (front ++ back), s_ "[" ++ dec d ++ s_ "]")
        end
    end
  end.
(** getIDLBase, export.cc:106-121. *)
Definition idl_base (fuel : nat) (c : cfg) (H : heap) (t : tid) (field : str) : res (str * str) :=
  '(ns, front, back) <- ident fuel c H t ;;
  Ok (ns, match field with
          | [] => front ++ back
          | _ => front ++ s_ " " ++ stripLeadingUnderscore field ++ back
          end).
(** getIDLAbsolute, export.cc:141-151. *)
Definition idl_absolute (fuel : nat) (c : cfg) (H : heap) (t : tid) (field : str) : res str :=
  '(ns, b) <- idl_base fuel c H t field ;;
  Ok (match ns with [] => b | _ => normalizeIDLName (replace1 slash (s_ "::") ns) ++ b end).

Definition spaces (n : nat) : str := repeat " " n.
Definition nl : str := ["010"].
(** visit_(Compound, Field) for each field, export.cc:323-331. *)
Fixpoint field_lines (fuel : nat) (c : cfg) (H : heap) (indent : str) (fs : list fld) : res str :=
  match fs with
  | [] => Ok []
  | x :: r =>
      a <- idl_absolute fuel c H (f_type x) (f_name x) ;;
      rest <- field_lines fuel c H indent r ;;
      Ok (indent ++ a ++ s_ ";" ++ nl ++ rest)
  end.
(** IDLExportVisitor, export.cc:245-394: the target namespace, the text, and the typedef to remember. *)
Definition visit_type (fuel : nat) (c : cfg) (H : heap) (t : tid) : res (str * str * option (str * tid)) :=
  let o := H t in
  let ns := absolute_ns c (getNamespace (o_name o)) in
  let indent := fun ns => spaces (namespaceIndentLevel ns * 4) in
  match o_kind o with
  | ONull => Throw ENullType
  | OOpaque => if c_any c then Ok (ns, [], None) else Throw EUnsupported
  | ONum _ => Ok (ns, [], None)
  | OPtr _ | OArr _ _ => Throw EUnsupported
  | OEnum values =>
      Ok (ns, indent ns ++ s_ "enum " ++ stripLeadingUnderscore (getTypename (o_name o)) ++ s_ " { " ++
              join (s_ ", ") (map (fun p => stripLeadingUnderscore (fst p)) values) ++ s_ " };" ++ nl, None)
  | OComp fs =>
      body <- field_lines fuel c H (indent ns ++ s_ "    ") fs ;;
      Ok (ns, indent ns ++ s_ "struct " ++ normalizeIDLName (getTypename (o_name o)) ++ s_ " {" ++ nl ++
              body ++ indent ns ++ s_ "};" ++ nl, None)
  | OCont k x =>
      if is_string o then Ok (ns, [], None)
      else
        '(ens, _) <- idl_base fuel c H x [] ;;
        let tns := match ens with [] => absolute_ns c [slash] | _ => ens end in
        element <- idl_absolute fuel c H x [] ;;
        '(_, base) <- idl_base fuel c H t [] ;;
        let name := replace_colons (s_ "_") base in
        Ok (tns, indent tns ++ s_ "typedef sequence<" ++ element ++ s_ "> " ++ name ++ s_ ";" ++ nl,
            Some (getNamespace (o_name (H x)) ++ name, t))
  end.

(** The fields of an IDLExport that change: m_namespace, m_indent, m_typedefs (in the order of the map),
    m_exported_typedefs; and the stream. *)
Record idl := IdlSt { x_ns : str; x_indent : str; x_typedefs : list (str * list str); x_exported : list (str * tid); x_out : str }.
(** IDLExport::IDLExport, export.cc:398-399. *)
Definition idl0 : idl := IdlSt [slash] [] [] [] [].

(** closeNamespaces, export.cc:413-420; std::string(s, 0, s.size() - 4) is the whole string if it is shorter. *)
Definition unindent (s : str) : str := if (length s <? 4)%nat then s else firstn (length s - 4) s.
Fixpoint closeNamespaces (levels : nat) (st : idl) : idl :=
  match levels with
  | O => st
  | S k =>
      let i := unindent (x_indent st) in
      closeNamespaces k (IdlSt (x_ns st) i (x_typedefs st) (x_exported st) (x_out st ++ nl ++ i ++ s_ "};" ++ nl))
  end.
(** The loop that opens modules, export.cc:451-456. *)
Fixpoint open_modules (l : list str) (st : idl) : idl :=
  match l with
  | [] => st
  | n :: r =>
      open_modules r (IdlSt (x_ns st) (x_indent st ++ s_ "    ") (x_typedefs st) (x_exported st)
                            (x_out st ++ x_indent st ++ s_ "module " ++ normalizeIDLName n ++ s_ " {" ++ nl))
  end.
(** Removal of the common components, export.cc:443-447. *)
Fixpoint uncommon (a b : list str) : list str * list str :=
  match a, b with
  | x :: a', y :: b' => if seqb x y then uncommon a' b' else (a, b)
  | _, _ => (a, b)
  end.
(** adaptNamespace, export.cc:435-459. *)
Definition adaptNamespace (ns : str) (st : idl) : idl :=
  let st' :=
    if seqb (x_ns st) ns then st
    else
      let '(old, new) := uncommon (nameSplit (x_ns st)) (nameSplit ns) in
      open_modules new (closeNamespaces (length old) st) in
  IdlSt ns (x_indent st') (x_typedefs st') (x_exported st') (x_out st').
Definition emit (s : str) (st : idl) : idl :=
  IdlSt (x_ns st) (x_indent st) (x_typedefs st) (x_exported st) (x_out st ++ s).
(** m_typedefs[ns].push_back(def): a std::map ordered by operator<. *)
Fixpoint add_typedef (ns def : str) (l : list (str * list str)) : list (str * list str) :=
  match l with
  | [] => [(ns, [def])]
  | (k, ds) :: r => if seqb k ns then (k, ds ++ [def]) :: r
                    else if slt ns k then (ns, [def]) :: l else (k, ds) :: add_typedef ns def r
  end.
(** std::map::find, and insert (which does nothing if the key is there). The order of m_exported_typedefs is not used. *)
Fixpoint find_exported (n : str) (l : list (str * tid)) : option tid :=
  match l with
  | [] => None
  | (k, t) :: r => if seqb k n then Some t else find_exported n r
  end.
Definition add_exported (p : str * tid) (l : list (str * tid)) : list (str * tid) :=
  match find_exported (fst p) l with Some _ => l | None => l ++ [p] end.
(** IDLExport::checkType, export.cc:422-433. *)
Definition checkType (H : heap) (t : tid) : res unit :=
  match o_kind (H t) with
  | OPtr _ => Throw EUnsupported
  | OArr _ x => match o_kind (H x) with OArr _ _ | OPtr _ => Throw EUnsupported | _ => Ok tt end
  | _ => Ok tt
  end.
(** static_cast<int>. *)
Definition to_int (n : N) : Z :=
  let z := (Z.of_N n mod 4294967296)%Z in if (z <? 2147483648)%Z then z else (z - 4294967296)%Z.
(** export.cc:526-531: an alias that only differs from its type by a leading struct or enum. *)
Definition c_like_alias (tname aname : str) : bool :=
  let tb := getTypename tname in
  let ab := getTypename aname in
  seqb (getNamespace tname) (getNamespace aname) &&
  (seqb tb (s_ "struct " ++ ab) || seqb tb (s_ "enum " ++ ab) || seqb ab (s_ "struct " ++ tb) || seqb ab (s_ "enum " ++ tb)).
(** The text of the typedef of an alias, export.cc:550-575 (empty: none). *)
Definition alias_def (fuel : nat) (c : cfg) (H : heap) (p : ent) : res str :=
  let t := e_type (snd p) in
  let base := stripLeadingUnderscore (getTypename (fst p)) in
  let plain := if existsb (ceqb " ") (getTypename (fst p)) then Ok []
               else a <- idl_absolute fuel c H t [] ;; Ok (a ++ s_ " " ++ base ++ s_ ";") in
  match o_kind (H t) with
  | OArr d x => a <- idl_absolute fuel c H x [] ;; Ok (a ++ s_ " " ++ base ++ s_ "[" ++ dec d ++ s_ "];")
  | OCont _ x => if is_string (H t) then plain
                 else a <- idl_absolute fuel c H x [] ;; Ok (s_ "sequence<" ++ a ++ s_ "> " ++ base ++ s_ ";")
  | OOpaque => Ok (if c_any c then s_ "any " ++ base ++ s_ ";" else [])
  | _ => plain
  end.
(** IDLExport::save(stream, it), export.cc:511-619. *)
Definition save_alias (fuel : nat) (c : cfg) (H : heap) (st : idl) (p : ent) : idl * res bool :=
  let t := e_type (snd p) in
  if c_like_alias (o_name (H t)) (fst p) then (st, Ok false)
  else
    match checkType H t with
    | Ok _ =>
        match find_exported (fst p) (x_exported st) with
        | Some t' => (st, if (t' =? t)%nat then Ok false else Throw EUnsupported)
        | None =>
            if existsb (fun c => ceqb c "/" || ceqb c "<" || ceqb c ">") (getTypename (fst p)) then (st, Ok false)
            else
              match alias_def fuel c H p with
              | Ok [] => (st, Ok true)
              | Ok def =>
                  (IdlSt (x_ns st) (x_indent st) (add_typedef (absolute_ns c (getNamespace (fst p))) def (x_typedefs st))
                         (x_exported st) (x_out st), Ok true)
              | Throw e => (st, Throw e) | UB u => (st, UB u) | Fuel => (st, Fuel)
              end
        end
    | Throw e => (st, Throw e) | UB u => (st, UB u) | Fuel => (st, Fuel)
    end.
Definition save_type (fuel : nat) (c : cfg) (H : heap) (st : idl) (p : ent) : idl * res bool :=
  let t := e_type (snd p) in
  if negb (c_blob c =? 0)%Z && (c_blob c <? to_int (o_size (H t)))%Z then
    let ns := absolute_ns c (getNamespace (fst p)) in
    (emit (spaces (namespaceIndentLevel ns * 4) ++ s_ "typedef sequence<octet> " ++ getTypename (o_name (H t)) ++ s_ ";" ++ nl)
          (adaptNamespace ns st), Ok true)
  else
    match visit_type fuel c H t with
    | Ok (ns, text, exported) =>
        let st1 := match exported with
                   | None => st
                   | Some q => IdlSt (x_ns st) (x_indent st) (x_typedefs st) (add_exported q (x_exported st)) (x_out st)
                   end in
        match text with
        | [] => (st1, Ok false)
        | _ => (emit text (adaptNamespace ns st1), Ok true)
        end
    | Throw e => (st, Throw e) | UB u => (st, UB u) | Fuel => (st, Fuel)
    end.
Definition idl_save (fuel : nat) (c : cfg) (H : heap) (st : idl) (p : ent) : idl * res bool :=
  if match c_sel c with [] => false | _ => negb (existsb (seqb (o_name (H (e_type (snd p))))) (c_sel c)) end
  then (st, Ok false)
  else if isAlias H p then save_alias fuel c H st p
  else save_type fuel c H st p.

(** generateTypedefs, export.cc:489-500. *)
Definition typedef_group (st : idl) (g : str * list str) : idl :=
  fold_left (fun st d => emit (x_indent st ++ s_ "typedef " ++ d ++ nl) st) (snd g) (adaptNamespace (fst g) st).
Definition generateTypedefs (st : idl) : idl := fold_left typedef_group (x_typedefs st) st.
(** IDLExport::end, export.cc:403-411. *)
Definition idl_end (st : idl) : idl :=
  let st' := generateTypedefs st in closeNamespaces (namespaceIndentLevel (x_ns st')) st'.

(** A sequence of calls of save(stream, it), up to the first exception. *)
Fixpoint idl_saves (fuel : nat) (c : cfg) (H : heap) (st : idl) (l : list ent) : idl * res unit :=
  match l with
  | [] => (st, Ok tt)
  | p :: r =>
      match idl_save fuel c H st p with
      | (st', Ok _) => idl_saves fuel c H st' r
      | (st', Throw e) => (st', Throw e)
      | (st', UB u) => (st', UB u)
      | (st', Fuel) => (st', Fuel)
      end
  end.
(** What save(stream, p) answers to Exporter::save after the entries [out]. *)
Definition idl_answer (fuel : nat) (c : cfg) (H : heap) (st : idl) (out : list ent) (p : ent) : bool :=
  match snd (idl_save fuel c H (fst (idl_saves fuel c H st out)) p) with Ok b => b | _ => false end.
(** IDLExport::save(stream, config, registry), export.cc:471-487, with Exporter::save (Exporter.v) for this plugin: the
    entries are handed to save(stream, it) in the order that its answers determine; the first exception ends the export.
    [st]: the exporter before the call, the stream is new. *)
Definition idl_export (fuel : nat) (c : cfg) (H : heap) (st : idl) (r : reg) : idl * res unit :=
  let st0 := IdlSt (x_ns st) (x_indent st) (x_typedefs st) (x_exported st) [] in
  let '(out, res) := export fuel H (idl_answer fuel c H st0) r in
  match idl_saves fuel c H st0 out with
  | (st', Ok _) => match res with Ok _ => (idl_end st', Ok tt) | _ => (st', res) end
  | (st', x) => (st', x)
  end.
