(** * Tlb: the tlb exporter (lang/tlb/export.cc) and importer (lang/tlb/import.cc). *)
From Verif Require Import Base Types NamesSpec Names Graph Registry World TypeBuilder Exporter Smap TypeObj Csv Xml.
From Verif Require Import Graph.
Local Open Scope nat_scope.

Definition nl : str := [Ascii.ascii_of_nat 10].
Definition q : str := s_ """".
(** ** Export *)
(** xmlEscape, export.cc:50-65: the first < or > is replaced, and the search starts again. *)
Fixpoint find_angle (s : str) : option (str * ascii * str) :=
  match s with
  | [] => None
  | c :: r => if ceqb c "<" || ceqb c ">" then Some ([], c, r)
              else match find_angle r with Some (a, x, b) => Some (c :: a, x, b) | None => None end
  end.
Fixpoint escape_loop (fuel : nat) (s : str) : str :=
  match fuel with
  | 0 => s
  | S f => match find_angle s with
           | Some (a, x, b) => escape_loop f (a ++ (if ceqb x "<" then s_ "&lt;" else s_ "&gt;") ++ b)
           | None => s
           end
  end.
(** Each round removes one of them: there are at most as many rounds as characters. *)
Definition xmlEscape (s : str) : str := escape_loop (S (length s)) s.
(** TlbExportVisitor::emitMetaData, export.cc:67-88. *)
Definition emit_key (key : str) (values : list str) : str :=
  match values with
  | [] => s_ "<metadata key=""" ++ key ++ s_ """ />"
  | _ => concat (map (fun v => s_ "<metadata key=""" ++ key ++ s_ """><![CDATA[" ++ v ++ s_ "]]></metadata>" ++ nl) values)
  end.
Definition emitMetaData (m : meta) : str := concat (map (fun p => emit_key (fst p) (snd p)) m).
(** TlbExportVisitor::emitSourceID, export.cc:90-95. *)
Definition emitSourceID (src : str) : str := match src with [] => [] | _ => s_ "source_id=""" ++ xmlEscape src ++ q end.
(** The metadata of the types, and of the fields (by position) of the compounds. *)
Record metas := Metas { m_type : tid -> meta; m_field : tid -> nat -> meta }.
(** The end of all elements: metadata and closing tag; m_indent is "  ". *)
Definition tail_ (m : meta) (tag : str) : str := s_ "  " ++ emitMetaData m ++ nl ++ s_ "  </" ++ tag ++ s_ ">".
(** visit_(Compound, Field), export.cc:119-129; m_indent is "    ". *)
Definition export_field (H : heap) (f : fld) (m : meta) : str :=
  s_ "    " ++ s_ "<field name=""" ++ f_name f ++ q ++ s_ " type=""" ++ xmlEscape (o_name (H (f_type f))) ++ q ++
  s_ " offset=""" ++ dec (f_off f) ++ s_ """>" ++ nl ++ s_ "    " ++ emitMetaData m ++ nl ++ s_ "    " ++ s_ "</field>" ++ nl.
Fixpoint export_fields (H : heap) (fs : list fld) (m : nat -> meta) : str :=
  match fs with [] => [] | f :: r => export_field H f (m 0) ++ export_fields H r (fun i => m (S i)) end.
(** getStringCategory, export.cc:133-147; Container::kind. *)
Definition category_text (c : ncat) : str := match c with SInt => s_ "sint" | UInt => s_ "uint" | Float => s_ "float" end.
Definition kind_text (k : ckind) : str := match k with KVec => s_ "/std/vector" | KStr => s_ "/std/string" end.
(** indirect, export.cc:171-176. *)
Definition indirect_text (H : heap) (t x : tid) : str :=
  s_ " name=""" ++ xmlEscape (o_name (H t)) ++ s_ """ of=""" ++ xmlEscape (o_name (H x)) ++ q.
(** The loop of visit_(Enum), export.cc:215-218. *)
Definition export_value (p : str * Z) : str := s_ "    " ++ s_ "<value symbol=""" ++ fst p ++ s_ """ value=""" ++ decZ (snd p) ++ s_ """/>" ++ nl.
(** The visit_ methods: opaque, export.cc:97-103; compound, 105-118; numeric, 149-160; null, 161-167; pointer, 178-186;
    array, 187-195; container, 196-207; enum, 209-225. *)
Definition export_type (H : heap) (md : metas) (t : tid) (src : str) : str :=
  let o := H t in
  let m := m_type md t in
  match o_kind o with
  | OOpaque => s_ "<opaque name=""" ++ xmlEscape (o_name o) ++ s_ """ size=""" ++ dec (o_size o) ++ s_ """ " ++ emitSourceID src ++ s_ ">" ++ nl ++ tail_ m (s_ "opaque")
  | OComp fs => s_ "<compound name=""" ++ xmlEscape (o_name o) ++ s_ """ size=""" ++ dec (o_size o) ++ s_ """ " ++ emitSourceID src ++ s_ ">" ++ nl ++
      export_fields H fs (m_field md t) ++ tail_ m (s_ "compound")
  | ONum c => s_ "<numeric name=""" ++ o_name o ++ s_ """ category=""" ++ category_text c ++ s_ """ size=""" ++ dec (o_size o) ++ s_ """ " ++ emitSourceID src ++ s_ ">" ++ nl ++ tail_ m (s_ "numeric")
  | ONull => s_ "<null  name=""" ++ o_name o ++ s_ """ " ++ emitSourceID src ++ s_ ">" ++ nl ++ tail_ m (s_ "null")
  | OPtr x => s_ "<pointer " ++ indirect_text H t x ++ s_ " " ++ emitSourceID src ++ s_ ">" ++ nl ++ tail_ m (s_ "pointer")
  | OArr d x => s_ "<array " ++ indirect_text H t x ++ s_ " dimension=""" ++ dec d ++ s_ """ " ++ emitSourceID src ++ s_ ">" ++ nl ++ tail_ m (s_ "array")
  | OCont k x => s_ "<container " ++ indirect_text H t x ++ s_ " size=""" ++ dec (o_size o) ++ q ++ s_ " kind=""" ++ xmlEscape (kind_text k) ++ q ++
      s_ " " ++ emitSourceID src ++ s_ ">" ++ nl ++ tail_ m (s_ "container")
  | OEnum vs => s_ "<enum name=""" ++ o_name o ++ s_ """ " ++ emitSourceID src ++ s_ ">" ++ nl ++ concat (map export_value vs) ++ tail_ m (s_ "enum")
  end.
(** TlbExport::save(stream, type), export.cc:247-265. *)
Definition save_entry (H : heap) (md : metas) (p : ent) : str :=
  if isAlias H p then
    s_ "  <alias name=""" ++ xmlEscape (fst p) ++ s_ """ source=""" ++ xmlEscape (o_name (H (e_type (snd p)))) ++ s_ """/>" ++ nl
  else s_ "  " ++ export_type H md (e_type (snd p)) (e_src (snd p)) ++ nl.
(** TlbExport::begin and end, export.cc:230-245, around the entries (Exporter::save, exporter.cc:33-132). *)
Definition document (H : heap) (md : metas) (out : list ent) : str :=
  s_ "<?xml version=""1.0""?>" ++ nl ++ s_ "<typelib>" ++ nl ++ concat (map (save_entry H md) out) ++ s_ "</typelib>" ++ nl.
(** Exporter::save on the tlb exporter: save returns true. The text is what a successful export has written. *)
Definition tlb_export (fuel : nat) (H : heap) (md : metas) (r : reg) : res str :=
  match export fuel H (fun _ _ => true) r with
  | (out, Ok _) => Ok (document H md out)
  | (_, Throw e) => Throw e
  | (_, UB u) => UB u
  | (_, Fuel) => Fuel
  end.

(** ** Import *)
(** getStringAttribute, xmltools.hh:20-28. *)
Definition attributes (x : xnode) : list (str * str) := match x with XElem _ a _ => a | _ => [] end.
Fixpoint assoc (n : str) (l : list (str * str)) : option str :=
  match l with [] => None | (k, v) :: r => if seqb k n then Some v else assoc n r end.
Definition get_string (x : xnode) (n : str) : res str := match assoc n (attributes x) with Some v => Ok v | None => Throw EImport end.
(** boost::lexical_cast to size_t and to int (a minus sign on an unsigned number: modulo 2^64). bad_lexical_cast: EStd. *)
Definition digits_val (s : str) : option N :=
  match s with
  | [] => None
  | _ => if forallb isdigit s then Some (fold_left (fun a c => 10 * a + N.of_nat (nat_of_ascii c - 48))%N s 0%N) else None
  end.
Definition cast_size (s : str) : res N :=
  let '(neg, ds) := match s with c :: r => if ceqb c "-" then (true, r) else if ceqb c "+" then (false, r) else (false, s) | [] => (false, s) end in
  match digits_val ds with
  | Some n => if (n <? 2 ^ 64)%N then Ok (if neg : bool then (2 ^ 64 - n) mod 2 ^ 64 else n)%N else Throw EStd
  | None => Throw EStd
  end.
Definition cast_int (s : str) : res Z :=
  let '(neg, ds) := match s with c :: r => if ceqb c "-" then (true, r) else if ceqb c "+" then (false, r) else (false, s) | [] => (false, s) end in
  match digits_val ds with
  | Some n => let z := if neg : bool then (- Z.of_N n)%Z else Z.of_N n in if in_int z then Ok z else Throw EStd
  | None => Throw EStd
  end.
Definition get_size (x : xnode) (n : str) : res N := s <- get_string x n ;; cast_size s.
Definition get_int (x : xnode) (n : str) : res Z := s <- get_string x n ;; cast_int s.
(** xmlFirstElementChild and xmlNextElementSibling, with a test on the name of the element. *)
Definition is_elem (tag : str) (x : xnode) : bool := match x with XElem t _ _ => seqb t tag | _ => false end.
Definition children (x : xnode) : list xnode := match x with XElem _ _ k => k | _ => [] end.
Definition elements (tag : str) (x : xnode) : list xnode := filter (is_elem tag) (children x).
(** loadMetaData, import.cc:64-88. *)
Fixpoint first_cdata (l : list xnode) : option str := match l with [] => None | XCdata s :: _ => Some s | _ :: r => first_cdata r end.
Fixpoint load_meta (l : list xnode) (m : meta) : res meta :=
  match l with
  | [] => Ok m
  | x :: r =>
      key <- get_string x (s_ "key") ;;
      let m1 := md_addAll m key [] in
      load_meta r (match first_cdata (children x) with Some v => md_add m1 key v | None => m1 end)
  end.
Definition loadMetaData (x : xnode) (m : meta) : res meta := load_meta (elements (s_ "metadata") x) m.

(** The Factory (import.cc:95-155) and the memory: the store, the registry, the metadata, m_map. TypeNode::name is the
    key of the map, TypeNode::loader is given by the name of the element. *)
Record istate := IS { i_store : store; i_reg : reg; i_md : metas; i_map : smap (xnode * str) }.
Definition M (A : Type) := istate -> istate * res A.
Definition ret_ {A} (x : res A) : M A := fun st => (st, x).
Definition bindM {A B} (x : M A) (f : A -> M B) : M B := fun st =>
  match x st with
  | (st', Ok a) => f a st'
  | (st', Throw e) => (st', Throw e)
  | (st', UB u) => (st', UB u)
  | (st', Fuel) => (st', Fuel)
  end.
Notation "x <~ e1 ; e2" := (bindM e1 (fun x => e2)) (at level 100, e1 at next level, right associativity).
Definition updn {A} (f : nat -> A) (t : nat) (v : A) : nat -> A := fun x => if x =? t then v else f x.
(** Registry::add(type, source_id) of a new object. *)
Definition new_type (f : nat) (o : tobj) (m : meta) (fm : list meta) (src : str) : M tid := fun st =>
  let t := s_next (i_store st) in
  let s' := alloc (i_store st) o in
  let md' := Metas (updn (m_type (i_md st)) t m) (updn (m_field (i_md st)) t (fun i => nth i fm [])) in
  match add f (s_heap s') (i_reg st) t src with
  | (r', Ok _) => (IS s' r' md' (i_map st), Ok t)
  | (r', Throw e) => (IS s' r' md' (i_map st), Throw e)
  | (r', UB u) => (IS s' r' md' (i_map st), UB u)
  | (r', Fuel) => (IS s' r' md' (i_map st), Fuel)
  end.
(** Factory::insert, import.cc:104-108. *)
Definition insert_type (f : nat) (x : xnode) (file : str) (o : tobj) (fm : list meta) : M tid :=
  m <~ ret_ (loadMetaData x []) ; new_type f o m fm file.
(** Registry::alias(base, newname), registry.cc:393-400 (source id: empty). *)
Definition do_alias (f : nat) (base newname : str) : M unit := fun st =>
  match alias f (s_heap (i_store st)) (i_reg st) base newname [] with (r', x) => (IS (i_store st) r' (i_md st) (i_map st), x) end.
Definition get_reg {A} (g : istate -> A) : M A := fun st => (st, Ok (g st)).
Definition m_get (n : str) : M (option tid) := get_reg (fun st => get (i_reg st) n).
Definition m_has (n : str) : M bool := get_reg (fun st => has (i_reg st) n).
Definition m_name (t : tid) : M str := get_reg (fun st => o_name (s_heap (i_store st) t)).
Definition m_erase_ (n : str) : M unit := fun st => (IS (i_store st) (i_reg st) (i_md st) (m_erase n (i_map st)), Ok tt).

(** load_numeric, import.cc:170-181; load_null, 182-187; load_opaque, 188-194. *)
Definition load_numeric (f : nat) (name : str) (x : xnode) (file : str) : M tid :=
  cat <~ ret_ (get_string x (s_ "category")) ;
  c <~ ret_ (if seqb cat (s_ "sint") then Ok SInt else if seqb cat (s_ "uint") then Ok UInt else if seqb cat (s_ "float") then Ok Float else Throw ERuntime) ;
  size <~ ret_ (get_size x (s_ "size")) ;
  insert_type f x file (Obj name size (ONum c)) [].
Definition load_null (f : nat) (name : str) (x : xnode) (file : str) : M tid := insert_type f x file (Obj name 0 ONull) [].
Definition load_opaque (f : nat) (name : str) (x : xnode) (file : str) : M tid :=
  size <~ ret_ (get_size x (s_ "size")) ; insert_type f x file (Obj name size OOpaque) [].
(** Registry::has(name) with the default build_if_missing = true, registry.cc:259-269. *)
Definition m_has_build (n : str) : M bool := fun st =>
  if has (i_reg st) n then (st, Ok true)
  else (st, b <- getBaseType (i_reg st) (getFullName (i_reg st) n) ;; Ok (match b with Some _ => true | None => false end)).
(** dynamic_cast<Container const&> of what the registry has under a name: a null pointer is undefined behaviour, a type
    that is not a container throws (BadCategory for vectors, std::bad_cast for strings). *)
Definition m_container (n : str) (e : exn) : M tid := fun st =>
  match get (i_reg st) n with
  | None => (st, UB UOther)
  | Some t => match o_kind (s_heap (i_store st) t) with OCont _ _ => (st, Ok t) | _ => (st, Throw e) end
  end.
(** Vector::factory, containers.cc:367-388 and Vector::Vector, containers.cc:20-24 (the memory layout of the elements,
    which the constructor computes and which can throw, is left out); sizeof(std::vector<void*>) is 24. *)
Definition vector_factory (f : nat) (on : tid) : M tid :=
  n <~ m_name on ;
  h <~ m_has_build (vector_fullName n) ;
  if h then m_container (vector_fullName n) EBadCategory
  else new_type f (Obj (vector_fullName n) 24 (OCont KVec on)) [] [] [].
(** String::factory, containers.cc:491-515, and String::String, containers.cc:392-394; sizeof(std::string) is 32. *)
Definition string_factory (f : nat) (on : tid) : M tid :=
  h <~ m_has_build (s_ "/std/string") ;
  if h then m_container (s_ "/std/string") EStd
  else
    h8 <~ m_has_build (s_ "/int8_t") ;
    e <~ (if h8 then e <~ m_get (s_ "/int8_t") ; ret_ (match e with Some e => Ok e | None => UB UOther end)
          else new_type f (Obj (s_ "/int8_t") 1 (ONum SInt)) [] [] []) ;
    new_type f (Obj (s_ "/std/string") 32 (OCont KStr e)) [] [] [].
(** Container::createContainer, typemodel.cc:590-605, with the containers that containers.cc registers. *)
Definition createContainer (f : nat) (kind : str) (on : tid) : M tid :=
  if seqb kind (s_ "/std/vector") then vector_factory f on
  else if seqb kind (s_ "/std/string") then string_factory f on else ret_ (Throw ENotFound).
(** Registry::get_(type).setSize(size), registry.cc:287-293: the type the registry has under the name of the type. *)
Definition m_setSize (t : tid) (size : Z) : M unit := fun st =>
  match get (i_reg st) (o_name (s_heap (i_store st) t)) with
  | None => (st, Throw EUndefined)
  | Some u => let o := s_heap (i_store st) u in
              (IS (Store (upd (s_heap (i_store st)) u (Obj (o_name o) (to_size size) (o_kind o))) (s_next (i_store st))) (i_reg st) (i_md st) (i_map st), Ok tt)
  end.
(** loadMetaData on the metadata of an existing type. *)
Definition m_loadMeta (t : tid) (x : xnode) : M unit := fun st =>
  match loadMetaData x (m_type (i_md st) t) with
  | Ok m => (IS (i_store st) (i_reg st) (Metas (updn (m_type (i_md st)) t m) (m_field (i_md st))) (i_map st), Ok tt)
  | Throw e => (st, Throw e)
  | UB u => (st, UB u)
  | Fuel => (st, Fuel)
  end.
(** load_container, import.cc:195-222; [rec] is Factory::build. *)
Definition load_container (rec : str -> M tid) (f : nat) (name : str) (x : xnode) (file : str) : M tid :=
  of <~ ret_ (get_string x (s_ "of")) ;
  on <~ rec of ;
  kind <~ ret_ (get_string x (s_ "kind")) ;
  size <~ ret_ (match get_string x (s_ "size") with Throw _ => Ok 0%Z | _ => get_int x (s_ "size") end) ;
  t <~ createContainer f kind on ;
  _ <~ (if (size =? 0)%Z then ret_ (Ok tt) else m_setSize t size) ;
  _ <~ m_loadMeta t x ;
  ret_ (Ok t).
(** load_enum, import.cc:223-238; Enum::add may throw. sizeof(Enum::integral_type) is 4. *)
Fixpoint load_values (l : list xnode) (e : enum_t) : res enum_t :=
  match l with
  | [] => Ok e
  | x :: r =>
      symbol <- get_string x (s_ "symbol") ;;
      value <- get_int x (s_ "value") ;;
      match enum_add e symbol value with
      | (e', Ok _) => load_values r e'
      | (_, Throw ex) => Throw ex
      | (_, UB u) => UB u
      | (_, Fuel) => Fuel
      end
  end.
Definition load_enum (f : nat) (name : str) (x : xnode) (file : str) : M tid :=
  e <~ ret_ (e0 <- enum_new 0 ;; load_values (elements (s_ "value") x) e0) ;
  insert_type f x file (Obj name 4 (OEnum (en_values e))) [].
(** load_alias, import.cc:239-245, with Factory::alias, import.cc:110-111. *)
Definition load_alias (rec : str -> M tid) (f : nat) (name : str) (x : xnode) : M tid :=
  source <~ ret_ (get_string x (s_ "source")) ;
  t <~ rec source ;
  _ <~ do_alias f source name ;
  ret_ (Ok t).
(** load_compound, import.cc:248-273. normalizeFieldOrder, typemodel.cc:304-319 (std::list::sort is stable). The object
    is created with its fields (identities of objects are not observable). *)
Definition fld_lt (a b : fld * meta) : bool :=
  let '(a, b) := (fst a, fst b) in
  if (f_off a <? f_off b)%N then true else if (f_off a =? f_off b)%N then slt (f_name a) (f_name b) else false.
Fixpoint fld_insert (f : fld * meta) (l : list (fld * meta)) : list (fld * meta) :=
  match l with [] => [f] | g :: r => if fld_lt g f then g :: fld_insert f r else f :: l end.
Fixpoint fld_sort (l : list (fld * meta)) : list (fld * meta) := match l with [] => [] | f :: r => fld_insert f (fld_sort r) end.
Fixpoint load_fields (rec : str -> M tid) (l : list xnode) : M (list (fld * meta)) :=
  match l with
  | [] => ret_ (Ok [])
  | x :: r =>
      name <~ ret_ (get_string x (s_ "name")) ;
      tname <~ ret_ (get_string x (s_ "type")) ;
      offset <~ ret_ (get_size x (s_ "offset")) ;
      t <~ rec tname ;
      m <~ ret_ (loadMetaData x []) ;
      fs <~ load_fields rec r ;
      ret_ (Ok ((Fld name offset t, m) :: fs))
  end.
Definition load_compound (rec : str -> M tid) (f : nat) (name : str) (x : xnode) (file : str) : M tid :=
  size <~ ret_ (get_size x (s_ "size")) ;
  fs <~ load_fields rec (elements (s_ "field") x) ;
  let fs' := fld_sort fs in
  insert_type f x file (Obj name size (OComp (map fst fs'))) (map snd fs').
(** node_categories, import.cc:283-293. *)
Definition tag_of (x : xnode) : str := match x with XElem t _ _ => t | XChar _ => s_ "text" | XCdata _ => [] end.
Definition known_tags : list str := [s_ "alias"; s_ "numeric"; s_ "null"; s_ "opaque"; s_ "enum"; s_ "compound"; s_ "container"].
Definition loader (rec : str -> M tid) (f : nat) (name : str) (x : xnode) (file : str) : M tid :=
  let t := tag_of x in
  if seqb t (s_ "alias") then load_alias rec f name x
  else if seqb t (s_ "numeric") then load_numeric f name x file
  else if seqb t (s_ "null") then load_null f name x file
  else if seqb t (s_ "opaque") then load_opaque f name x file
  else if seqb t (s_ "enum") then load_enum f name x file
  else if seqb t (s_ "compound") then load_compound rec f name x file
  else if seqb t (s_ "container") then load_container rec f name x file
  else ret_ (Throw ERuntime).
(** Registry::build(name, 0), registry.cc:271-278. *)
Definition registry_build (f : nat) (name : str) : M tid := fun st =>
  match get (i_reg st) name with
  | Some t => (st, Ok t)
  | None => match build f (i_store st, i_reg st) (getFullName (i_reg st) name) 0 with
            | ((s', r'), Ok (Some t)) => (IS s' r' (i_md st) (i_map st), Ok t)
            | ((s', r'), Ok None) => (IS s' r' (i_md st) (i_map st), UB UOther)
            | ((s', r'), Throw e) => (IS s' r' (i_md st) (i_map st), Throw e)
            | ((s', r'), UB u) => (IS s' r' (i_md st) (i_map st), UB u)
            | ((s', r'), Fuel) => (IS s' r' (i_md st) (i_map st), Fuel)
            end
  end.
(** Factory::build(name), import.cc:122-154; [depth] bounds the nested calls, [f] the registry's recursions. A null
    pointer returned by Registry::build is dereferenced: undefined behaviour. First the base type, import.cc:124-141
    ([rec] is Factory::build), then its modifiers. *)
Definition fbase (rec : str -> M tid) (f : nat) (basename : str) : M tid :=
  base <~ m_get basename ;
  it <~ get_reg (fun st => m_find basename (i_map st)) ;
  match base, it with
  | None, None => ret_ (Throw EUndefined)
  | None, Some (x, file) =>
      _ <~ m_erase_ basename ;
      t <~ loader rec f basename x file ;
      n <~ m_name t ;
      h <~ m_has basename ;
      _ <~ (if negb (seqb n basename) && negb h then do_alias f n basename else ret_ (Ok tt)) ;
      ret_ (Ok t)
  | Some t, Some _ => _ <~ m_erase_ basename ; ret_ (Ok t)
  | Some t, None => ret_ (Ok t)
  end.
Fixpoint fbuild (depth f : nat) (name : str) : M tid :=
  match depth with
  | 0 => ret_ Fuel
  | S d =>
    basename <~ ret_ (getBaseTypename name) ;
    base <~ fbase (fbuild d f) f basename ;
    if seqb basename name then ret_ (Ok base)
    else
      t <~ registry_build f name ;
      n <~ m_name t ;
      h <~ m_has name ;
      _ <~ (if negb (seqb n name) && negb h then do_alias f n name else ret_ (Ok tt)) ;
      _ <~ m_erase_ name ;
      ret_ (Ok t)
  end.
(** Factory::build(map), import.cc:113-118. *)
Fixpoint fbuild_all (rounds depth f : nat) : M unit :=
  match rounds with
  | 0 => ret_ Fuel
  | S k => fun st => match i_map st with
                     | [] => (st, Ok tt)
                     | (n, _) :: _ => (_ <~ fbuild depth f n ; fbuild_all k depth f) st
                     end
  end.
(** ::load, import.cc:295-315: the first definition of a name is kept. *)
Definition load_node (file : str) (map : smap (xnode * str)) (x : xnode) : res (smap (xnode * str)) :=
  name <- get_string x (s_ "name") ;;
  if negb (existsb (seqb (tag_of x)) known_tags) then Throw ERuntime
  else match m_find name map with
       | Some _ => Ok map
       | None => Ok (m_set name (x, match assoc (s_ "source_id") (attributes x) with Some s => s | None => file end) map)
       end.
(** The loop of parse, import.cc:330-339. *)
Fixpoint load_nodes (file : str) (l : list xnode) (map : smap (xnode * str)) : res (smap (xnode * str)) :=
  match l with
  | [] => Ok map
  | x :: r => if seqb (tag_of x) (s_ "comment") || seqb (tag_of x) (s_ "text") then load_nodes file r map
              else map' <- load_node file map x ;; load_nodes file r map'
  end.
(** parse, import.cc:317-343 and TlbImport::load, import.cc:346-379, on a registry that may have types already.
    [f] bounds all loops and recursions. *)
Definition tlb_import (f : nat) (text : str) (s : store) (r : reg) (md : metas) : istate * res unit :=
  match parse_doc text with
  | None => (IS s r md [], Throw EImport)
  | Some root =>
      if negb (seqb (tag_of root) (s_ "typelib")) then (IS s r md [], Throw EImport)
      else match load_nodes [] (children root) [] with
           | Ok map => fbuild_all f f f (IS s r md map)
           | Throw e => (IS s r md [], Throw e)
           | UB u => (IS s r md [], UB u)
           | Fuel => (IS s r md [], Fuel)
           end
  end.
