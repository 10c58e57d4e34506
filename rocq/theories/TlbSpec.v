(** * TlbSpec: what is said of the tlb files. *)
From Coq Require Import Sorted.
From Verif Require Import Base Types NamesSpec Names Graph Registry RegistrySpec World TypeBuilderSpec Exporter ExporterSpec Smap TypeObj TypeObjSpec CsvSpec Csv Xml Tlb.
From Verif Require Import Graph.
Local Open Scope nat_scope.

(** ** Texts that survive *)
(** The exporter escapes < and > in type names and source ids ([attr_char]: all other characters must be harmless),
    and nothing in field names, symbols, metadata keys and the names of numerics, nulls and enums ([raw_char]). *)
Definition attr_char (c : ascii) : Prop := 32 <= nat_of_ascii c < 128 /\ c <> "&"%char /\ c <> """"%char.
Definition raw_char (c : ascii) : Prop := attr_char c /\ c <> "<"%char.
(** The values of metadata are written in CDATA sections. *)
Definition cdata_ok (v : str) : Prop := Forall (fun c => isxchar c = true /\ nat_of_ascii c <> 13) v /\ forall a b, v <> a ++ s_ "]]>" ++ b.
Definition meta_ok (m : meta) : Prop := Forall (fun p => Forall raw_char (fst p) /\ Forall cdata_ok (snd p)) m.
Definition kind_ok (H : heap) (md : metas) (t : tid) : Prop :=
  match o_kind (H t) with
  | ONum _ | ONull => Forall raw_char (o_name (H t))
  | OEnum vs => Forall raw_char (o_name (H t)) /\ Forall (fun p => Forall raw_char (fst p)) vs
  | OComp fs => Forall (fun f => Forall raw_char (f_name f) /\ Forall attr_char (o_name (H (f_type f)))) fs /\ forall i, meta_ok (m_field md t i)
  | OPtr x | OArr _ x | OCont _ x => Forall attr_char (o_name (H x))
  | OOpaque => True
  end.
Definition entry_ok (H : heap) (md : metas) (p : ent) : Prop :=
  Forall attr_char (fst p) /\ Forall attr_char (o_name (H (e_type (snd p)))) /\ Forall attr_char (e_src (snd p)) /\
  meta_ok (m_type md (e_type (snd p))) /\ kind_ok H md (e_type (snd p)).

(** ** What an element says *)
Definition attr (x : xnode) (n v : str) : Prop := match x with XElem _ a _ => In (n, v) a /\ NoDup (map fst a) | _ => False end.
Definition tagged (t : str) (x : xnode) : bool := match x with XElem t' _ _ => if list_eq_dec ascii_dec t' t then true else false | _ => false end.
(** The elements called [t] that are directly in [x]. *)
Definition inside (t : str) (x : xnode) : list xnode := match x with XElem _ _ k => filter (tagged t) k | _ => [] end.
Definition cdata_of (x : xnode) : list str := match x with XElem _ _ k => flat_map (fun y => match y with XCdata s => [s] | _ => [] end) k | _ => [] end.
(** A key without values is one element, a key with values is one element for each of them. *)
Definition meta_lines (m : meta) : list (str * list str) :=
  flat_map (fun p => match snd p with [] => [(fst p, [])] | vs => map (fun v => (fst p, [v])) vs end) m.
Definition shows_meta (m : meta) (x : xnode) : Prop :=
  Forall2 (fun l y => attr y (s_ "key") (fst l) /\ cdata_of y = snd l) (meta_lines m) (inside (s_ "metadata") x).
Definition shows_field (H : heap) (f : fld) (m : meta) (x : xnode) : Prop :=
  attr x (s_ "name") (f_name f) /\ attr x (s_ "type") (o_name (H (f_type f))) /\ (exists d, attr x (s_ "offset") d /\ decimal d (f_off f)) /\ shows_meta m x.
Definition shows_value (p : str * Z) (x : xnode) : Prop :=
  attr x (s_ "symbol") (fst p) /\ exists d, attr x (s_ "value") d /\ decimalZ d (snd p).
Definition shows_size (n : N) (x : xnode) : Prop := exists d, attr x (s_ "size") d /\ decimal d n.
Definition category_name (c : ncat) : str := match c with SInt => s_ "sint" | UInt => s_ "uint" | Float => s_ "float" end.
Definition kind_name (k : ckind) : str := match k with KVec => s_ "/std/vector" | KStr => s_ "/std/string" end.
Definition shows_kind (H : heap) (md : metas) (t : tid) (x : xnode) : Prop :=
  match o_kind (H t) with
  | ONull => tagged (s_ "null") x = true
  | OOpaque => tagged (s_ "opaque") x = true /\ shows_size (o_size (H t)) x
  | ONum c => tagged (s_ "numeric") x = true /\ shows_size (o_size (H t)) x /\ attr x (s_ "category") (category_name c)
  | OEnum vs => tagged (s_ "enum") x = true /\ Forall2 shows_value vs (inside (s_ "value") x)
  | OPtr y => tagged (s_ "pointer") x = true /\ attr x (s_ "of") (o_name (H y))
  | OArr d y => tagged (s_ "array") x = true /\ attr x (s_ "of") (o_name (H y)) /\ exists k, attr x (s_ "dimension") k /\ decimal k d
  | OCont k y => tagged (s_ "container") x = true /\ attr x (s_ "of") (o_name (H y)) /\ shows_size (o_size (H t)) x /\ attr x (s_ "kind") (kind_name k)
  | OComp fs => tagged (s_ "compound") x = true /\ shows_size (o_size (H t)) x /\
      length (inside (s_ "field") x) = length fs /\
      forall i f, nth_error fs i = Some f -> exists y, nth_error (inside (s_ "field") x) i = Some y /\ shows_field H f (m_field md t i) y
  end.
(** An entry under another name than its type's is an alias; other entries are definitions. *)
Definition shows (H : heap) (md : metas) (p : ent) (x : xnode) : Prop :=
  let t := e_type (snd p) in
  if list_eq_dec ascii_dec (o_name (H t)) (fst p) then
    attr x (s_ "name") (o_name (H t)) /\ (e_src (snd p) <> [] -> attr x (s_ "source_id") (e_src (snd p))) /\
    shows_kind H md t x /\ shows_meta (m_type md t) x
  else tagged (s_ "alias") x = true /\ attr x (s_ "name") (fst p) /\ attr x (s_ "source") (o_name (H t)).
(** The elements directly in [x]. *)
Definition top_elements (x : xnode) : list xnode := match x with XElem _ _ k => filter (fun y => match y with XElem _ _ _ => true | _ => false end) k | _ => [] end.
Definition persistent (r : reg) : list ent := filter (fun p => e_pers (snd p)) (r_global r).

(** ** Same types *)
(** The same kind of type, on types that are [R]. *)
Inductive kind_like (R : tid -> tid -> Prop) : okind -> okind -> Prop :=
| kl_null : kind_like R ONull ONull
| kl_opaque : kind_like R OOpaque OOpaque
| kl_num c : kind_like R (ONum c) (ONum c)
| kl_enum vs : kind_like R (OEnum vs) (OEnum vs)
| kl_ptr x x' : R x x' -> kind_like R (OPtr x) (OPtr x')
| kl_arr d x x' : R x x' -> kind_like R (OArr d x) (OArr d x')
| kl_cont k x x' : R x x' -> kind_like R (OCont k x) (OCont k x')
| kl_comp fs fs' : Forall2 (fun f f' => f_name f' = f_name f /\ f_off f' = f_off f /\ R (f_type f) (f_type f')) fs fs' -> kind_like R (OComp fs) (OComp fs').
(** The same name, the same size, the same category, and so on for the types it is made of. *)
Inductive same (H H' : heap) : tid -> tid -> Prop :=
| same_ t t' : o_name (H' t') = o_name (H t) -> o_size (H' t') = o_size (H t) -> kind_like (same H H') (o_kind (H t)) (o_kind (H' t')) -> same H H' t t'.

(** ** Registries that tlb files can hold *)
Definition indirection (k : okind) : bool := match k with OPtr _ | OArr _ _ => true | _ => false end.
(** The sizes that the importer gives (it reads the size of numerics, opaques, containers and compounds; the others are
    computed), the order of symbols and fields in the objects. /std/string is made on /int8_t. *)
Definition fld_le (a b : fld) : Prop := (f_off a < f_off b)%N \/ (f_off a = f_off b /\ ~ str_lt (f_name b) (f_name a)).
Definition natural (H : heap) (t : tid) : Prop :=
  let n := o_size (H t) in
  match o_kind (H t) with
  | ONull => n = 0%N
  | ONum _ | OOpaque => (n < 2 ^ 64)%N
  | OEnum vs => n = 4%N /\ alphabetical (map fst vs) /\ Forall (fun p => is_int (snd p)) vs
  | OPtr _ => n = 8%N
  | OArr d x => (d < 2 ^ 31)%N /\ n = ((d * o_size (H x)) mod 2 ^ 64)%N
  | OCont k x => (0 < n < 2 ^ 31)%N /\ (k = KStr -> o_name (H t) = s_ "/std/string" /\ o_name (H x) = s_ "/int8_t")
  | OComp fs => (n < 2 ^ 64)%N /\ Forall (fun f => f_off f < 2 ^ 64)%N fs /\ StronglySorted fld_le fs
  end.
(** MetaData is a std::map of std::sets. *)
Definition meta_sorted (m : meta) : Prop := alphabetical (map fst m) /\ Forall (fun p => alphabetical (snd p)) m.
Record portable (H : heap) (md : metas) (r : reg) : Prop := {
  (** Pointers, arrays and vectors have the name of their constructor, and are known under the names derived from all
      names of the type they are built on. *)
  po_names : forall t x mk, registered r t -> indirect_name H t = Some (x, mk) -> o_name (H t) = mk (o_name (H x));
  po_aliases : forall t x mk a, registered r t -> indirect_name H t = Some (x, mk) -> absolute a -> get r a = Some x -> get r (mk a) = Some t;
  (** Under their own name, exactly the types that are not pointers or arrays are persistent; no persistent name ends
      with a modifier. *)
  po_saved : forall n e, In (n, e) (r_global r) -> n = o_name (H (e_type e)) -> e_pers e = negb (indirection (o_kind (H (e_type e))));
  po_base : forall p, In p (persistent r) -> base_name (fst p);
  po_natural : forall t, registered r t -> natural H t;
  po_text : forall p, In p (persistent r) -> entry_ok H md p;
  po_meta : forall t, registered r t -> meta_sorted (m_type md t) /\ forall i, meta_sorted (m_field md t i)
}.
