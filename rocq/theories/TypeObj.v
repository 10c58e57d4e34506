(** * TypeObj: Enum, Compound and MetaData (typelib/typemodel.cc), config_set (typelib/utilmm/configset.cc). *)
From Verif Require Import Base Types.
From Verif Require Import Graph Registry Smap.
Local Open Scope N_scope.

(** ** Enum: m_last_value, m_values (typemodel.hh:354-355). integral_type is int. *)
Record enum_t := En { en_last : Z; en_values : smap Z }.
Definition in_int (z : Z) : bool := ((-2147483648 <=? z) && (z <=? 2147483647))%Z.
(** Enum::Enum, typemodel.cc:455-457; signed overflow is undefined. *)
Definition enum_new (initial : Z) : res enum_t := if in_int (initial - 1) then Ok (En (initial - 1) []) else UB UOther.
(** Enum::getNextValue, typemodel.cc:482. *)
Definition enum_next (e : enum_t) : res Z := if in_int (en_last e + 1) then Ok (en_last e + 1)%Z else UB UOther.
(** Enum::add, typemodel.cc:483-490: the object after the call, and the outcome. *)
Definition enum_add (e : enum_t) (name : str) (value : Z) : enum_t * res unit :=
  let m := m_insert name value (en_values e) in
  match m_find name (en_values e) with
  | Some v => if (v =? value)%Z then (En value m, Ok tt) else (En (en_last e) m, Throw EAlreadyExists)
  | None => (En value m, Ok tt)
  end.
(** Enum::get(name), typemodel.cc:491-498. *)
Definition enum_value (e : enum_t) (name : str) : res Z :=
  match m_find name (en_values e) with Some v => Ok v | None => Throw ESymbolNotFound end.
(** Enum::get(value), typemodel.cc:499-508. *)
Fixpoint first_with (v : Z) (m : smap Z) : option str :=
  match m with [] => None | (k, x) :: r => if (x =? v)%Z then Some k else first_with v r end.
Definition enum_symbol (e : enum_t) (value : Z) : res str :=
  match first_with value (en_values e) with Some k => Ok k | None => Throw EValueNotFound end.
(** Enum::names, typemodel.cc:509-516. *)
Definition enum_names (e : enum_t) : list str := map fst (en_values e).

(** ** Compound: m_size and m_fields. The type of a field is represented by a [ty]. *)
Record fld := Fld { fl_name : str; fl_type : ty; fl_off : N }.
Record comp_t := Cmp { c_size : N; c_fields : list fld }.
(** Compound::Compound, typemodel.cc:291-292. *)
Definition comp_new : comp_t := Cmp 0 [].
(** Compound::addField, typemodel.cc:367-378 (the size_t sum wraps around). *)
Definition comp_add (c : comp_t) (name : str) (t : ty) (off : N) : comp_t :=
  let new_size := wadd off (sizeof t) in
  Cmp (if c_size c <? new_size then new_size else c_size c) (c_fields c ++ [Fld name t off]).
(** Type::setSize, typemodel.cc:49. *)
Definition comp_setSize (c : comp_t) (n : N) : comp_t := Cmp n (c_fields c).
(** Compound::getField, typemodel.cc:295-303. *)
Fixpoint find_fld (name : str) (l : list fld) : option fld :=
  match l with [] => None | f :: r => if seqb (fl_name f) name then Some f else find_fld name r end.
Definition comp_getField (c : comp_t) (name : str) : option fld := find_fld name (c_fields c).
(** Conversion of a size_t to int (gcc: modulo 2^32). *)
Definition to_int (n : N) : Z :=
  let m := Z.of_N (n mod 4294967296) in if (m <? 2147483648)%Z then m else (m - 4294967296)%Z.
(** Compound::getTrailingPadding, typemodel.cc:321-337. *)
Fixpoint max_end (l : list fld) (m : Z) : Z :=
  match l with
  | [] => m
  | f :: r => let o := to_int (wadd (fl_off f) (sizeof (fl_type f))) in max_end r (if (m <? o)%Z then o else m)
  end.
Definition comp_trailing (c : comp_t) : N :=
  match c_fields c with
  | [] => c_size c mod 4294967296
  | l => (Z.to_N ((Z.of_N (c_size c) - max_end l 0) mod 4294967296)%Z)
  end.
(** fieldOffsetOrdering and normalizeFieldOrder, typemodel.cc:304-319: std::list::sort is stable, which is modelled by an insertion sort. *)
Definition fld_lt (a b : fld) : bool :=
  if fl_off a <? fl_off b then true else if fl_off a =? fl_off b then slt (fl_name a) (fl_name b) else false.
Fixpoint fld_insert (f : fld) (l : list fld) : list fld :=
  match l with [] => [f] | g :: r => if fld_lt g f then g :: fld_insert f r else f :: l end.
Fixpoint fld_sort (l : list fld) : list fld := match l with [] => [] | f :: r => fld_insert f (fld_sort r) end.
Definition comp_normalize (c : comp_t) : comp_t := Cmp (c_size c) (fld_sort (c_fields c)).

(** ** MetaData, typemodel.cc:184-242: a map of sets of strings. *)
Definition meta := smap (list str).
Definition md_include (m : meta) (key : str) : bool := match m_find key m with Some _ => true | None => false end.
Definition md_get (m : meta) (key : str) : list str := match m_find key m with Some l => l | None => [] end.
Definition md_add (m : meta) (key value : str) : meta := m_set key (set_insert value (md_get m key)) m.
Definition md_addAll (m : meta) (key : str) (values : list str) : meta :=
  m_set key (fold_left (fun s v => set_insert v s) values (md_get m key)) m.
Definition md_clear (m : meta) (key : str) : meta := m_erase key m.
Definition md_set (m : meta) (key value : str) : meta := md_add (md_clear m key) key value.
Definition md_merge (m other : meta) : meta := fold_left (fun a p => md_addAll a (fst p) (snd p)) other m.

(** ** config_set: m_values and m_children (configset.hh:35-38). A child is known by an identity [C]. *)
Record cset (C : Type) := CS { cs_values : smap str; cs_children : smap C }.
Arguments CS {C}.
Section ConfigSet.
  Context {C : Type}.
  Definition cs_empty : cset C := CS [] [].
  (** configset.cc:15-16 *)
  Definition cs_isempty (s : cset C) : bool := match cs_values s, cs_children s with [], [] => true | _, _ => false end.
  (** configset.cc:56-61 *)
  Definition cs_exists (s : cset C) (n : str) : bool :=
    match m_find n (cs_values s), m_find n (cs_children s) with None, None => false | _, _ => true end.
  (** insert, configset.cc:63-72 *)
  Definition cs_insert (s : cset C) (n v : str) : cset C := CS (mm_insert n v (cs_values s)) (cs_children s).
  Definition cs_insertAll (s : cset C) (n : str) (vs : list str) : cset C := fold_left (fun s v => cs_insert s n v) vs s.
  Definition cs_insertChild (s : cset C) (n : str) (c : C) : cset C := CS (cs_values s) (mm_insert n c (cs_children s)).
  (** erase and set, configset.cc:73-84 *)
  Definition cs_erase (s : cset C) (n : str) : cset C := CS (m_erase n (cs_values s)) (cs_children s).
  Definition cs_set (s : cset C) (n v : str) : cset C := cs_insert (cs_erase s n) n v.
  Definition cs_setAll (s : cset C) (n : str) (vs : list str) : cset C := cs_insertAll (cs_erase s n) n vs.
  (** get<list<string>>, configset.cc:99-112: from multimap::find as long as the key is the same. Which of the elements with
      the key find gives is not specified by C++; [skip] is its position (0 in libstdc++). *)
  Fixpoint cs_from (n : str) (m : smap str) : smap str :=
    match m with [] => [] | (k, v) :: r => if seqb k n then m else cs_from n r end.
  Fixpoint cs_while (n : str) (m : smap str) : list str :=
    match m with [] => [] | (k, v) :: r => if seqb k n then v :: cs_while n r else [] end.
  Definition cs_getList (skip : nat) (s : cset C) (n : str) (def : list str) : list str :=
    match cs_while n (skipn skip (cs_from n (cs_values s))) with [] => def | l => l end.
  (** get<string>, configset.hh: the front of the list. *)
  Definition cs_get (skip : nat) (s : cset C) (n def : str) : str := hd [] (cs_getList skip s n [def]).
  (** children and child, configset.cc:29-54; child: None is the static empty set. *)
  Definition cs_childrenOf (s : cset C) (n : str) : list C := map snd (filter (fun p => seqb (fst p) n) (cs_children s)).
  Definition cs_child (s : cset C) (n : str) : option C := match cs_childrenOf s n with [] => None | c :: _ => Some c end.
End ConfigSet.
