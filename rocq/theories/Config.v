(** * Config: configuration objects (typelib/utilmm/configset.hh, configset.cc). *)
From Verif Require Import Base Names Graph Registry Smap.
Local Open Scope nat_scope.

(** m_values (configset.hh:37-38) and m_children (configset.hh:39-40; a child is known by an identity). The parent pointer is
    not modelled (no method of the class uses it but the accessors). *)
Record config := Config { m_values : smap str; m_children : smap nat }.
Definition config0 : config := Config [] [].

(** configset.cc:63-64 *)
Definition insert (c : config) (name value : str) : config := Config (mm_insert name value (m_values c)) (m_children c).
(** configset.cc:65-70 *)
Definition insert_list (c : config) (name : str) (values : list str) : config := fold_left (fun c v => insert c name v) values c.
(** configset.cc:71-72 *)
Definition insert_child (c : config) (name : str) (child : nat) : config := Config (m_values c) (mm_insert name child (m_children c)).
(** configset.cc:83-84; std::multimap::erase(key) erases all the values of the key *)
Definition erase (c : config) (name : str) : config := Config (m_erase name (m_values c)) (m_children c).
(** configset.cc:73-77 *)
Definition set_ (c : config) (name value : str) : config := insert (erase c name) name value.
(** configset.cc:78-82 *)
Definition set_list (c : config) (name : str) (values : list str) : config := insert_list (erase c name) name values.
(** configset.cc:15-16 *)
Definition empty (c : config) : bool := match m_values c, m_children c with [], [] => true | _, _ => false end.
(** configset.cc:30-47: equal_range *)
Definition children (c : config) (name : str) : list nat := map snd (filter (fun p => seqb (fst p) name) (m_children c)).
(** configset.cc:48-55; None is the (static) empty set *)
Definition child (c : config) (name : str) : option nat := match children c name with [] => None | x :: _ => Some x end.
(** configset.cc:57-62 *)
Definition exists_ (c : config) (name : str) : bool :=
  (match m_find name (m_values c) with Some _ => true | None => false end || match m_find name (m_children c) with Some _ => true | None => false end)%bool.

(** configset.cc:99-111: from find(name) (libstdc++ gives the first value of the key) as long as the key is the name *)
Fixpoint from_find (name : str) (m : smap str) : smap str :=
  match m with [] => [] | (k, v) :: r => if seqb k name then m else from_find name r end.
Fixpoint while_key (name : str) (m : smap str) : list str :=
  match m with [] => [] | (k, v) :: r => if seqb k name then v :: while_key name r else [] end.
Definition get_strings (c : config) (name : str) (defval : list str) : list str :=
  match while_key name (from_find name (m_values c)) with [] => defval | l => l end.
(** configset.hh:115-128: lists of any type T, given by its conversion from strings *)
Definition get_list {T} (convert : str -> res T) (c : config) (name : str) (defval : list T) : res (list T) :=
  match get_strings c name [] with
  | [] => Ok defval
  | vs => fold_left (fun a v => l <- a ;; x <- convert v ;; Ok (l ++ [x])) vs (Ok [])
  end.
(** configset.hh:130-138 *)
Definition get_one {T} (convert : str -> res T) (c : config) (name : str) (defval : T) : res T :=
  l <- get_list convert c name [defval] ;; match l with [] => UB UOther | x :: _ => Ok x end.
(** configset.cc:88-96; the exception is boost::bad_lexical_cast *)
Definition convert_bool (v : str) : res bool :=
  if (seqb v (s_ "true") || seqb v (s_ "1"))%bool then Ok true else if (seqb v (s_ "false") || seqb v (s_ "0"))%bool then Ok false else Throw EStd.
(** configset.hh:103-106 for T = std::string: lexical_cast is a copy *)
Definition convert_string (v : str) : res str := Ok v.

(** The calls that change a set. *)
Inductive op := Set_ (n v : str) | SetList (n : str) (vs : list str) | Insert (n v : str) | InsertList (n : str) (vs : list str) | Erase (n : str) | InsertChild (n : str) (i : nat).
Definition step (c : config) (o : op) : config :=
  match o with
  | Set_ n v => set_ c n v | SetList n vs => set_list c n vs | Insert n v => insert c n v | InsertList n vs => insert_list c n vs
  | Erase n => erase c n | InsertChild n i => insert_child c n i
  end.
Definition run (h : list op) : config := fold_left step h config0.
