(** * Merge: Type::merge (typelib/typemodel.cc:104-138), Registry::merge, minimal (typelib/registry.cc:133-257). *)
From Verif Require Import Base Types NamesSpec Names Registry World TypeBuilder.
From Verif Require Import Graph.
Local Open Scope nat_scope.

(** The objects, the registry that receives the types, the RecursionStack (typemodel.hh:110) and the objects deleted so
    far. A call that throws leaves the state it has reached. *)
Record mstate := MS { m_store : store; m_reg : reg; m_stack : stack; m_freed : list tid }.
Definition MM (A : Type) : Type := mstate -> mstate * res A.
Definition mret {A} (x : res A) : MM A := fun st => (st, x).
Definition mbind {A B} (m : MM A) (k : A -> MM B) : MM B := fun st =>
  match m st with
  | (st', Ok a) => k a st'
  | (st', Throw e) => (st', Throw e)
  | (st', UB u) => (st', UB u)
  | (st', Fuel) => (st', Fuel)
  end.
Notation "x <~~ m ; c" := (mbind m (fun x => c)) (at level 100, m at next level, right associativity).
Definition m_heap (st : mstate) : heap := s_heap (m_store st).
Definition asks {A} (g : mstate -> A) : MM A := fun st => (st, Ok (g st)).
Definition m_obj (t : tid) : MM tobj := asks (fun st => m_heap st t).
(** operator new. *)
Definition m_new (o : tobj) : MM tid := fun st => (MS (alloc (m_store st) o) (m_reg st) (m_stack st) (m_freed st), Ok (s_next (m_store st))).
(** Changes of an object. *)
Definition m_set (t : tid) (o : tobj) : MM unit := fun st => (MS (Store (upd (m_heap st) t o) (s_next (m_store st))) (m_reg st) (m_stack st) (m_freed st), Ok tt).
(** Type::setSize, typemodel.cc:49. *)
Definition m_setSize (t : tid) (n : N) : MM unit := o <~~ m_obj t ; m_set t (Obj (o_name o) n (o_kind o)).
(** stack.insert, stack.erase of a std::map. *)
Definition stack_insert (k v : tid) (st : stack) : stack := match lookup k st with Some _ => st | None => (k, v) :: st end.
Definition stack_erase (k : tid) (st : stack) : stack := filter (fun p => negb (fst p =? k)) st.
Definition m_push (k v : tid) : MM unit := fun st => (MS (m_store st) (m_reg st) (stack_insert k v (m_stack st)) (m_freed st), Ok tt).
(** Registry::add(type), registry.cc:370-391. *)
Definition m_add (f : nat) (t : tid) : MM unit := fun st =>
  match add f (m_heap st) (m_reg st) t [] with (r', x) => (MS (m_store st) r' (m_stack st) (m_freed st), x) end.
(** Registry::has(name), registry.cc:259-269, with the default build_if_missing = true. *)
Definition m_has (n : str) : MM bool := fun st =>
  if has (m_reg st) n then (st, Ok true)
  else (st, b <- getBaseType (m_reg st) (getFullName (m_reg st) n) ;; Ok (match b with Some _ => true | None => false end)).
(** dynamic_cast<Container const&>( *registry.get(n)), containers.cc:381-386, 494; [e]: what is thrown for a type that is
    not a container. *)
Definition m_container (n : str) (e : exn) : MM tid := fun st =>
  match get (m_reg st) n with
  | None => (st, UB UOther)
  | Some t => match o_kind (m_heap st t) with OCont _ _ => (st, Ok t) | _ => (st, Throw e) end
  end.
(** Vector::factory, containers.cc:367-388 (sizeof(std::vector<void*>) is 24; the layout of the elements that the
    constructor stores is left out). *)
Definition vector_factory (f : nat) (on : tid) : MM tid :=
  o <~~ m_obj on ;
  h <~~ m_has (vector_fullName (o_name o)) ;
  if h then m_container (vector_fullName (o_name o)) EBadCategory
  else t <~~ m_new (Obj (vector_fullName (o_name o)) 24 (OCont KVec on)) ; _ <~~ m_add f t ; mret (Ok t).
(** String::factory, containers.cc:491-515 (sizeof(std::string) is 32). *)
Definition string_factory (f : nat) (on : tid) : MM tid :=
  h <~~ m_has (s_ "/std/string") ;
  if h then m_container (s_ "/std/string") EStd
  else
    h8 <~~ m_has (s_ "/int8_t") ;
    e <~~ (if h8 then e <~~ asks (fun st => get (m_reg st) (s_ "/int8_t")) ; mret (match e with Some e => Ok e | None => UB UOther end)
          else t <~~ m_new (Obj (s_ "/int8_t") 1 (ONum SInt)) ; _ <~~ m_add f t ; mret (Ok t)) ;
    t <~~ m_new (Obj (s_ "/std/string") 32 (OCont KStr e)) ; _ <~~ m_add f t ; mret (Ok t).

(** Type::try_merge, typemodel.cc:109-126: None is the null pointer. The comparison uses, and fills, the stack of the
    merge. *)
Definition try_merge (f : nat) (a : tid) : MM (option tid) := fun st =>
  match lookup a (m_stack st) with
  | Some b => (st, Ok (Some b))
  | None =>
      match get (m_reg st) (o_name (m_heap st a)) with
      | None => (st, Ok None)
      | Some old =>
          match do_compare f (m_heap st) old a true (m_stack st) with
          | Ok (true, sk) => (MS (m_store st) (m_reg st) (stack_insert a old sk) (m_freed st), Ok (Some old))
          | Ok (false, sk) => (MS (m_store st) (m_reg st) sk (m_freed st), Throw EDefinitionMismatch)
          | Throw e => (st, Throw e)
          | UB u => (st, UB u)
          | Fuel => (st, Fuel)
          end
      end
  end.
(** Compound::addField, typemodel.cc:366-378. *)
Definition add_field (c : tid) (n : str) (t : tid) (off : N) : MM unit :=
  o <~~ m_obj c ;
  ot <~~ m_obj t ;
  let new_size := ((off + o_size ot) mod 2 ^ 64)%N in
  m_set c (Obj (o_name o) (if (o_size o <? new_size)%N then new_size else o_size o)
               (OComp (match o_kind o with OComp fs => fs | _ => [] end ++ [Fld n off t]))).
(** The loop of Compound::do_merge, typemodel.cc:385-386. *)
Fixpoint merge_fields (rec : tid -> MM tid) (c : tid) (fs : list fld) : MM unit :=
  match fs with
  | [] => mret (Ok tt)
  | x :: r => t <~~ rec (f_type x) ; _ <~~ add_field c (f_name x) t (f_off x) ; merge_fields rec c r
  end.
(** catch(...) { stack.erase(a); throw; }, and the unique_ptr that deletes the new compound, typemodel.cc:381, 388-391. *)
Definition on_throw (a c : tid) (m : MM unit) : MM unit := fun st =>
  match m st with
  | (st', Throw e) => (MS (m_store st') (m_reg st') (stack_erase a (m_stack st')) (c :: m_freed st'), Throw e)
  | x => x
  end.
(** The virtual do_merge; [rec] is merge. NullType, OpaqueType, typemodel.hh:263, 276; Numeric, typemodel.cc:249-250;
    Compound, typemodel.cc:379-395; Enum, typemodel.cc:517-518; Array, typemodel.cc:544-550; Pointer, typemodel.cc:570-576;
    Container, typemodel.cc:616-626. Metadata are left out. *)
Definition do_merge (rec : tid -> MM tid) (f : nat) (a : tid) : MM tid :=
  o <~~ m_obj a ;
  match o_kind o with
  | ONull | OOpaque | ONum _ | OEnum _ => m_new o
  | OComp fs =>
      c <~~ m_new (Obj (o_name o) 0 (OComp [])) ;
      _ <~~ m_push a c ;
      _ <~~ on_throw a c (merge_fields rec c fs) ;
      _ <~~ m_setSize c (o_size o) ;
      mret (Ok c)
  | OArr d x => t <~~ rec x ; b <~~ asks (fun st => array_obj (m_heap st) t d) ; m_new b
  | OPtr x => t <~~ rec x ; b <~~ asks (fun st => pointer_obj (m_heap st) t) ; m_new b
  | OCont k x =>
      t <~~ rec x ;
      b <~~ (match k with KVec => vector_factory f t | KStr => string_factory f t end) ;
      _ <~~ m_setSize b (o_size o) ;
      mret (Ok b)
  end.
(** Type::merge(registry, stack), typemodel.cc:127-138. *)
Definition type_merge (rec : tid -> MM tid) (f : nat) (a : tid) : MM tid :=
  old <~~ try_merge f a ;
  match old with
  | Some b => mret (Ok b)
  | None => b <~~ do_merge rec f a ; _ <~~ m_push a b ; _ <~~ m_add f b ; mret (Ok b)
  end.
(** The virtual merge(registry, stack): Indirect, typemodel.cc:265-274; Type otherwise. [d] bounds the depth of the calls,
    [f] the recursions of comparisons and registries. *)
Fixpoint merge_ (d f : nat) (a : tid) : MM tid :=
  match d with
  | 0 => mret Fuel
  | S d' =>
    o <~~ m_obj a ;
    match o_kind o with
    | OPtr x | OArr _ x | OCont _ x =>
        old <~~ try_merge f a ;
        match old with
        | Some b => mret (Ok b)
        | None => _ <~~ merge_ d' f x ; type_merge (merge_ d' f) f a
        end
    | _ => type_merge (merge_ d' f) f a
    end
  end.

(** ** Registries *)
Fixpoint mall {A} (m : A -> MM unit) (l : list A) : MM unit :=
  match l with [] => mret (Ok tt) | x :: r => _ <~~ m x ; mall m r end.
Definition m_isAlias (p : str * entry) : MM bool := asks (fun st => isAlias (m_heap st) p).
(** Registry::alias with all its arguments, registry.cc:402-433. *)
Definition m_alias (f : nat) (base n : str) (pers : bool) (src : str) : MM unit := fun st =>
  match alias_ f (m_heap st) (m_reg st) base n pers src with (r', x) => (MS (m_store st) r' (m_stack st) (m_freed st), x) end.
(** The body of the first loop of Registry::merge, registry.cc:139-143. *)
Definition merge_entry (d f : nat) (p : str * entry) : MM unit :=
  al <~~ m_isAlias p ;
  if al then mret (Ok tt) else _ <~~ merge_ d f (e_type (snd p)) ; mret (Ok tt).
(** The body of the second loop, registry.cc:145-164. *)
Definition merge_alias (f : nat) (p : str * entry) : MM unit :=
  al <~~ m_isAlias p ;
  if negb al then mret (Ok tt)
  else
    old <~~ asks (fun st => get (m_reg st) (fst p)) ;
    match old with
    | Some t => same <~~ (fun st => (st, isSame f (m_heap st) t (e_type (snd p)))) ;
                if same then mret (Ok tt) else mret (Throw EDefinitionMismatch)
    | None => o <~~ m_obj (e_type (snd p)) ; m_alias f (o_name o) (fst p) (e_pers (snd p)) (e_src (snd p))
    end.
(** Registry::setSourceID, registry.cc:676-684 (the metadata left out). *)
Definition set_source (n src : str) (g : nmap) : nmap :=
  map (fun p => if seqb (fst p) n then (fst p, Ent (e_type (snd p)) (e_pers (snd p)) src) else p) g.
(** The body of the loop of Registry::copySourceIDs, registry.cc:182-191; find() searches m_global. *)
Definition copy_source (H : heap) (r : reg) (p : str * entry) : reg :=
  match find_ (fst p) (r_global r) with
  | None => r
  | Some e => match e_src (snd p), e_src e with
              | _ :: _, [] => Reg (set_source (o_name (H (e_type e))) (e_src (snd p)) (r_global r)) (r_current r) (r_ns r)
              | _, _ => r
              end
  end.
Definition copySourceIDs (H : heap) (r other : reg) : reg := fold_left (copy_source H) (r_global other) r.
Definition m_copySourceIDs (other : reg) : MM unit := fun st =>
  (MS (m_store st) (copySourceIDs (m_heap st) (m_reg st) other) (m_stack st) (m_freed st), Ok tt).
(** Registry::merge, registry.cc:133-166. *)
Definition merge_body (d f : nat) (a : reg) : MM unit :=
  _ <~~ mall (merge_entry d f) (r_global a) ;
  _ <~~ mall (merge_alias f) (r_global a) ;
  m_copySourceIDs a.
Definition reg_merge (d f : nat) (s : store) (b a : reg) : mstate * res unit := merge_body d f a (MS s b [] []).
(** Registry::minimal(name, with_aliases), registry.cc:194-217; [b]: new Registry, with what plugins put in it.
    Type::merge(registry) has its own stack, typemodel.cc:104-108. *)
Definition minimal_alias (f : nat) (p : str * entry) : MM unit :=
  al <~~ m_isAlias p ;
  if negb al then mret (Ok tt)
  else
    o <~~ m_obj (e_type (snd p)) ;
    h <~~ asks (fun st => has (m_reg st) (o_name o)) ;
    if h then
      (* alias(base, newname): persistent as isPersistent says, registry.cc:393-400 *)
      fun st => match alias f (m_heap st) (m_reg st) (o_name o) (fst p) [] with (r', x) => (MS (m_store st) r' (m_stack st) (m_freed st), x) end
    else mret (Ok tt).
Definition minimal (d f : nat) (s : store) (b a : reg) (name : str) (with_aliases : bool) : mstate * res unit :=
  (match get a name with
   | None => mret (Throw ERuntime)
   | Some t =>
       _ <~~ merge_ d f t ;
       _ <~~ (if with_aliases then mall (minimal_alias f) (r_global a) else mret (Ok tt)) ;
       m_copySourceIDs a
   end) (MS s b [] []).
(** Registry::minimal(auto_types, keep_auto_aliases), registry.cc:219-257. auto_types.has(name) builds the type if it is
    missing; each merge has its own stack. *)
Definition has_build (r : reg) (n : str) : res bool :=
  if has r n then Ok true else b <- getBaseType r (getFullName r n) ;; Ok (match b with Some _ => true | None => false end).
Definition fresh_stack (m : MM unit) : MM unit := fun st =>
  match m (MS (m_store st) (m_reg st) [] (m_freed st)) with (st', x) => (MS (m_store st') (m_reg st') [] (m_freed st'), x) end.
Definition minimal_entry (d f : nat) (auto : reg) (p : str * entry) : MM unit :=
  al <~~ m_isAlias p ;
  if al then mret (Ok tt)
  else
    o <~~ m_obj (e_type (snd p)) ;
    h <~~ mret (has_build auto (o_name o)) ;
    if h then mret (Ok tt) else fresh_stack (_ <~~ merge_ d f (e_type (snd p)) ; mret (Ok tt)).
Definition minimal_auto_alias (f : nat) (auto : reg) (keep : bool) (p : str * entry) : MM unit :=
  al <~~ m_isAlias p ;
  if negb al then mret (Ok tt)
  else
    h <~~ (if keep then mret (Ok false) else mret (has_build auto (fst p))) ;
    if h then mret (Ok tt)
    else
      o <~~ m_obj (e_type (snd p)) ;
      hb <~~ asks (fun st => has (m_reg st) (o_name o)) ;
      if hb then merge_alias f p else mret (Ok tt).
Definition minimal_auto (d f : nat) (s : store) (b a auto : reg) (keep : bool) : mstate * res unit :=
  (_ <~~ mall (minimal_entry d f auto) (r_global a) ;
   _ <~~ mall (minimal_auto_alias f auto keep) (r_global a) ;
   m_copySourceIDs a) (MS s b [] []).
