(** * Registry: typelib/registry.cc.

    A type is a [tid] of the heap [H] (Graph.v). A registry operation may throw half-way: it returns the registry it
    leaves and its outcome. *)
From Coq Require Import DecimalString.
From Verif Require Import Base Types NamesSpec Names Graph.
Local Open Scope nat_scope.

(** Registry::RegistryType, registry.hh:94-99. *)
Record entry := Ent { e_type : tid; e_pers : bool; e_src : str }.
(** A std::map from names. TypeMap (m_global, registry.hh:100-104) is ordered by nameSort and kept in this order;
    NameMap (m_current, registry.hh:106) is ordered by std::less, which no function observes. *)
Definition nmap := list (str * entry).
Record reg := Reg { r_global : nmap; r_current : nmap; r_ns : str }.
(** The members of Registry() before the plugins register their types, registry.cc:53-59. *)
Definition reg0 : reg := Reg [] [] [].

(** std::map::find, erase(key), insert for m_current. *)
Fixpoint find_ (n : str) (m : nmap) : option entry :=
  match m with
  | [] => None
  | (k, e) :: r => if seqb k n then Some e else find_ n r
  end.
Definition erase_ (n : str) (m : nmap) : nmap := filter (fun p => negb (seqb (fst p) n)) m.
Definition insert_ (n : str) (e : entry) (m : nmap) : nmap :=
  match find_ n m with Some _ => m | None => (n, e) :: m end.
(** insert and lower_bound for m_global. *)
Fixpoint ginsert (n : str) (e : entry) (m : nmap) : nmap :=
  match m with
  | [] => [(n, e)]
  | (k, x) :: r => if nameSort k n then (k, x) :: ginsert n e r else if nameSort n k then (n, e) :: m else m
  end.
Fixpoint glower (n : str) (m : nmap) : nmap :=
  match m with
  | [] => []
  | (k, x) :: r => if nameSort k n then glower n r else m
  end.

(** The loop of Registry::importNamespace, registry.cc:98-105. *)
Fixpoint import_loop (norm : str) (erase_existing : bool) (it : nmap) (cur : nmap) : nmap :=
  match it with
  | (k, e) :: r =>
      if isInNamespace k norm true then
        let rel := skipn (length norm) k in
        import_loop norm erase_existing r (insert_ rel e (if erase_existing then erase_ rel cur else cur))
      else cur
  | [] => cur
  end.
(** Registry::importNamespace, registry.cc:91-106. *)
Definition import_ (name : str) (erase_existing : bool) (global cur : nmap) : nmap :=
  let norm := getNormalizedNamespace name in import_loop norm erase_existing (glower norm global) cur.
Definition importNamespace (r : reg) (name : str) (erase_existing : bool) : reg :=
  Reg (r_global r) (import_ name erase_existing (r_global r) (r_current r)) (r_ns r).
(** The loop of updateCurrentNameMap over the namespaces, registry.cc:70-77. *)
Fixpoint import_spaces (cur_space : str) (toks : list str) (global cur : nmap) : nmap :=
  match toks with
  | [] => cur
  | t :: ts => let s := cur_space ++ t ++ [slash] in import_spaces s ts global (import_ s true global cur)
  end.
(** Registry::updateCurrentNameMap, registry.cc:62-78. *)
Definition updateCurrentNameMap (r : reg) : reg :=
  let cur := fold_left (fun c p => insert_ (fst p) (snd p) c) (r_global r) [] in
  Reg (r_global r) (import_spaces [slash] (tokens (r_ns r)) (r_global r) (import_ [slash] false (r_global r) cur)) (r_ns r).
(** Registry::setDefaultNamespace, registry.cc:81-89. *)
Definition setDefaultNamespace (r : reg) (space : str) : reg * bool :=
  if negb (isValidNamespace space true) then (r, false)
  else (updateCurrentNameMap (Reg (r_global r) (r_current r) (getNormalizedNamespace space)), true).
(** Registry::getFullName, registry.cc:108-113. *)
Definition getFullName (r : reg) (n : str) : str := if isAbsoluteName n then n else r_ns r ++ n.

(** Registry::get, get_, registry.cc:280-302. *)
Definition get (r : reg) (n : str) : option tid := option_map e_type (find_ n (r_current r)).
(** Registry::has(name, false), registry.cc:259-265. *)
Definition has (r : reg) (n : str) : bool := match find_ n (r_current r) with Some _ => true | None => false end.

(** Registry::isPersistent, registry.cc:311-324. *)
Definition isPersistent (H : heap) (n : str) (t : tid) : bool :=
  if negb (seqb n (o_name (H t))) then true
  else match o_kind (H t) with OPtr _ | OArr _ _ => false | _ => true end.

(** The while loop of Registry::add, registry.cc:348-367. getRelativeName does not throw there. *)
Fixpoint add_loop (H : heap) (n : str) (e : entry) (cur_space : str) (toks : list str) (cur : nmap) : nmap :=
  if (length n <=? length cur_space) || negb (has_prefix cur_space n) then cur
  else
    let rel := match getRelativeName n cur_space with Ok x => x | _ => [] end in
    let cur' := match find_ rel cur with
                | Some x => if nameSort (o_name (H (e_type x))) n then cur else insert_ rel e (erase_ rel cur)
                | None => insert_ rel e (erase_ rel cur)
                end in
    match toks with
    | [] => cur'
    | t :: ts => add_loop H n e (cur_space ++ t ++ [slash]) ts cur'
    end.
(** Registry::add(name, type, persistent, source_id), registry.cc:326-368. *)
Definition add_named (H : heap) (r : reg) (n : str) (e : entry) : reg * res unit :=
  if negb (isValidTypename n true) then (r, Throw EBadName)
  else
    let old := get r n in
    match old with
    | Some t => if t =? e_type e then (r, Ok tt) else (r, Throw EAlreadyDefined)
    | None =>
        let cur := insert_ n e (r_current r) in
        (Reg (ginsert n e (r_global r)) (add_loop H n e [slash] (tokens (r_ns r)) cur) (r_ns r), Ok tt)
    end.

(** RegistryIterator::isAlias, registryiterator.hh:34. *)
Definition isAlias (H : heap) (p : str * entry) : bool := negb (seqb (fst p) (o_name (H (e_type (snd p))))).
(** operator< of std::string (unsigned characters), insertion in a std::set<std::string>. *)
Fixpoint slt (a b : str) : bool :=
  match a, b with
  | _, [] => false
  | [], _ :: _ => true
  | x :: a', y :: b' => if ceqb x y then slt a' b' else nat_of_ascii x <? nat_of_ascii y
  end.
Fixpoint set_insert (n : str) (l : list str) : list str :=
  match l with
  | [] => [n]
  | k :: r => if slt k n then k :: set_insert n r else if slt n k then n :: l else l
  end.
(** Registry::getAliasesOf, registry.cc:664-674. *)
Definition getAliasesOf (H : heap) (r : reg) (t : tid) : list str :=
  fold_left (fun s p => set_insert (fst p) s) (filter (fun p => isAlias H p && (e_type (snd p) =? t)) (r_global r)) [].

(** ostream << size_t *)
Definition dec (n : N) : str := s_ (NilZero.string_of_uint (N.to_uint n)).
(** Array::getArrayName, typemodel.cc:529-534; Pointer::getPointerName, typemodel.cc:563-564; Vector::fullName,
    containers.cc:17-18. *)
Definition getArrayName (n : str) (dim : N) : str := n ++ s_ "[" ++ dec dim ++ s_ "]".
Definition getPointerName (n : str) : str := n ++ s_ "*".
Definition vector_fullName (n : str) : str := s_ "/std/vector<" ++ n ++ s_ ">".
(** The virtual getIndirectTypeName, with the type it is an indirection to; None when modifiedDependencyAliases does
    nothing (Type, typemodel.cc:47; String, containers.hh:92). *)
Definition indirect_name (H : heap) (t : tid) : option (tid * (str -> str)) :=
  match o_kind (H t) with
  | OPtr x => Some (x, getPointerName)
  | OArr d x => Some (x, fun n => getArrayName n d)
  | OCont KVec x => Some (x, vector_fullName)
  | _ => None
  end.

Definition seq_ (x : reg * res unit) (f : reg -> reg * res unit) : reg * res unit :=
  match x with (r, Ok _) => f r | (r, e) => (r, e) end.
Fixpoint each {A} (f : reg -> A -> reg * res unit) (l : list A) (r : reg) : reg * res unit :=
  match l with
  | [] => (r, Ok tt)
  | x :: l' => seq_ (f r x) (each f l')
  end.
(** Registry::alias, registry.cc:402-433, and Indirect::modifiedDependencyAliases, typemodel.cc:276-287. *)
Definition depends_on (H : heap) (t b : tid) : bool := existsb (Nat.eqb b) (dependsOn H t).
Fixpoint alias_ (fuel : nat) (H : heap) (r : reg) (base newname : str) (pers : bool) (src : str) : reg * res unit :=
  match fuel with
  | 0 => (r, Fuel)
  | S f =>
    if negb (isValidTypename newname true) then (r, Throw EBadName)
    else match get r base with
         | None => (r, Throw EUndefined)
         | Some b =>
             seq_ (add_named H r newname (Ent b pers src)) (fun r1 =>
               let triggers := map (fun p => e_type (snd p))
                 (filter (fun p => negb (isAlias H p) && depends_on H (e_type (snd p)) b) (r_global r1)) in
               each (mda f H) triggers r1)
         end
  end
with mda (fuel : nat) (H : heap) (r : reg) (t : tid) : reg * res unit :=
  match fuel with
  | 0 => (r, Fuel)
  | S f =>
    match indirect_name H t with
    | None => (r, Ok tt)
    | Some (x, mk) =>
        each (fun r a => if has r (mk a) then (r, Ok tt) else alias_ f H r (o_name (H t)) (mk a) false []) (getAliasesOf H r x) r
    end
  end.
(** The other alias(), registry.cc:393-400. *)
Definition alias (fuel : nat) (H : heap) (r : reg) (base newname src : str) : reg * res unit :=
  match get r base with
  | None => (r, Throw EUndefined)
  | Some b => alias_ fuel H r base newname (isPersistent H newname b) src
  end.
(** Registry::add(type, persistent, source_id), registry.cc:375-391. *)
Definition add_type (fuel : nat) (H : heap) (r : reg) (t : tid) (pers : bool) (src : str) : reg * res unit :=
  seq_ (add_named H r (o_name (H t)) (Ent t pers src)) (fun r1 =>
    if existsb (fun d => negb (match getAliasesOf H r1 d with [] => true | _ => false end)) (dependsOn H t)
    then mda fuel H r1 t else (r1, Ok tt)).
(** Registry::add(type, source_id), registry.cc:370-373. *)
Definition add (fuel : nat) (H : heap) (r : reg) (t : tid) (src : str) : reg * res unit :=
  add_type fuel H r t (isPersistent H (o_name (H t)) t) src.

(** Registry::removeAlias, registry.cc:435-449. *)
Definition removeAlias (H : heap) (r : reg) (n : str) : reg * res unit :=
  match find_ n (r_global r) with
  | None => (r, Throw ERuntime)
  | Some e => if seqb (o_name (H (e_type e))) n then (r, Throw ERuntime)
              else (updateCurrentNameMap (Reg (erase_ n (r_global r)) (r_current r) (r_ns r)), Ok tt)
  end.
(** Registry::clearAliases, registry.cc:451-464. *)
Definition clearAliases (H : heap) (r : reg) : reg :=
  updateCurrentNameMap (Reg (filter (fun p => negb (isAlias H p)) (r_global r)) (r_current r) (r_ns r)).
(** Registry::clear, registry.cc:467-483, with the sequence of deleted objects (delete of a null pointer is a no-op). *)
Definition clear (H : heap) (r : reg) : reg * list tid :=
  (Reg [] [] (r_ns r), map (fun p => e_type (snd p)) (filter (fun p => negb (isAlias H p)) (r_global r))).

(** Registry::reverseDepends, registry.cc:595-626. *)
Definition mem (t : tid) (l : list tid) : bool := existsb (Nat.eqb t) l.
Definition rdep_step (H : heap) (global : nmap) (result queue : list tid) : list tid :=
  map (fun p => e_type (snd p))
    (filter (fun p => let t := e_type (snd p) in
        negb (isAlias H p) && negb (mem t result || mem t queue) && existsb (fun q => mem q (dependsOn H t)) queue) global).
Fixpoint rdep_loop (fuel : nat) (H : heap) (global : nmap) (result queue : list tid) : res (list tid) :=
  match fuel with
  | 0 => Fuel
  | S f =>
    match queue with
    | [] => Ok result
    | _ => rdep_loop f H global (queue ++ result) (rdep_step H global result queue)
    end
  end.
Definition reverseDepends (fuel : nat) (H : heap) (r : reg) (t : tid) : res (list tid) := rdep_loop fuel H (r_global r) [] [t].
(** Registry::remove, registry.cc:641-662. *)
Definition remove (fuel : nat) (H : heap) (r : reg) (t : tid) : res (reg * list tid) :=
  ts <- reverseDepends fuel H r t ;;
  Ok (Reg (filter (fun p => negb (mem (e_type (snd p)) ts)) (r_global r))
          (filter (fun p => negb (mem (e_type (snd p)) ts)) (r_current r)) (r_ns r), ts).

(** Registry::isSame, registry.cc:553-573. Incrementing m_global.end() is undefined behaviour. *)
Definition reg_isSame (fuel : nat) (H : heap) (a b : reg) : res bool :=
  if negb (length (r_global a) =? length (r_global b)) then Ok false
  else match r_global a, r_global b with
       | [], _ => Ok true
       | (_, x) :: _, (_, y) :: _ =>
           ok <- isSame fuel H (e_type x) (e_type y) ;;
           if ok then UB UOther else Ok false
       | _ :: _, [] => UB UOther
       end.
