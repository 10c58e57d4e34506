(** * RbExport: bindings/ruby/lib/typelib/registry_export.rb.

    Objects that RegistryExport extends: the module itself, type classes (one per type), delegates of Ruby classes and Namespace objects.
    Method names that the objects have already do not reach method_missing and are left out; snakecase and camelcase (of the facets
    library) are parameters. The registry is a list of entries (name, name of the type): the type itself if they are equal, an alias
    otherwise; registry.each without :with_aliases gives the types with the prefix (C18) in the order of the list. *)
From Verif Require Import Base NamesSpec Names RbExportSpec.

Inductive what := WRoot (name : str) | WType (t : str) | WClass (name : str) | WNamespace.
Record obj := Obj { o_what : what; o_prefix : str; o_cache : list ((option str * list str) * nat) }.
Record est := ES { e_types : list (str * str); e_objs : list obj; e_frozen : option str; e_handles : list nat }.
Definition key := (option str * list str)%type.
Definition key_dec (a b : key) : {a = b} + {a <> b}.
Proof. destruct a as [x l], b as [y l']. destruct (list_eq_dec str_dec l l') as [-> |N]; [|right; congruence]. destruct x as [x|], y as [y|]; try (right; congruence); [|left; reflexivity]. destruct (str_dec x y) as [-> |N]; [left; reflexivity|right; congruence]. Defined.
Fixpoint cached (c : list (key * nat)) (k : key) : option nat := match c with [] => None | (k', v) :: r => if key_dec k' k then Some v else cached r k end.
(** Module#name, Type.name, and the name of the class a delegate stands for; Namespace objects are anonymous. *)
Definition obj_name (w : what) : option str := match w with WRoot n => Some n | WType t => Some t | WClass k => Some k | WNamespace => None end.
Fixpoint upd_nth {A} (l : list A) (i : nat) (x : A) : list A := match l, i with [], _ => [] | _ :: t, O => x :: t | a :: t, S j => a :: upd_nth t j x end.

Section Export.
  Variable snake camel : str -> str.
  Variable export : str -> exported.
  (** registry.each(prefix) *)
  Definition each (types : list (str * str)) (p : str) : list str :=
    map fst (filter (fun e => if str_dec (fst e) (snd e) then starts p (fst e) else false) types).
  (** each_candidate_name, registry_export.rb:73-83 *)
  Definition candidates (c : call) : list str :=
    if c_const c then [text c; snake (c_m c) ++ targs (c_args c); camel (c_m c) ++ targs (c_args c)] else [text c].
  Fixpoint first_some {A B} (f : A -> option B) (l : list A) : option B :=
    match l with [] => None | x :: r => match f x with Some y => Some y | None => first_some f r end end.
  (** find_type, registry_export.rb:109-129: the regexp is built once, with the prefix of the first search that needs it (flag o). *)
  Definition find_type (s : est) (p : str) (c : call) : option str * option str :=
    match first_some (fun b => entry (e_types s) (p ++ b)) (candidates c) with
    | Some t => (Some t, e_frozen s)
    | None =>
        if c_const c then
          match each (e_types s) p with
          | [] => (None, e_frozen s)
          | l => let f := match e_frozen s with Some f => f | None => p end in
                 (find (fun t => starts f t && negb (length (skipn (length f) t) =? 0)%nat && forallb (fun x => negb (ceqb x slash)) (skipn (length f) t) &&
                                 (if str_dec (snake (getTypename t)) (snake (c_m c) ++ targs (c_args c)) then true else false)) l, Some f)
          end
        else (None, e_frozen s)
    end.
  (** find_namespace, registry_export.rb:85-107 *)
  Definition find_namespace (types : list (str * str)) (p : str) (c : call) : option str :=
    match find (fun b => match each types (p ++ b ++ [slash]) with [] => false | _ => true end) (candidates c) with
    | Some b => Some b
    | None =>
        if c_const c then
          let ps := splitTypename p in
          first_some (fun t => let l := splitTypename t in
                               if list_eq_dec str_dec (firstn (length ps) l) ps then
                                 match nth_error l (length ps) with
                                 | Some b => if str_dec (snake b) (snake (text c)) then Some b else None
                                 | None => None
                                 end
                               else None) (each types p)
        else None
    end.
  Definition set_cache (objs : list obj) (id : nat) (k : key) (v : nat) : list obj :=
    match nth_error objs id with Some o => upd_nth objs id (Obj (o_what o) (o_prefix o) ((k, v) :: o_cache o)) | None => objs end.
  Fixpoint type_obj (objs : list obj) (i : nat) (t : str) : option nat :=
    match objs with
    | [] => None
    | o :: r => match o_what o with WType t' => if str_dec t' t then Some i else type_obj r (S i) t | _ => type_obj r (S i) t end
    end.
  (** setup_export_type, registry_export.rb:145-153 (and initialize_registry_export, :53-57, reset_registry_export, :41-51): a type class
      is the same object however it was reached, with a new prefix and an empty cache. *)
  Definition setup (objs : list obj) (x : exported) (prefix : str) : list obj * nat :=
    match x with
    | XType t => match type_obj objs 0 t with
                 | Some i => (upd_nth objs i (Obj (WType t) prefix []), i)
                 | None => (objs ++ [Obj (WType t) prefix []], length objs)
                 end
    | XClass k => (objs ++ [Obj (WClass k) prefix []], length objs)
    end.
  (** resolve_call_from_exported_registry, registry_export.rb:155-187. The cache of the object is taken before setup_export_type: if that
      is the object itself, the entry goes to the old cache. *)
  Definition resolve (s : est) (id : nat) (c : call) : est * option nat :=
    match nth_error (e_objs s) id with
    | None => (s, None)
    | Some o =>
        match cached (o_cache o) (Some (c_m c), c_args c) with
        | Some i => (s, Some i)
        | None =>
            match find_type s (o_prefix o) c with
            | (Some t, f) =>
                let (objs, i) := setup (e_objs s) (export t) (o_prefix o ++ getTypename t ++ [slash]) in
                (ES (e_types s) (if Nat.eqb i id then objs else set_cache objs id (Some (c_m c), c_args c) i) f (e_handles s), Some i)
            | (None, f) =>
                match find_namespace (e_types s) (o_prefix o) c with
                | Some b =>
                    let i := length (e_objs s) in
                    (ES (e_types s) (set_cache (e_objs s ++ [Obj WNamespace (o_prefix o ++ b ++ [slash]) []]) id (obj_name (o_what o), []) i) f (e_handles s), Some i)
                | None => (ES (e_types s) (e_objs s) f (e_handles s), None)
                end
            end
        end
    end.
  Definition shown (o : obj) : eresult := match o_what o with WType t => EType t | WClass k => EClass k | _ => ENamespace (o_prefix o) end.
  (** method_missing and const_missing, registry_export.rb:189-203, 24-34 *)
  Definition e_step (s : est) (o : eop) : est * eresult :=
    match o with
    | ERegister n c => (ES ((n, c) :: e_types s) (e_objs s) (e_frozen s) (e_handles s), EDone)
    | ERemove n => (ES (filter (fun e => if str_dec (snd e) n then false else true) (e_types s)) (e_objs s) (e_frozen s) (e_handles s), EDone)
    | ECall h c =>
        match nth_error (e_handles s) h with
        | None => (s, ENotFound)
        | Some id =>
            match resolve s id c with
            | (s', Some i) => match nth_error (e_objs s') i with
                              | Some o => (ES (e_types s') (e_objs s') (e_frozen s') (e_handles s' ++ [i]), shown o)
                              | None => (s', ENotFound)
                              end
            | (s', None) => (s', ENotFound)
            end
        end
    end.
  Fixpoint e_run (s : est) (l : list eop) : list eresult := match l with [] => [] | o :: t => let (s', x) := e_step s o in x :: e_run s' t end.
  (** export_to_ruby(Types), registry.rb:110-113 *)
  Definition e_start (name : str) : est := ES [] [Obj (WRoot name) [slash] []] None [0%nat].
End Export.
