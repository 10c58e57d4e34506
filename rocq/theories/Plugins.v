(** * Plugins: the plugin manager (typelib/pluginmanager.cc, typelib/pluginmanager.hh). *)
From Verif Require Import Base Names Graph Registry Smap.
Local Open Scope nat_scope.

(** The two kinds of named plugins, and the type definition plugins, are objects known by an identity.
    registerPlugins(manager), the entry point of a plugin library, is the list of the objects it adds. *)
Inductive registration :=
| RegExporter (name : str) (obj : nat)
| RegImporter (name : str) (obj : nat)
| RegDefinition (obj : nat).

(** What the manager sees of the machine: [dir d] lists the directory d (None: directory_iterator throws, because d does
    not exist, is not a directory, cannot be read, or is the empty path); [lib p] loads the library p (None: dlopen or dlsym
    fails). Simplification: listing a directory succeeds or fails as a whole. *)
Record machine := Machine { dir : str -> option (list str); lib : str -> option (list registration); has_path : str -> bool }.

(** PluginManager's members (pluginmanager.hh:47-50); m_library_handles is the list of the libraries; the log of the
    directories given to loadPluginFromDirectory is an observation of the model. *)
Record manager := Manager {
  m_exporters : smap nat; m_importers : smap nat; m_definitions : list nat; m_handles : list str; m_searched : list str }.
Definition manager0 : manager := Manager [] [] [] [] [].

(** pluginmanager.cc:20-21: std::map::insert(...).second *)
Definition add_plugin (m : smap nat) (name : str) (obj : nat) : smap nat * bool :=
  match m_find name m with Some _ => (m, false) | None => (m_insert name obj m, true) end.
(** pluginmanager.cc:23-30 *)
Definition get_plugin (m : smap nat) (name : str) : res nat :=
  match m_find name m with None => Throw ENotFound | Some o => Ok o end.
(** pluginmanager.cc:133-138 *)
Definition add_exporter (g : manager) (name : str) (obj : nat) : manager * bool :=
  let '(m, b) := add_plugin (m_exporters g) name obj in (Manager m (m_importers g) (m_definitions g) (m_handles g) (m_searched g), b).
Definition add_importer (g : manager) (name : str) (obj : nat) : manager * bool :=
  let '(m, b) := add_plugin (m_importers g) name obj in (Manager (m_exporters g) m (m_definitions g) (m_handles g) (m_searched g), b).
(** pluginmanager.cc:139-140 *)
Definition add_definition (g : manager) (obj : nat) : manager :=
  Manager (m_exporters g) (m_importers g) (m_definitions g ++ [obj]) (m_handles g) (m_searched g).
Definition register (g : manager) (x : registration) : manager :=
  match x with
  | RegExporter n o => fst (add_exporter g n o)
  | RegImporter n o => fst (add_importer g n o)
  | RegDefinition o => add_definition g o
  end.

(** pluginmanager.cc:112-131 *)
Definition loadPlugin (M : machine) (g : manager) (p : str) : manager * bool :=
  match lib M p with
  | None => (g, false)
  | Some xs => let g := fold_left register xs g in (Manager (m_exporters g) (m_importers g) (m_definitions g) (m_handles g ++ [p]) (m_searched g), true)
  end.

(** boost::filesystem::path::filename and extension, for the paths a directory iterator gives (never . or ..): what follows
    the last slash, and in it what starts at the last dot. *)
Fixpoint after_slash (acc s : str) : str :=
  match s with [] => rev acc | c :: r => if ceqb c "/" then after_slash [] r else after_slash (c :: acc) r end.
Fixpoint from_dot (best s : str) : str :=
  match s with [] => best | c :: r => from_dot (if ceqb c "." then s else best) r end.
Definition extension (p : str) : str := from_dot [] (after_slash [] p).
(** pluginmanager.cc:97 *)
Definition is_library (p : str) : bool := (seqb (extension p) (s_ ".so") || seqb (extension p) (s_ ".dylib"))%bool.

(** pluginmanager.cc:89-110 (the messages on cerr are not modelled) *)
Definition loadPluginFromDirectory (M : machine) (g : manager) (d : str) : manager * res bool :=
  let g := Manager (m_exporters g) (m_importers g) (m_definitions g) (m_handles g) (m_searched g ++ [d]) in
  match dir M d with
  | None => (g, Throw ERuntime)                         (* boost::filesystem::filesystem_error *)
  | Some ps =>
      let step (a : manager * bool) p := if is_library p then let '(g', b) := loadPlugin M (fst a) p in (g', (snd a || b)%bool) else a in
      let '(g, ok) := fold_left step ps (g, false) in (g, Ok ok)
  end.

(** std::string::find(":"): the position of the first colon *)
Fixpoint find_colon (s : str) : option nat :=
  match s with [] => None | c :: r => if ceqb c ":" then Some 0 else option_map S (find_colon r) end.
(** std::string::find_last_of(":"): the position of the last colon *)
Fixpoint find_last_colon (s : str) : option nat :=
  match s with
  | [] => None
  | c :: r => match find_last_colon r with Some n => Some (S n) | None => if ceqb c ":" then Some 0 else None end
  end.

(** pluginmanager.cc:55-62, the do-while loop, with pos the position of the colon in s. *)
Fixpoint path_loop (fuel : nat) (M : machine) (g : manager) (s : str) (pos : nat) : manager * res unit :=
  match fuel with
  | O => (g, Fuel)
  | S f =>
      match loadPluginFromDirectory M g (firstn pos s) with
      | (g, Ok _) =>
          let s := skipn (pos + 1) s in
          match find_colon s with None => (g, Ok tt) | Some pos => path_loop f M g s pos end
      | (g, Throw e) => (g, Throw e) | (g, UB u) => (g, UB u) | (g, Fuel) => (g, Fuel)
      end
  end.
(** pluginmanager.cc:40-71, the constructor. *)
Definition construct (M : machine) (env : option str) (hardcoded : str) : manager * res unit :=
  match env with
  | Some s =>
      let s := match find_last_colon s with Some n => if Nat.eqb n (length s) then s else s ++ s_ ":" | None => s ++ s_ ":" end in
      match find_colon s with
      | Some pos => path_loop (S (length s)) M manager0 s pos
      | None => (manager0, UB UOther)                   (* pos = npos: npos + 1 wraps to 0, the loop ends at once; never happens *)
      end
  | None =>
      if has_path M hardcoded
      then match loadPluginFromDirectory M manager0 hardcoded with
           | (g, Ok _) => (g, Ok tt) | (g, Throw e) => (g, Throw e) | (g, UB u) => (g, UB u) | (g, Fuel) => (g, Fuel) end
      else (manager0, Ok tt)
  end.

(** pluginmanager.cc:151-154 (the plugin that creates the importer or exporter) *)
Definition importer (g : manager) (name : str) : res nat := get_plugin (m_importers g) name.
Definition exporter (g : manager) (name : str) : res nat := get_plugin (m_exporters g) name.
(** pluginmanager.cc:142-149: the plugins that are called, in order *)
Definition registerPluginTypes (g : manager) : list nat := m_definitions g.
(** pluginmanager.cc:73-83: the objects that the destructor deletes, in order *)
Definition destroy (g : manager) : list nat := map snd (m_importers g) ++ map snd (m_exporters g) ++ m_definitions g.
