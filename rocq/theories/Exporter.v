(** * Exporter: Exporter::save(stream, config, registry), typelib/exporter.cc.

    The stream is the sequence of the entries handed to the virtual save(stream, it), in order. That function is not
    modelled: it is assumed not to throw, and what it returns may depend on everything written so far ([ret]). begin()
    and end() are left out. *)
From Verif Require Import Base Types NamesSpec Names Graph Registry.
Local Open Scope nat_scope.

(** TypeMap, exporter.cc:39-44: a std::map ordered by nameSort, from a name to the iterator on that name; the iterator
    is the entry it points to. A std::set<Type const*> is a list, only used for membership. *)
Definition ent : Type := str * entry.
(** exporter.cc:46-48. *)
Definition all_types (global : nmap) : nmap := fold_left (fun m p => ginsert (fst p) (snd p) m) global [].
(** done_dependencies, exporter.cc:61-69; std::includes on two sets with the same order. *)
Definition ready (H : heap) (saved : list tid) (p : ent) : bool :=
  if isAlias H p then mem (e_type (snd p)) saved
  else forallb (fun d => mem d saved) (dependsOn H (e_type (snd p))).
(** The while loop that moves entries from types to free_types, exporter.cc:59-77. *)
Fixpoint sweep (H : heap) (saved : list tid) (it free : nmap) : nmap * nmap :=
  match it with
  | [] => ([], free)
  | p :: it' =>
      if ready H saved p then sweep H saved it' (ginsert (fst p) (snd p) free)
      else let '(types, free') := sweep H saved it' free in (p :: types, free')
  end.
(** The loop that removes non-persistent entries, exporter.cc:88-106: free_types, saved_types, got_some, and the key of
    save_it (None: end()). *)
Fixpoint purge (last_ns : str) (it : nmap) (saved : list tid) (got_some : bool) (save_it : option str)
  : nmap * list tid * bool * option str :=
  match it with
  | [] => ([], saved, got_some, save_it)
  | p :: it' =>
      if negb (e_pers (snd p)) then purge last_ns it' (e_type (snd p) :: saved) true save_it
      else
        let save_it' := match save_it with
                        | Some _ => save_it
                        | None => if seqb (getNamespace (fst p)) last_ns then Some (fst p) else None
                        end in
        let '(free, saved', g, s) := purge last_ns it' saved got_some save_it' in (p :: free, saved', g, s)
  end.
(** The elements before the iterator on a key, and the others. *)
Fixpoint split_at (k : str) (m : nmap) : nmap * nmap :=
  match m with
  | [] => ([], [])
  | p :: r => if seqb (fst p) k then ([], m) else let '(a, b) := split_at k r in (p :: a, b)
  end.
(** The loop that saves the entries of one namespace from save_it on, exporter.cc:113-121. *)
Fixpoint save_run (ret : list ent -> ent -> bool) (ns : str) (it : nmap) (saved : list tid) (last_ns : str) (out : list ent)
  : nmap * list tid * str * list ent :=
  match it with
  | p :: it' =>
      if seqb (getNamespace (fst p)) ns then
        save_run ret ns it' (e_type (snd p) :: saved) (if ret out p then ns else last_ns) (out ++ [p])
      else (it, saved, last_ns, out)
  | [] => ([], saved, last_ns, out)
  end.
(** The main loop, exporter.cc:54-122, and the final one, exporter.cc:125-129. *)
Fixpoint save_loop (fuel : nat) (H : heap) (ret : list ent -> ent -> bool) (types free : nmap) (saved : list tid)
    (last_ns : str) (out : list ent) : list ent * res unit :=
  match fuel with
  | 0 => (out, Fuel)
  | S f =>
    match types with
    | [] => (out ++ filter (fun p => e_pers (snd p)) free, Ok tt)
    | _ =>
        let '(types', free1) := sweep H saved types free in
        match free1 with
        | [] => (out, Throw EExport)
        | first :: _ =>
            let '(free2, saved', got_some, save_it) := purge last_ns free1 saved false None in
            if got_some then save_loop f H ret types' free2 saved' last_ns out
            else
              let '(before, from) := match save_it with Some k => split_at k free2 | None => ([], free2) end in
              match from with
              | [] => (out, UB UOther)
              | p :: _ =>
                  let '(rest, saved2, last2, out2) := save_run ret (getNamespace (fst p)) from saved' last_ns out in
                  save_loop f H ret types' (before ++ rest) saved2 last2 out2
              end
        end
    end
  end.
(** Exporter::save, exporter.cc:33-132. *)
Definition export (fuel : nat) (H : heap) (ret : list ent -> ent -> bool) (r : reg) : list ent * res unit :=
  save_loop fuel H ret (all_types (r_global r)) [] [] [] [].
