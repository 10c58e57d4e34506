(** * RubyMeta: the MetaData class of the Ruby bindings (bindings/ruby/ext/metadata.cc, bindings/ruby/lib/typelib/metadata.rb)
    over the C++ one (TypeObj.v). *)
From Verif Require Import Base Types Graph Registry Smap TypeObj RubyMetaSpec.

(** std::string built from the char const* of StringValuePtr: up to the first NUL. StringValuePtr raises TypeError for
    objects that are not Strings. *)
Fixpoint c_str (s : str) : str := match s with [] => [] | c :: r => if Ascii.eqb c Ascii.zero then [] else c :: c_str r end.
Definition string_value (a : rarg) : option str := match a with RStr s => Some (c_str s) | RNot => None end.
(** The loop of metadata_add over the values, metadata.cc:55-61: into a set that is not yet in the object. *)
Fixpoint new_values (vs : list rarg) (acc : list str) : option (list str) :=
  match vs with [] => Some acc | v :: r => match string_value v with Some s => new_values r (set_insert s acc) | None => None end end.
(** metadata_add, metadata.cc:46-64. The second component: whether an exception was raised. *)
Definition r_add (m : meta) (k : rarg) (vs : list rarg) : meta * bool :=
  match string_value k with
  | None => (m, true)
  | Some key => match new_values vs [] with None => (m, true) | Some l => (md_addAll m key l, false) end
  end.
(** metadata_clear, metadata.cc:66-74 (also delete, line 97) *)
Definition r_clear (m : meta) (l : list rarg) : meta * bool :=
  match l with
  | [] => ([], false)
  | [k] => match string_value k with None => (m, true) | Some key => (md_clear m key, false) end
  | _ => (m, false)
  end.
(** set and []=, metadata.rb:15-21 *)
Definition r_set (m : meta) (k : rarg) (vs : list rarg) : meta * bool :=
  let '(m1, e) := r_clear m [k] in if e then (m1, true) else r_add m1 k vs.
Definition r_call (m : meta) (c : mcall) : meta * bool :=
  match c with MAdd k vs => r_add m k vs | MSet k vs => r_set m k vs | MClear l => r_clear m l end.
Fixpoint r_run (m : meta) (h : list mcall) : meta := match h with [] => m | c :: r => r_run (fst (r_call m c)) r end.
(** metadata_get, metadata_include_p, metadata_keys, metadata.cc:18-44. None: TypeError. *)
Definition r_get (m : meta) (k : rarg) : option (list str) := option_map (md_get m) (string_value k).
Definition r_include (m : meta) (k : rarg) : option bool := option_map (md_include m) (string_value k).
Definition r_keys (m : meta) : list str := map fst m.
(** each, metadata.rb:4-11 *)
Definition r_each (m : meta) : list (str * list str) := map (fun k => (k, match r_get m (RStr k) with Some l => l | None => [] end)) (r_keys m).
