(** * CxxRubySpec: qualified C++ type names, how they are written in C++ and how they are written in Typelib. *)
From Verif Require Import Base.
Local Open Scope char_scope.

(** A qualified name: components, each with its template arguments ([ANil]: it is not a template); a template argument is
    a qualified name or a number. *)
Inductive cpath := PEnd (id : str) (a : cargs) | PSub (id : str) (a : cargs) (p : cpath)
with cargs := ANil | AType (p : cpath) (a : cargs) | ANum (i : str) (a : cargs).

(** Writing a name, without spaces: [lead] stands in front of each argument that is a type, [sepr] between components. *)
Section Write.
Variables lead sepr : str.
Definition brackets (a : cargs) (s : str) : str := match a with ANil => [] | _ => "<" :: s ++ [">"] end.
Definition comma (a : cargs) (s : str) : str := match a with ANil => [] | _ => "," :: s end.
Fixpoint wr (p : cpath) : str :=
  match p with
  | PEnd id a => id ++ brackets a (wr_args a)
  | PSub id a q => id ++ brackets a (wr_args a) ++ sepr ++ wr q
  end
with wr_args (a : cargs) : str :=
  match a with
  | ANil => []
  | AType p r => lead ++ wr p ++ comma r (wr_args r)
  | ANum i r => i ++ comma r (wr_args r)
  end.
End Write.
(** The Typelib name: /std/vector</int,3>. *)
Definition tl_name (p : cpath) : str := "/" :: wr ["/"] ["/"] p.
(** The C++ name, without spaces: std::vector<int,3>. *)
Definition cxx_name (p : cpath) : str := wr [] (s_ "::") p.

(** What may be written around a word. *)
Definition blank (c : ascii) : Prop := In c (" " :: map ascii_of_nat [0; 9; 10; 11; 12; 13]).
Definition blanks (s : str) : Prop := Forall blank s.
(** Neither punctuation nor a backslash nor a line feed, and no blanks at both ends. *)
Definition solid (s : str) : Prop :=
  Forall (fun c => ~ In c ("010" :: s_ "<,>/:\")) s /\ (exists c r, s = c :: r /\ ~ blank c) /\ (exists r c, s = r ++ [c] /\ ~ blank c).
Definition num_start (s : str) : Prop := exists c r, s = c :: r /\ In c (s_ "+-0123456789").
(** An identifier, or several words such as unsigned int, or char const*. *)
Definition ident (s : str) : Prop := solid s /\ ~ num_start s.
Definition number (s : str) : Prop := solid s /\ num_start s.
Fixpoint well_named (p : cpath) : Prop :=
  match p with
  | PEnd id a => ident id /\ args_named a
  | PSub id a q => ident id /\ args_named a /\ well_named q
  end
with args_named (a : cargs) : Prop :=
  match a with
  | ANil => True
  | AType p r => well_named p /\ args_named r
  | ANum i r => number i /\ args_named r
  end.

(** [cxx s p]: s is a spelling of p, with [dc] between components and one of [root] in front of arguments that are types.
    There may be blanks around brackets, commas and arguments. *)
Section Spelling.
Variable dc : str.
Variable root : str -> Prop.
Inductive cxx : str -> cpath -> Prop :=
| cx_end id : cxx id (PEnd id ANil)
| cx_tmpl id x s a : blanks x -> cxx_args s a -> cxx (id ++ x ++ "<" :: s ++ [">"]) (PEnd id a)
| cx_sub id s p : cxx s p -> cxx (id ++ dc ++ s) (PSub id ANil p)
| cx_tmpl_sub id x s a y s' p : blanks x -> cxx_args s a -> blanks y -> cxx s' p ->
    cxx (id ++ x ++ "<" :: s ++ ">" :: y ++ dc ++ s') (PSub id a p)
with cxx_args : str -> cargs -> Prop :=
| cx_last x g s y p : blanks x -> root g -> cxx s p -> blanks y -> cxx_args (x ++ g ++ s ++ y) (AType p ANil)
| cx_last_num x i y : blanks x -> blanks y -> cxx_args (x ++ i ++ y) (ANum i ANil)
| cx_more x g s y p r a : blanks x -> root g -> cxx s p -> blanks y -> cxx_args r a -> cxx_args (x ++ g ++ s ++ y ++ "," :: r) (AType p a)
| cx_more_num x i y r a : blanks x -> blanks y -> cxx_args r a -> cxx_args (x ++ i ++ y ++ "," :: r) (ANum i a).
(** A complete type name. *)
Definition spelling (s : str) (p : cpath) : Prop := exists x g s' y, s = x ++ g ++ s' ++ y /\ blanks x /\ root g /\ cxx s' p /\ blanks y.
End Spelling.
(** [spells s p]: s is a C++ spelling of p: components are separated by ::, which may also stand in front. *)
Definition spells : str -> cpath -> Prop := spelling (s_ "::") (fun g => g = [] \/ g = s_ "::").

(** The template [p]<[a]>: the last component gets the arguments. *)
Fixpoint no_args (p : cpath) : Prop := match p with PEnd _ a => a = ANil | PSub _ a q => a = ANil /\ no_args q end.
Fixpoint with_args (p : cpath) (a : cargs) : cpath := match p with PEnd id _ => PEnd id a | PSub id b q => PSub id b (with_args q a) end.
(** The Typelib names of the arguments. *)
Fixpoint arg_names (a : cargs) : list str :=
  match a with ANil => [] | AType p r => tl_name p :: arg_names r | ANum i r => i :: arg_names r end.
(** The namespace that a type is in, and its last component. *)
Fixpoint ns_of (p : cpath) : str :=
  match p with PEnd _ _ => ["/"] | PSub id a q => "/" :: id ++ brackets a (wr_args ["/"] ["/"] a) ++ ns_of q end.
Fixpoint last_of (p : cpath) : str :=
  match p with PEnd id a => id ++ brackets a (wr_args ["/"] ["/"] a) | PSub _ _ q => last_of q end.
