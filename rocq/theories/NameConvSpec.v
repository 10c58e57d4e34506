(** * NameConvSpec: C++ names and the type names they stand for. *)
From Verif Require Import Base NamesSpec.
Local Open Scope char_scope.

(** One or more identifiers with spaces between them: std, vector, unsigned int. *)
Definition cxx_word (w : str) : Prop := word w /\ (exists c r, w = c :: r /\ ~ digit c /\ c <> " ") /\ (exists r c, w = r ++ [c] /\ c <> " ").
(** The string starts like a number. *)
Definition numeric (s : str) : Prop := exists c r, s = c :: r /\ (digit c \/ c = "-").
(** How a C++ name is written: what may stand between a comma and the arguments that follow it, and whether there are
    spaces between closing brackets and before array dimensions. *)
Section Style.
Variable comma : str -> str -> Prop.
Variable spaces : bool.
Definition space (x : str) : Prop := x = [] \/ (spaces = true /\ x = [" "]).
(** [cxx_path c t]: the type name t is written c in C++. The components of t are those of c, in order; every type gets a
    leading slash, numbers do not. *)
Inductive cxx_elem : str -> str -> Prop :=
| ce_word w : cxx_word w -> cxx_elem w (sep :: w)
| ce_tmpl w a ta x : cxx_word w -> cxx_args a ta -> space x -> (x = [] \/ exists b, a = b ++ [">"]) ->
    cxx_elem (w ++ "<" :: a ++ x ++ [">"]) (sep :: w ++ "<" :: ta ++ [">"])
with cxx_path : str -> str -> Prop :=
| cp_one c t : cxx_elem c t -> cxx_path c t
| cp_ptr w k : cxx_word w -> cxx_path (w ++ repeat "*" k) (sep :: w ++ repeat "*" k)
| cp_cons c t c' t' : cxx_elem c t -> cxx_path c' t' -> cxx_path (c ++ ":" :: ":" :: c') (t ++ t')
with cxx_args : str -> str -> Prop :=
| ca_last c t x d : cxx_path c t -> g_dims d -> space x -> (x = [] \/ d <> []) -> cxx_args (c ++ x ++ d) (t ++ d)
| ca_last_int i : integer i -> cxx_args i i
| ca_path c t x a ta : cxx_path c t -> cxx_args a ta -> comma x a -> cxx_args (c ++ "," :: x ++ a) (t ++ "," :: ta)
| ca_int i x a ta : integer i -> cxx_args a ta -> comma x a -> cxx_args (i ++ "," :: x ++ a) (i ++ "," :: ta).
(** A path, and array dimensions. *)
Inductive cxx_name : str -> str -> Prop :=
| cn c t x d : cxx_path c t -> g_dims d -> space x -> (x = [] \/ d <> []) -> cxx_name (c ++ x ++ d) (t ++ d).
End Style.
(** As clang prints names: a space after a comma (it is not needed before a number). *)
Definition printed := cxx_name (fun x a => x = [" "] \/ (x = [] /\ numeric a)) true.
(** Without any spaces, except in words. *)
Definition compact := cxx_name (fun x _ => x = []) false.
(** Compact names whose template arguments after the first are numbers. *)
Definition compact_num := cxx_name (fun x a => x = [] /\ numeric a) false.
(** [x] does not occur in [s]. *)
Definition absent (x s : str) : Prop := forall a b, s <> a ++ x ++ b.
(** The names that the importer does not rename. *)
Definition not_renamed (t : str) : Prop := absent (s_ "/std/__1") t /\ absent (s_ "/std/__cxx11") t /\ absent (s_ "/std/basic_string") t.
