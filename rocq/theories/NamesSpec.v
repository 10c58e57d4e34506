(** * NamesSpec: what type names and namespaces are, independently of the code. *)
From Verif Require Import Base.
Local Open Scope char_scope.

Definition sep : ascii := "/".
(** The nesting of template brackets after a string. *)
Fixpoint lev (s : str) : Z :=
  match s with
  | [] => 0
  | c :: r => (if Ascii.eqb c "<" then 1 else if Ascii.eqb c ">" then -1 else 0) + lev r
  end%Z.
(** No '/' outside of template brackets. *)
Definition no_top (s : str) : Prop := forall a b, s = a ++ sep :: b -> lev a <> 0%Z.
(** A namespace component: no '/' outside of its (balanced) template brackets. *)
Definition comp (p : str) : Prop := no_top p /\ lev p = 0%Z.
(** a/b/c/ *)
Definition terms (l : list str) : str := concat (map (fun p => p ++ [sep]) l).
(** [name] is the type [base] in the namespace /c1/.../cn/. *)
Definition type_path (name : str) (comps : list str) (base : str) : Prop :=
  name = sep :: terms comps ++ base /\ Forall comp comps /\ base <> [] /\ no_top base.
(** [ns] is the namespace /c1/.../cn or /c1/.../cn/ ; "/" if there are no components. *)
Definition ns_path (ns : str) (comps : list str) : Prop :=
  ns <> [] /\ Forall comp comps /\ Forall (fun p => p <> []) comps /\ (ns = sep :: terms comps \/ ns ++ [sep] = sep :: terms comps).
(** The name ends with a '/' outside of template brackets. *)
Definition ends_top (s : str) : Prop := exists q, s = q ++ [sep] /\ lev q = 0%Z.

Definition letters : str := list_ascii_of_string "abcdefghijklmnopqrstuvwxyzABCDEFGHIJKLMNOPQRSTUVWXYZ".
Definition digits : str := list_ascii_of_string "0123456789".
(** A component of a name: a non-empty word of letters, digits, underscores and spaces. *)
Definition word_char (c : ascii) : Prop := In c letters \/ In c digits \/ c = "_" \/ c = " ".
Definition word (w : str) : Prop := w <> [] /\ Forall word_char w.
(** A string without template, array or pointer modifiers. *)
Definition simple (s : str) : Prop := Forall (fun c => ~ In c (list_ascii_of_string "<>,[]*")) s.
Fixpoint join (l : list str) : str :=
  match l with
  | [] => []
  | [x] => x
  | x :: r => x ++ sep :: join r
  end.

(** The grammar:
    path  ::= elem+ , elem ::= "/" word | "/" word "<" args ">", the last one possibly "/" word "*"...;
    args  ::= arg ("," arg)* , arg ::= path | integer, the last one possibly followed by array dimensions.
    A type name is a path followed by array dimensions. *)
Definition digit (c : ascii) : Prop := In c digits.
Definition integer (s : str) : Prop := s <> [] /\ Forall (fun c => c = "-" \/ digit c) s.
Inductive g_dims : str -> Prop :=
| gd_nil : g_dims []
| gd_cons n d : n <> [] -> Forall digit n -> g_dims d -> g_dims ("[" :: n ++ "]" :: d).
Inductive g_elem : str -> Prop :=
| ge_word w : word w -> g_elem (sep :: w)
| ge_tmpl w a : word w -> g_args a -> g_elem (sep :: w ++ "<" :: a ++ [">"])
with g_path : str -> Prop :=
| gp_one e : g_elem e -> g_path e
| gp_ptr w k : word w -> g_path (sep :: w ++ repeat "*" k)
| gp_cons e p : g_elem e -> g_path p -> g_path (e ++ p)
with g_args : str -> Prop :=
| ga_last p d : g_path p -> g_dims d -> g_args (p ++ d)
| ga_last_int i : integer i -> g_args i
| ga_path p a : g_path p -> g_args a -> g_args (p ++ "," :: a)
| ga_int i a : integer i -> g_args a -> g_args (i ++ "," :: a).
