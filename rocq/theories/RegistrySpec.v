(** * RegistrySpec: histories of a registry, and what its names mean. *)
From Verif Require Import Base Types NamesSpec Names Graph Registry.
Local Open Scope nat_scope.

Definition absolute (n : str) : Prop := exists r, n = sep :: r.
(** An absolute name without an empty path component. *)
Definition plain (n : str) : Prop := absolute n /\ forall a b, n <> a ++ sep :: sep :: b.

(** The public operations. *)
Inductive op :=
| OpAdd (t : tid) (pers : bool) (src : str)
| OpAlias (base newname : str) (pers : bool) (src : str)
| OpRemove (t : tid)
| OpRemoveAlias (n : str)
| OpClearAliases
| OpClear
| OpNamespace (s : str)
| OpImport (s : str) (erase_existing : bool).
Definition exec (f : nat) (H : heap) (r : reg) (o : op) : reg * res unit :=
  match o with
  | OpAdd t pers src => add_type f H r t pers src
  | OpAlias base n pers src => alias_ f H r base n pers src
  | OpRemove t => match remove f H r t with Ok (r', _) => (r', Ok tt) | Throw e => (r, Throw e) | UB u => (r, UB u) | Fuel => (r, Fuel) end
  | OpRemoveAlias n => removeAlias H r n
  | OpClearAliases => (clearAliases H r, Ok tt)
  | OpClear => (fst (clear H r), Ok tt)
  | OpNamespace s => (fst (setDefaultNamespace r s), Ok tt)
  | OpImport s b => (importNamespace r s b, Ok tt)
  end.
(** The names given by the caller are plain. *)
Definition op_ok (H : heap) (o : op) : Prop :=
  match o with
  | OpAdd t _ _ => plain (o_name (H t))
  | OpAlias _ n _ _ => plain n
  | _ => True
  end.
(** The registries that any sequence of operations builds, whether the operations succeed or throw. *)
Inductive reachable_by (allowed : op -> Prop) (H : heap) : reg -> Prop :=
| reach_init : reachable_by allowed H reg0
| reach_step r o f r' out : reachable_by allowed H r -> allowed o -> op_ok H o -> exec f H r o = (r', out) -> out <> Fuel -> reachable_by allowed H r'.
Definition reachable : heap -> reg -> Prop := reachable_by (fun _ => True).
(** Operations other than importNamespace, which adds arbitrary relative names. *)
Definition no_import (o : op) : Prop := match o with OpImport _ _ => False | _ => True end.
Definition no_removal (o : op) : Prop := match o with OpImport _ _ | OpRemove _ => False | _ => True end.

(** A type of the registry, under some absolute name. *)
Definition registered (r : reg) (t : tid) : Prop := exists n, absolute n /\ get r n = Some t.
(** [n] is the name of the indirect type [t] built on an alias [a] of the type [t] is an indirection to. *)
Definition derived (H : heap) (r : reg) (n : str) (t : tid) : Prop :=
  exists x mk a, indirect_name H t = Some (x, mk) /\ absolute a /\ get r a = Some x /\ a <> o_name (H x) /\ n = mk a.

(** Types that depend on [t], through types of the registry. *)
Inductive dependent (H : heap) (r : reg) (t : tid) : tid -> Prop :=
| dep_self : dependent H r t t
| dep_step d x : registered r d -> In x (dependsOn H d) -> dependent H r t x -> dependent H r t d.
Definition deps_closed (H : heap) (r : reg) : Prop := forall d x, registered r d -> In x (dependsOn H d) -> registered r x.

(** The namespaces that enclose the namespace of components [c], the outermost first: /, /c1/, /c1/c2/, ... *)
Fixpoint enclosing_ (s : str) (c : list str) : list str :=
  s :: match c with [] => [] | x :: c' => enclosing_ (s ++ x ++ [sep]) c' end.
Definition enclosing (c : list str) : list str := enclosing_ [sep] c.
(** The type a relative name designates: the one found in the innermost enclosing namespace. *)
Fixpoint innermost (look : str -> option tid) (n : str) (spaces : list str) : option tid :=
  match spaces with
  | [] => None
  | s :: r => match innermost look n r with Some t => Some t | None => look (s ++ n) end
  end.
