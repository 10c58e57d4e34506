(** * ExporterSpec: what an export must satisfy. *)
From Coq Require Export Permutation.
From Verif Require Import Base Types NamesSpec Names Graph Registry Exporter.
Local Open Scope nat_scope.

(** [p] comes before [q] in [l]. *)
Definition before {A} (p q : A) (l : list A) : Prop := exists a b c, l = a ++ p :: b ++ q :: c.
(** The entry of the type [t] itself, as opposed to the entries of its aliases. *)
Definition own (H : heap) (t : tid) (p : ent) : Prop := e_type (snd p) = t /\ fst p = o_name (H t).
(** [d] is needed to describe [t]: directly, or through other types. *)
Inductive needs (H : heap) : tid -> tid -> Prop :=
| needs_one t d : In d (dependsOn H t) -> needs H t d
| needs_more t x d : In x (dependsOn H t) -> needs H x d -> needs H t d.
(** Types of the registry, by the name they give themselves. *)
Definition defined (H : heap) (G : nmap) (t : tid) : Prop := exists e, In (o_name (H t), e) G /\ e_type e = t.
(** What prevents an export: a type of the registry has a dependency that is not in the registry, or needs itself. *)
Definition missing_dependency (H : heap) (G : nmap) : Prop := exists t d, defined H G t /\ In d (dependsOn H t) /\ ~ defined H G d.
Definition recursive_type (H : heap) (G : nmap) : Prop := exists t, defined H G t /\ needs H t t.
(** Every written entry comes after the entries of everything it needs: the type it is an alias of, and all the types
    its type needs. *)
Definition well_ordered (H : heap) (out : list ent) : Prop :=
  forall p q, In p out -> In q out ->
    (isAlias H p = true -> own H (e_type (snd p)) q -> before q p out) /\
    (forall d, needs H (e_type (snd p)) d -> own H d q -> before q p out).
