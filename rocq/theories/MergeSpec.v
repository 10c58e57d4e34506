(** * MergeSpec: registries as programs usually fill them, in which names with modifiers mean what they say. *)
From Verif Require Import Base Types NamesSpec Names Registry RegistrySpec.
From Verif Require Import Graph GraphSpec.
Local Open Scope nat_scope.

(** The three ways to build a type on another one that also build its name: n*, n[d], /std/vector<n>. *)
Inductive shape := SPtr | SArr (d : N) | SVec.
Definition shape_name (sh : shape) : str -> str :=
  match sh with SPtr => getPointerName | SArr d => fun n => getArrayName n d | SVec => vector_fullName end.
Definition shape_kind (sh : shape) (x : tid) : okind := match sh with SPtr => OPtr x | SArr d => OArr d x | SVec => OCont KVec x end.
(** Whatever is registered as n*, n[d] or /std/vector<n> is the pointer, array or vector on what is registered as n. *)
Definition names_meant (H : heap) (r : reg) : Prop :=
  forall n sh t, absolute n -> get r (shape_name sh n) = Some t -> exists x, get r n = Some x /\ o_kind (H t) = shape_kind sh x.
(** If a pointer, array or vector is there, it is also registered with the aliases of what it is built on. *)
Definition derived_names (H : heap) (r : reg) : Prop :=
  forall t sh x a, registered r t -> o_kind (H t) = shape_kind sh x -> absolute a -> get r a = Some x -> get r (shape_name sh a) <> None.
(** What the constructors of Pointer, Array, Vector and String guarantee, when /int8_t is a numeric type. *)
Definition constructed_as (H : heap) (t : tid) : Prop :=
  match o_kind (H t) with
  | OPtr x => o_name (H t) = getPointerName (o_name (H x)) /\ o_size (H t) = 8%N
  | OArr d x => o_name (H t) = getArrayName (o_name (H x)) d /\ o_size (H t) = ((d * o_size (H x)) mod 2 ^ 64)%N
  | OCont KVec x => o_name (H t) = vector_fullName (o_name (H x))
  | OCont KStr x => o_name (H t) = s_ "/std/string" /\ o_name (H x) = s_ "/int8_t" /\ exists c, o_kind (H x) = ONum c
  | _ => True
  end.
(** An array that is not part of its own elements. *)
Definition no_array_cycle (H : heap) (t : tid) : Prop := match o_kind (H t) with OArr _ x => ~ reaches H x t | _ => True end.

(** What RegistryIterator::getSource(), registryiterator.hh, tells for a name. *)
Definition source (r : reg) (n : str) : option str := option_map e_src (find_ n (r_global r)).

(** A memory where the objects below [next] exist, were built by constructors and refer to existing objects. *)
Definition proper_heap (H : heap) (next : tid) : Prop :=
  (forall t, constructed_as H t) /\ (forall t, next <= t -> H t = Obj [] 0 ONull) /\ (forall t d, In d (dependsOn H t) -> d < next).
(** A registry in a memory where the objects below [next] exist. *)
Record proper (H : heap) (next : tid) (r : reg) : Prop := {
  pr_reachable : reachable H r;
  pr_exists : forall t, registered r t -> t < next;
  pr_deps : deps_closed H r;
  pr_meant : names_meant H r
}.
