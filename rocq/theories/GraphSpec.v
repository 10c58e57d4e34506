(** * GraphSpec: when two type objects describe the same type. *)
From Verif Require Import Base Types Graph.
Local Open Scope N_scope.

(** The two objects have the same size, the same attributes, and their components are related by [R]. The names of
    types do not count, except for opaque types. *)
Definition node (H : heap) (R : tid -> tid -> Prop) (l r : tid) : Prop :=
  o_size (H l) = o_size (H r) /\
  match o_kind (H l), o_kind (H r) with
  | ONull, ONull => True
  | OOpaque, OOpaque => o_name (H l) = o_name (H r)
  | ONum c, ONum d => c = d
  | OEnum v, OEnum w => v = w
  | OPtr x, OPtr y => R x y
  | OArr d x, OArr e y => d = e /\ R x y
  | OCont k x, OCont j y => k = j /\ R x y
  | OComp fs, OComp gs => Forall2 (fun x y => f_name x = f_name y /\ f_off x = f_off y /\ R (f_type x) (f_type y)) fs gs
  | _, _ => False
  end.
(** Structural equality of (possibly cyclic) type graphs: the greatest relation preserved by [node]. *)
Definition struct_same (H : heap) (a b : tid) : Prop :=
  exists R : tid -> tid -> Prop, R a b /\ forall l r, R l r -> node H R l r.

(** The objects a type refers to, directly or not. *)
Inductive reaches (H : heap) (a : tid) : tid -> Prop :=
| reaches_refl : reaches H a a
| reaches_step b c : reaches H a b -> In c (dependsOn H b) -> reaches H a c.
(** A finite type graph: all the objects [a] refers to are in [dom]. *)
Definition finite_graph (H : heap) (dom : list tid) (a : tid) : Prop := forall b, reaches H a b -> In b dom.
(** No two objects of the graph of [a] describe the same type. *)
Definition canonical (H : heap) (a : tid) : Prop :=
  forall x y, reaches H a x -> reaches H a y -> struct_same H x y -> x = y.
(** Enumerations have one value per name (std::map). *)
Definition enums_ok (H : heap) : Prop := forall t v, o_kind (H t) = OEnum v -> NoDup (map fst v).

(** What a cast needs, component by component: same categories, same size except for compounds, the enumeration symbols
    of the left type all defined with the same values on the right. *)
Definition cnode (H : heap) (R : tid -> tid -> Prop) (l r : tid) : Prop :=
  match o_kind (H l), o_kind (H r) with
  | OComp fs, OComp gs => Forall2 (fun x y => f_name x = f_name y /\ f_off x = f_off y /\ R (f_type x) (f_type y)) fs gs
  | k, k' =>
      o_size (H l) = o_size (H r) /\
      match k, k' with
      | ONull, ONull => True
      | OOpaque, OOpaque => o_name (H l) = o_name (H r)
      | ONum c, ONum d => c = d
      | OEnum v, OEnum w => forall n x, In (n, x) v -> In (n, x) w
      | OPtr x, OPtr y => R x y
      | OArr d x, OArr e y => d = e /\ R x y
      | OCont k x, OCont j y => k = j /\ R x y
      | _, _ => False
      end
  end.
Definition castable (H : heap) (a b : tid) : Prop :=
  exists R : tid -> tid -> Prop, R a b /\ forall l r, R l r -> cnode H R l r.
