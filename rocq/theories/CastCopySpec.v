(** * CastCopySpec: values seen through another type description (specification side). *)
From Verif Require Import Base Types ValueOps.
From Verif Require Import Graph.
Local Open Scope N_scope.

(** The memory [m] seen as a value of type [t]: its first [sizeof t] bytes, followed by zeros if there are not enough. *)
Definition seen_as (t : ty) (m : list cell) : list cell := takeN (sizeof t) m ++ repN (sizeof t - lenN m) (B 0).

(** The types one gets to from [a] through fields and pointers only. *)
Inductive direct (H : heap) (a : tid) : tid -> Prop :=
| direct_refl : direct H a a
| direct_pointer x y : direct H a x -> o_kind (H x) = OPtr y -> direct H a y
| direct_field x fs f : direct H a x -> o_kind (H x) = OComp fs -> In f fs -> direct H a (f_type f).
(** The types of the elements of the arrays and containers among these, and all the types they refer to. *)
Inductive element (H : heap) (a : tid) : tid -> Prop :=
| element_array x d y : direct H a x -> o_kind (H x) = OArr d y -> element H a y
| element_container x k y : direct H a x -> o_kind (H x) = OCont k y -> element H a y
| element_more x y : element H a x -> In y (dependsOn H x) -> element H a y.
(** No structure is used both ways. *)
Definition separate (H : heap) (a : tid) : Prop :=
  forall x fs, o_kind (H x) = OComp fs -> direct H a x -> element H a x -> False.
