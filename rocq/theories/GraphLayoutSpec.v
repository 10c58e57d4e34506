(** * GraphLayoutSpec: the tree of a type object. *)
From Verif Require Import Base Types Layout WellFormed GraphLayout.
From Verif Require Import Graph.
Local Open Scope N_scope.

(** [tree_of H t T]: [T] is what one sees from the object [t] when one follows fields, array elements and container
    elements, but not pointers. *)
Inductive tree_of (H : heap) : tid -> ty -> Prop :=
| tree_null t : o_kind (H t) = ONull -> tree_of H t TNull
| tree_opaque t : o_kind (H t) = OOpaque -> tree_of H t (TOpaque (o_size (H t)))
| tree_num t c : o_kind (H t) = ONum c -> tree_of H t (TNum (o_size (H t)) c)
| tree_enum t v : o_kind (H t) = OEnum v -> tree_of H t (TEnum (o_size (H t)) v)
| tree_ptr t x : o_kind (H t) = OPtr x -> tree_of H t (TPtr (o_size (H t)))
| tree_arr t d x e : o_kind (H t) = Graph.OArr d x -> tree_of H x e -> tree_of H t (TArray (o_size (H t)) d e)
| tree_cont t k x e : o_kind (H t) = Graph.OCont k x -> tree_of H x e -> tree_of H t (TCont k (o_size (H t)) e)
| tree_comp t fs gs : o_kind (H t) = OComp fs -> fields_of H fs gs -> tree_of H t (TComp (o_size (H t)) gs)
with fields_of (H : heap) : list fld -> fields -> Prop :=
| fields_nil : fields_of H [] FNil
| fields_cons f fs T gs : tree_of H (f_type f) T -> fields_of H fs gs ->
    fields_of H (f :: fs) (FCons (f_name f) (f_off f) T gs).
Scheme tree_mind := Minimality for tree_of Sort Prop
  with fields_of_mind := Minimality for fields_of Sort Prop.
Combined Scheme tree_fields_ind from tree_mind, fields_of_mind.

(** The objects whose values are inside of the values of [t]: the types of its fields, or of its elements. *)
Definition inner (H : heap) (t : tid) : list tid :=
  match o_kind (H t) with
  | Graph.OArr _ x | Graph.OCont _ x => [x]
  | OComp fs => map f_type fs
  | _ => []
  end.
(** [holds H a b]: going from [a] to the types of fields and elements, at least once, one gets to [b]. *)
Inductive holds (H : heap) (a : tid) : tid -> Prop :=
| holds_one b : In b (inner H a) -> holds H a b
| holds_more b c : In b (inner H a) -> holds H b c -> holds H a c.
(** No type in [t] holds itself. *)
Definition sound_type (H : heap) (t : tid) : Prop := ~ holds H t t /\ forall b, holds H t b -> ~ holds H b b.

(** A word of the layout of a tree stands for the same thing as a word of the layout of an object. *)
Definition same_word (H : heap) (w w' : word) : Prop :=
  match w with
  | W n => w' = W n
  | WC _ _ _ => exists c k x e, w = addr c /\ o_kind (H c) = Graph.OCont k x /\ tree_of H x e /\ w' = WC k (o_size (H c)) e
  end.
Definition same_layout (H : heap) (l l' : layout) : Prop :=
  Forall2 (same_word H) (ops l) (ops l') /\ Forall2 (same_word H) (iops l) (iops l').
Definition same_result (H : heap) (r r' : res layout) : Prop :=
  match r, r' with
  | Ok l, Ok l' => same_layout H l l'
  | Throw e, Throw e' => e = e'
  | UB u, UB u' => u = u'
  | _, _ => False
  end.

(** What a C++ compiler ensures of each object separately (compare WellFormed.v): sizes, array sizes, offsets. *)
Fixpoint fields_fit (H : heap) (fs : list fld) (cur size : N) : Prop :=
  match fs with
  | [] => cur <= size
  | f :: r => cur <= f_off f /\ fields_fit H r (f_off f + o_size (H (f_type f))) size
  end.
Definition object_ok (H : heap) (t : tid) : Prop :=
  o_size (H t) < two64 /\
  match o_kind (H t) with
  | ONull => o_size (H t) = 0
  | OEnum _ => o_size (H t) <= 8
  | Graph.OArr d x => o_size (H t) = d * o_size (H x) /\ 1 <= d /\ 1 <= o_size (H x)
  | Graph.OCont KVec x => 1 <= o_size (H t) /\ 1 <= o_size (H x)
  | Graph.OCont KStr x => 1 <= o_size (H t) /\ o_size (H x) = 1 /\ exists c, o_kind (H x) = ONum c
  | OComp fs => fields_fit H fs 0 (o_size (H t))
  | _ => True
  end.
