(** * LayoutSpec: what a memory layout must say about a type (specification side). *)
From Verif Require Import Base Types Layout.
Local Open Scope N_scope.

(** What one place of a value is: a data byte, a padding byte, or a container object. *)
Inductive place := Data | Pad | Cnt (k : ckind) (size : N) (elt : ty).
Definition times {A} (n : N) (l : list A) : list A := concat (repN n l).

(** The places of a type, in memory order. *)
Fixpoint places (t : ty) : list place :=
  match t with
  | TNull => []
  | TOpaque n => repN n Pad
  | TNum n _ | TEnum n _ | TPtr n => repN n Data
  | TArray _ d e => times d (places e)
  | TCont k s e => [Cnt k s e]
  | TComp s fs => places_fields fs 0 s
  end
with places_fields (fs : fields) (cur s : N) : list place :=
  match fs with
  | FNil => repN (s - cur) Pad
  | FCons _ off t r => repN (off - cur) Pad ++ places t ++ places_fields r (off + sizeof t) s
  end.

(** When skips may be merged into copies, padding counts as data. *)
Definition merged (merge : bool) (p : place) : place :=
  match p with Pad => if merge then Data else Pad | _ => p end.

(** [describes merge code l]: the bytecode [code] reads as the places [l]. 0 = copy, 3 = skip, 1 = array,
    2 = container, 4 = end of an array or container block. The block of a container describes its elements. *)
Inductive describes (merge : bool) : list word -> list place -> Prop :=
| d_nil : describes merge [] []
| d_copy n c l : describes merge c l -> describes merge (W 0 :: W n :: c) (repN n Data ++ l)
| d_skip n c l : describes merge c l -> describes merge (W 3 :: W n :: c) (repN n Pad ++ l)
| d_array n b c lb l : describes merge b lb -> describes merge c l ->
    describes merge (W 1 :: W n :: b ++ W 4 :: c) (times n lb ++ l)
| d_cont k s e b c l : describes merge b (map (merged merge) (places e)) -> describes merge c l ->
    describes merge (W 2 :: WC k s e :: b ++ W 4 :: c) (Cnt k s e :: l).

(** Number of bytes a place takes. *)
Definition place_size (p : place) : N := match p with Data | Pad => 1 | Cnt _ s _ => s end.
Fixpoint places_size (l : list place) : N :=
  match l with [] => 0 | p :: r => place_size p + places_size r end.

(** Does a type contain a ... ? *)
Fixpoint contains (p : ty -> bool) (t : ty) : bool :=
  p t ||
  match t with
  | TArray _ _ e | TCont _ _ e => contains p e
  | TComp _ fs => contains_fields p fs
  | _ => false
  end
with contains_fields (p : ty -> bool) (fs : fields) : bool :=
  match fs with
  | FNil => false
  | FCons _ _ t r => contains p t || contains_fields p r
  end.
Definition is_null (t : ty) : bool := match t with TNull => true | _ => false end.
Definition is_opaque (t : ty) : bool := match t with TOpaque _ => true | _ => false end.
Definition is_ptr (t : ty) : bool := match t with TPtr _ => true | _ => false end.
