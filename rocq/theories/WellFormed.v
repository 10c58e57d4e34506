(** * WellFormed: which type descriptions the theorems range over (specification side).

    This file does not model code: it states what a C++ type description looks like. *)
From Verif Require Import Base Types.
Local Open Scope N_scope.

(** Numbers, pointers and arrays of these: the elements that an array of dimension 0 may have. *)
Fixpoint solid (t : ty) : bool :=
  match t with
  | TNum _ _ | TPtr _ => true
  | TArray _ _ e => solid e
  | _ => false
  end.

(** A well-formed type: sizes fit in size_t; an array has elements of at least one byte, at
    least one element unless these are numbers (see C15 for the others), and the size of its elements put together; an enum has at most 8 bytes; containers have a non-zero size and
    non-empty elements, a string is made of 1-byte numerics; the fields of a compound are listed in order of
    their offsets, do not overlap and end before the compound's end. *)
Fixpoint wf (t : ty) : Prop :=
  sizeof t < two64 /\
  match t with
  | TNull => True
  | TOpaque _ | TNum _ _ | TPtr _ => True
  | TEnum n _ => n <= 8
  | TArray s d e => s = d * sizeof e /\ (1 <= d \/ solid e = true) /\ 1 <= sizeof e /\ wf e
  | TCont KVec s e => 1 <= s /\ 1 <= sizeof e /\ wf e
  | TCont KStr s e => 1 <= s /\ exists c, e = TNum 1 c
  | TComp s fs => wf_fields fs 0 s
  end
with wf_fields (fs : fields) (cur size : N) : Prop :=
  match fs with
  | FNil => cur <= size
  | FCons _ off t r => cur <= off /\ wf t /\ wf_fields r (off + sizeof t) size
  end.

(** No null type, no opaque type, and pointers only where [ap] allows them. *)
Fixpoint supported (ap : bool) (t : ty) : bool :=
  match t with
  | TNull | TOpaque _ => false
  | TNum _ _ | TEnum _ _ => true
  | TPtr _ => ap
  | TArray _ _ e | TCont _ _ e => supported false e
  | TComp _ fs => supported_fields ap fs
  end
with supported_fields (ap : bool) (fs : fields) : bool :=
  match fs with
  | FNil => true
  | FCons _ _ t r => supported ap t && supported_fields ap r
  end.
Definition plain (t : ty) : Prop := supported false t = true.

(** No container at any depth. *)
Fixpoint cont_free (t : ty) : bool :=
  match t with
  | TNull | TOpaque _ | TNum _ _ | TEnum _ _ | TPtr _ => true
  | TArray _ _ e => cont_free e
  | TCont _ _ _ => false
  | TComp _ fs => cont_free_fields fs
  end
with cont_free_fields (fs : fields) : bool :=
  match fs with
  | FNil => true
  | FCons _ _ t r => cont_free t && cont_free_fields r
  end.
(** Containers are not nested: no container has containers in its elements. *)
Fixpoint unnested (t : ty) : bool :=
  match t with
  | TNull | TOpaque _ | TNum _ _ | TEnum _ _ | TPtr _ => true
  | TArray _ _ e => unnested e
  | TCont _ _ e => cont_free e
  | TComp _ fs => unnested_fields fs
  end
with unnested_fields (fs : fields) : bool :=
  match fs with
  | FNil => true
  | FCons _ _ t r => unnested t && unnested_fields r
  end.
(** The element sizes of all containers are powers of two (they divide 2^64). *)
Fixpoint elts_pow2 (t : ty) : Prop :=
  match t with
  | TNull | TOpaque _ | TNum _ _ | TEnum _ _ | TPtr _ => True
  | TArray _ _ e => elts_pow2 e
  | TCont _ _ e => (sizeof e | two64) /\ elts_pow2 e
  | TComp _ fs => elts_pow2_fields fs
  end
with elts_pow2_fields (fs : fields) : Prop :=
  match fs with
  | FNil => True
  | FCons _ _ t r => elts_pow2 t /\ elts_pow2_fields r
  end.
