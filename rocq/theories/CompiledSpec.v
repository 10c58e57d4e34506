(** * CompiledSpec: the types the compiled swap is for (specification side). *)
From Verif Require Import Base Types.
Local Open Scope N_scope.

(** The end of the last field. *)
Fixpoint fields_end (fs : fields) (cur : N) : N :=
  match fs with
  | FNil => cur
  | FCons _ off t r => fields_end r (off + sizeof t)
  end.
(** No compound ends with padding and no array is empty, at any depth. *)
Fixpoint tight (t : ty) : Prop :=
  match t with
  | TArray _ d e => 1 <= d /\ tight e
  | TCont _ _ e => tight e
  | TComp s fs => fields_end fs 0 = s /\ tight_fields fs
  | _ => True
  end
with tight_fields (fs : fields) : Prop :=
  match fs with
  | FNil => True
  | FCons _ _ t r => tight t /\ tight_fields r
  end.
(** The outermost compound may end with padding, the ones inside may not. *)
Definition tight_inside (t : ty) : Prop := match t with TComp _ fs => tight_fields fs | _ => tight t end.
(** The number of bytes before the trailing padding. *)
Definition used_size (t : ty) : N := match t with TComp _ fs => fields_end fs 0 | _ => sizeof t end.
