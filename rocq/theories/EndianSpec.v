(** * EndianSpec: what swapping the endianness of a value means (specification side). *)
From Verif Require Import Base Types ValueOps.
Local Open Scope N_scope.

(** The bytes of the cells (also in the buffers of vectors and strings) are octets. *)
Fixpoint octets_cell (c : cell) : Prop :=
  match c with
  | B n => n < 256
  | Cont => True
  | Obj (VecObj _ cs) => (fix all (l : list cell) : Prop := match l with [] => True | x :: r => octets_cell x /\ all r end) cs
  | Obj (StrObj bs) => Forall (fun b => b < 256) bs
  end.
Definition octets (m : list cell) : Prop := Forall octets_cell m.

(** [swapped t m m']: [m'] is the value [m] of type [t] with the bytes of each number and enum in reverse order, and
    nothing else changed: same padding, same number of elements and same capacity of the vectors, same characters. *)
Fixpoint swapped (t : ty) (m m' : list cell) : Prop :=
  match t with
  | TNull | TOpaque _ | TPtr _ => False
  | TNum n _ | TEnum n _ => exists bs, lenN bs = n /\ m = map B bs /\ m' = map B (rev bs)
  | TArray _ d e => exists xs ys, lenN xs = d /\ m = concat xs /\ m' = concat ys /\ Forall2 (swapped e) xs ys
  | TCont KVec s e => exists cap xs ys, m = put_obj s (VecObj cap (concat xs)) /\ m' = put_obj s (VecObj cap (concat ys)) /\
                                        Forall2 (swapped e) xs ys
  | TCont KStr s _ => exists bs, m = put_obj s (StrObj bs) /\ m' = m
  | TComp s fs => swapped_fields fs 0 s m m'
  end
with swapped_fields (fs : fields) (cur s : N) (m m' : list cell) : Prop :=
  match fs with
  | FNil => lenN m = s - cur /\ m' = m
  | FCons _ off t r => exists p x y z w, m = p ++ x ++ y /\ m' = p ++ z ++ w /\ lenN p = off - cur /\
                                         swapped t x z /\ swapped_fields r (off + sizeof t) s y w
  end.

(** The types whose values can be swapped: no pointer, no opaque, numerics of 1, 2, 4 or 8 bytes (floats: 4 or 8),
    enums stored in 4 bytes. *)
Fixpoint swappable (t : ty) : bool :=
  match t with
  | TNull | TOpaque _ | TPtr _ => false
  | TNum n (SInt | UInt) => existsb (N.eqb n) [1; 2; 4; 8]
  | TNum n Float => existsb (N.eqb n) [4; 8]
  | TEnum n _ => n =? 4
  | TArray _ _ e | TCont _ _ e => swappable e
  | TComp _ fs => swappable_fields fs
  end
with swappable_fields (fs : fields) : bool :=
  match fs with
  | FNil => true
  | FCons _ _ t r => swappable t && swappable_fields r
  end.
