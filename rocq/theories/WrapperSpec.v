(** * WrapperSpec: what a valid wrapper is, and the histories of operations. *)
From Verif Require Import Base Wrapper.

(** Values of a type. *)
Inductive has_type : wty -> wval -> Prop :=
| HT_leaf : has_type WLeaf VLeaf
| HT_comp fs l : Forall2 has_type fs l -> has_type (WComp fs) (VComp l)
| HT_arr n e l : length l = n -> Forall (has_type e) l -> has_type (WArr n e) (VComp l)
| HT_vec e b l : Forall (has_type e) l -> has_type (WVec e) (VVec b l)
| HT_str b n : has_type WStr (VStr b n).
(** The buffers a value owns. The allocator never gives out memory that is in use: all of them are different, and none is the
    memory of the root value. *)
Fixpoint bufs (v : wval) : list N :=
  match v with
  | VLeaf => []
  | VComp l => flat_map bufs l
  | VVec b l => match l with [] => [] | _ => b :: flat_map bufs l end
  | VStr b n => match n with O => [] | _ => [b] end
  end.
Definition allocated (v : wval) : Prop := NoDup (0%N :: bufs v).
(** Types whose values own no memory but their own. *)
Fixpoint flat (t : wty) : bool :=
  match t with WLeaf => true | WComp fs => forallb flat fs | WArr _ e => flat e | WVec _ | WStr => false end.

(** A wrapper refers to the part of the value that it was obtained for: this part exists, is at the address that the wrapper
    has, and has the type of the wrapper. *)
Definition refers (v : wval) (w : wr) : Prop :=
  exists x, locate root_place v (map kidx (w_path w)) = Some (w_place w, x) /\ has_type (w_type w) x.

(** The operations. *)
Inductive op :=
| OGet (i : N) (k : key)
| OProtected (i : N) (nv : wval)
| OClear (i : N) (nv : wval)
| OUnprotected (i : N) (j : list nat) (nv : wval)
| ODeleteIf (i : N) (nv : wval)
| OCast (i : N) (t : wty).
Definition run (o : op) (s : st) : res st :=
  match o with
  | OGet i k => '(_, s') <- get s i k ;; Ok s'
  | OProtected i nv => protected s i nv
  | OClear i nv => clear s i nv
  | OUnprotected i j nv => unprotected s i j nv
  | ODeleteIf i nv => delete_if s i nv
  | OCast i t => '(_, s') <- cast s i t ;; Ok s'
  end.
(** What C++ code may do to the memory of wrapper [w]: it leaves a value of the same type, in memory that nobody else uses. *)
Definition sound_change (s : st) (w : wr) (nv : wval) : Prop :=
  has_type (w_type w) nv /\ forall q x, read (s_val s) (w_place w) = Ok (q, x) -> allocated (upd (s_val s) q nv).
Fixpoint part_type (t : wty) (j : list nat) : option wty :=
  match j with
  | [] => Some t
  | i :: j' =>
    match t with
    | WComp fs => match nth_error fs i with Some x => part_type x j' | None => None end
    | WArr n e => if Nat.ltb i n then part_type e j' else None
    | WVec e => part_type e j'
    | _ => None
    end
  end.
(** The operations for which the wrappers are tracked: fields are asked for with Strings, elements are those of arrays and vectors,
    what is changed without protection owns no buffers. *)
Definition tame (s : st) (o : op) : Prop :=
  match o with
  | OGet i k => (forall n, k <> Fld true n) /\ (forall w, by_id (s_live s) i = Some w -> w_type w <> WStr)
  | OProtected i nv => forall w, by_id (s_live s) i = Some w -> sound_change s w nv
  | OClear i nv => forall w, by_id (s_live s) i = Some w -> is_container (w_type w) = true /\ sound_change s w nv
  | OUnprotected i j nv => forall w, by_id (s_live s) i = Some w -> exists t, part_type (w_type w) j = Some t /\ flat t = true /\ has_type t nv
  | ODeleteIf _ _ | OCast _ _ => False
  end.
Inductive history (T : wty) : st -> Prop :=
| H_new v : has_type T v -> allocated v -> history T (new_root T v)
| H_step s o s' : history T s -> tame s o -> run o s = Ok s' -> history T s'.
