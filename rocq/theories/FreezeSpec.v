(** * FreezeSpec: values and the objects that give access to them, as far as freezing is concerned. *)
From Verif Require Import Base.
Local Open Scope nat_scope.

(** A value: a number (or enum, pointer, text), a compound, a fixed size array, a container. The parts of a value are known
    by their position. *)
Inductive kind := KComp | KArr | KVec.
Inductive val := VNum (z : Z) | VNode (k : kind) (parts : list val).
Definition path := list nat.
Fixpoint part (p : path) (v : val) : option val :=
  match p with
  | [] => Some v
  | i :: q => match v with VNode _ l => match nth_error l i with Some x => part q x | None => None end | VNum _ => None end
  end.

(** The calls on the object for a part. [CSet i typed x]: the part [i] is assigned; typed: with a typed value, or with
    something that is converted to one first (a Hash, an Array), else with a number. [CReplace]: Typelib.copy, from_buffer,
    zero!, raw_memcpy, which write the value as a whole. [keep]: which of the objects below are still valid afterwards
    (it depends on the memory, C65). *)
Inductive call :=
| CGet (i : nat)
| CSet (i : nat) (typed : bool) (x : val) (keep : path -> bool)
| CClear
| CPush (xs : list val) (keep : path -> bool)
| CErase (at_ : option nat) (keep : path -> bool)
| CDeleteIf (del : nat -> bool) (keep : path -> bool)
| CReplace (x : val) (keep : path -> bool)
| CFreeze.
(** The calls that change the value [x] (a compound, an array, a container) through its own methods. *)
Definition own_method (c : call) (x : val) : bool :=
  match c, x with
  | CSet _ _ _ _, VNode _ _ => true
  | CClear, VNode KVec _ | CPush (_ :: _) _, VNode KVec _ | CErase _ _, VNode KVec _ | CDeleteIf _ _, VNode KVec _ => true
  | _, _ => false
  end.
(** The calls that are not covered by a freeze in the code: those that write the value as a whole, and the assignment of a
    typed value to an element of an array. *)
Definition loophole (c : call) (x : val) : bool :=
  match c, x with CReplace _ _, _ => true | CSet _ true _ _, VNode KArr _ => true | _, _ => false end.
