(** * Freeze: Type#freeze and the methods that are replaced by it (bindings/ruby/lib/typelib/type.rb, compound_type.rb,
    array_type.rb, container_type.rb). *)
From Verif Require Import Base FreezeSpec.
Local Open Scope nat_scope.

(** The object for a (part of a) value: @__typelib_frozen (type.rb:289-297), which is set exactly when the Freezer module of
    its class is mixed in, and the objects cached for its parts: @fields (compound_type.rb:141), @elements (array_type.rb:45,
    container_type.rb:14). Simplified: one object for each part (a compound keeps another one for the name given as a
    symbol). Objects are reached from the root; those that were dropped from a cache are invalidated and answer TypeError. *)
Inductive wr := Wr (frozen : bool) (cache : list (nat * wr)).
Definition fresh : wr := Wr false [].
Fixpoint cfind (i : nat) (l : list (nat * wr)) : option wr :=
  match l with [] => None | (j, w) :: r => if j =? i then Some w else cfind i r end.
Fixpoint object (p : path) (w : wr) : option wr :=
  match p with [] => Some w | i :: q => match w with Wr _ l => match cfind i l with Some x => object q x | None => None end end end.
(** Changes of one part of the value and of one object. *)
Fixpoint upd_nth {A} (i : nat) (f : A -> A) (l : list A) : list A :=
  match l, i with [], _ => [] | x :: r, 0 => f x :: r | x :: r, S j => x :: upd_nth j f r end.
Fixpoint val_upd (p : path) (f : val -> val) (v : val) : val :=
  match p with [] => f v | i :: q => match v with VNode k l => VNode k (upd_nth i (val_upd q f) l) | VNum _ => v end end.
Fixpoint wr_upd (p : path) (f : wr -> wr) (w : wr) : wr :=
  match p with
  | [] => f w
  | i :: q => match w with Wr b l => Wr b (map (fun jx => if fst jx =? i then (fst jx, wr_upd q f (snd jx)) else jx) l) end
  end.
(** freeze, type.rb:289-293, and freeze_children (compound_type.rb:65-70, array_type.rb:53-58, container_type.rb:63-68): the
    cached objects, at all depths. *)
Fixpoint freeze (w : wr) : wr := match w with Wr _ l => Wr true (map (fun jx => (fst jx, freeze (snd jx))) l) end.
(** The object of a part is created when it is asked for (compound_type.rb:460-462, array_type.rb:154-156,
    container_type.rb:83-85). *)
Definition get_part (i : nat) (w : wr) : wr := match w with Wr b l => match cfind i l with Some _ => w | None => Wr b ((i, fresh) :: l) end end.
(** Invalidation of objects below an object. *)
Fixpoint prune (keep : path -> bool) (w : wr) : wr :=
  match w with
  | Wr b l => Wr b ((fix go (l : list (nat * wr)) := match l with
                     | [] => []
                     | (i, x) :: r => if keep [i] then (i, prune (fun q => keep (i :: q)) x) :: go r else go r
                     end) l)
  end.
Definition drop_all (w : wr) : wr := match w with Wr b _ => Wr b [] end.
Definition remove_at (i : nat) (l : list val) : list val := firstn i l ++ skipn (S i) l.
Fixpoint delete_at (del : nat -> bool) (i : nat) (l : list val) : list val :=
  match l with [] => [] | x :: r => if del i then delete_at del (S i) r else x :: delete_at del (S i) r end.
Definition with_parts (f : list val -> list val) (v : val) : val := match v with VNode k l => VNode k (f l) | VNum _ => v end.

Definition state : Type := val * wr.
(** A call on the object at [p]. A method that the class does not have: NoMethodError (EArg). Typelib.copy does not ask whether
    its target is frozen (typelib.rb:243-260), so that the assignment of a typed value to an element of an array
    (array_type.rb:158-167) is not refused. *)
Definition do_call (st : state) (p : path) (c : call) : state * res unit :=
  let '(v, w) := st in
  match object p w, part p v with
  | Some (Wr frozen _), Some x =>
    let assign i y keep := ((val_upd (p ++ [i]) (fun _ => y) v, wr_upd p (fun o => wr_upd [i] (prune keep) (get_part i o)) w), Ok tt) in
    match c, x with
    | CGet i, VNode _ l => if i <? length l then ((v, wr_upd p (get_part i) w), Ok tt) else (st, Throw EArg)
    (* compound_type.rb:468-510, 11-22: set, raw_set and raw_set_field are replaced *)
    | CSet i typed y keep, VNode KComp l =>
        if frozen then (st, Throw EType)
        else if i <? length l then if typed then assign i y keep else ((val_upd (p ++ [i]) (fun _ => y) v, w), Ok tt)
        else (st, Throw EArg)
    (* array_type.rb:158-167, 9-14: do_set is replaced *)
    | CSet i typed y keep, VNode KArr l =>
        if i <? length l then
          if typed then assign i y keep
          else if frozen then (st, Throw EType) else ((val_upd (p ++ [i]) (fun _ => y) v, w), Ok tt)
        else (st, Throw EArg)
    (* container_type.rb:143-158, 17-24: do_set is replaced *)
    | CSet i typed y keep, VNode KVec l =>
        if i <? length l then if frozen then (st, Throw EType) else ((val_upd (p ++ [i]) (fun _ => y) v, wr_upd p (wr_upd [i] (prune keep)) w), Ok tt)
        else (st, Throw EArg)
    (* container_type.rb:49-52, 19 *)
    | CClear, VNode KVec _ => if frozen then (st, Throw EType) else ((val_upd p (with_parts (fun _ => [])) v, wr_upd p drop_all w), Ok tt)
    (* container_type.rb:302-313, 23: do_push is called for each of the values *)
    | CPush xs keep, VNode KVec _ =>
        match xs with
        | [] => (st, Ok tt)
        | _ => if frozen then (st, Throw EType) else ((val_upd p (with_parts (fun l => l ++ xs)) v, wr_upd p (prune keep) w), Ok tt)
        end
    (* container_type.rb:345-352, 22 *)
    | CErase i keep, VNode KVec _ =>
        if frozen then (st, Throw EType)
        else match i with
             | None => (st, Ok tt)
             | Some i => ((val_upd p (with_parts (remove_at i)) v, wr_upd p (prune keep) w), Ok tt)
             end
    (* container_type.rb:355-364, 21 *)
    | CDeleteIf del keep, VNode KVec _ =>
        if frozen then (st, Throw EType) else ((val_upd p (with_parts (delete_at del 0)) v, wr_upd p (prune keep) w), Ok tt)
    (* type.rb:660-683 (from_buffer), typelib.rb:243-260 (copy), value.cc:712 (zero!), specialized_types.cc:619 (raw_memcpy) *)
    | CReplace y keep, _ => ((val_upd p (fun _ => y) v, wr_upd p (prune keep) w), Ok tt)
    | CFreeze, _ => ((v, wr_upd p freeze w), Ok tt)
    | _, _ => (st, Throw EArg)
    end
  | _, _ => (st, Throw EType)
  end.
Fixpoint do_calls (st : state) (h : list (path * call)) : state :=
  match h with [] => st | (p, c) :: r => do_calls (fst (do_call st p c)) r end.
(** frozen? (type.rb:295-297) of the object at [p]; None: there is none. *)
Definition frozen_at (p : path) (w : wr) : option bool := match object p w with Some (Wr b _) => Some b | None => None end.
