(** * MemorySpec: who refers to the memory blocks that the bindings know. *)
From Verif Require Import Base Memory.
From Verif Require Import Graph.
Local Open Scope nat_scope.

(** The MemoryZone objects that are not finalized yet, with the address they give access to (none after an invalidate);
    for each block the block it is a part of, whether the bindings own it, and the type it was initialized with. *)
Record refs := Refs {
  rf_zones : list (zid * option addr);
  rf_next : zid;
  rf_root : addr -> option addr;
  rf_owned : addr -> bool;
  rf_type : addr -> option tid
}.
Definition refs0 : refs := Refs [] 0 (fun _ => None) (fun _ => false) (fun _ => None).
(** A block is referenced if a zone object gives access to it, or if a part of it is referenced. *)
Inductive referenced (s : refs) : addr -> Prop :=
| ref_zone z p : In (z, Some p) (rf_zones s) -> referenced s p
| ref_part p q : referenced s p -> rf_root s p = Some q -> referenced s q.
Definition aset {A} (f : addr -> A) (p : addr) (v : A) : addr -> A := fun q => if N.eqb q p then v else f q.
Definition drop_zone (z : zid) (l : list (zid * option addr)) := filter (fun x => negb (fst x =? z)) l.
Definition null_zone (z : zid) (l : list (zid * option addr)) := map (fun x => if fst x =? z then (z, None) else x) l.
(** One call, as a program makes it: allocations return addresses that nobody refers to; the root pointer that is given
    for a new part is a block that is referenced; NULL is not wrapped; blocks are initialized once; the garbage collector
    finalizes each zone object once. *)
Inductive call (s : refs) : mop -> refs -> Prop :=
| call_alloc p : p <> 0%N -> ~ referenced s p ->
    call s (MAlloc p) (Refs ((rf_next s, Some p) :: rf_zones s) (S (rf_next s)) (aset (rf_root s) p None) (aset (rf_owned s) p true) (aset (rf_type s) p None))
| call_wrap_known p root : referenced s p -> call s (MWrap p root) s
| call_wrap_new p root : p <> 0%N -> ~ referenced s p -> (forall q, root = Some q -> referenced s q) ->
    call s (MWrap p root) (Refs ((rf_next s, Some p) :: rf_zones s) (S (rf_next s)) (aset (rf_root s) p root) (aset (rf_owned s) p false) (aset (rf_type s) p None))
| call_init z p t : In (z, Some p) (rf_zones s) -> rf_type s p = None ->
    call s (MInit z t true) (Refs (rf_zones s) (rf_next s) (rf_root s) (rf_owned s) (aset (rf_type s) p (Some t)))
| call_invalidate z o : In (z, o) (rf_zones s) ->
    call s (MInvalidate z) (Refs (null_zone z (rf_zones s)) (rf_next s) (rf_root s) (rf_owned s) (rf_type s))
| call_finalize z o : In (z, o) (rf_zones s) ->
    call s (MFinalize z) (Refs (drop_zone z (rf_zones s)) (rf_next s) (rf_root s) (rf_owned s) (rf_type s)).
Inductive calls : list mop -> refs -> Prop :=
| calls_nil : calls [] refs0
| calls_snoc l s o s' : calls l s -> call s o s' -> calls (l ++ [o]) s'.
(** All calls of a history, one after the other, none of which fails. *)
Inductive runs_to (fuel : nat) : list mop -> mem -> Prop :=
| runs_nil : runs_to fuel [] mem0
| runs_snoc l m o m' : runs_to fuel l m -> mexec fuel m o = (m', Ok tt) -> runs_to fuel (l ++ [o]) m'.
(** How often an event happened. *)
Definition mevent_dec (a b : mevent) : {a = b} + {a <> b}.
Proof. decide equality; try apply N.eq_dec; apply Nat.eq_dec. Defined.
Definition times (e : mevent) (l : list mevent) : nat := count_occ mevent_dec l e.
