(** * Memory: the memory table of the Ruby bindings (bindings/ruby/ext/memory.cc). *)
From Verif Require Import Base.
From Verif Require Import Graph.
Local Open Scope nat_scope.

(** Addresses (0 is NULL), MemoryZone objects, types. *)
Definition addr := N.
Definition zid := nat.
(** MemoryTableEntry, memory.cc:46-58. *)
Record mentry := ME { me_count : Z; me_object : zid; me_owned : bool; me_root : option addr }.
(** What the allocator sees: xmalloc, Typelib::destroy with the layout of a type, ruby_xfree. *)
Inductive mevent := EvAlloc (p : addr) | EvDestroy (p : addr) (t : tid) | EvFree (p : addr).
(** MemoryTable (memory.cc:17), memory_types and memory_layouts (75-78; only the reference counts of the layouts), the
    live MemoryZone objects with their ptr (11-16), the identity of the next one, and what happened. *)
Record mem := Mem {
  mm_table : list (addr * mentry);
  mm_types : list (addr * tid);
  mm_layouts : list (tid * Z);
  mm_zones : list (zid * addr);
  mm_next : zid;
  mm_log : list mevent
}.
Definition mem0 : mem := Mem [] [] [] [] 0 [].
Definition set_table (m : mem) (t : list (addr * mentry)) : mem := Mem t (mm_types m) (mm_layouts m) (mm_zones m) (mm_next m) (mm_log m).
Definition set_types (m : mem) t l : mem := Mem (mm_table m) t l (mm_zones m) (mm_next m) (mm_log m).
Definition set_zones (m : mem) z n : mem := Mem (mm_table m) (mm_types m) (mm_layouts m) z n (mm_log m).
Definition add_log (m : mem) (l : list mevent) : mem := Mem (mm_table m) (mm_types m) (mm_layouts m) (mm_zones m) (mm_next m) (mm_log m ++ l).

(** st_lookup, st_insert (of a new key), st_delete; std::map::find, erase. *)
Section Maps.
Context {K A : Type} (eqb : K -> K -> bool).
Fixpoint mfind (k : K) (l : list (K * A)) : option A := match l with [] => None | (x, v) :: r => if eqb x k then Some v else mfind k r end.
Fixpoint mremove (k : K) (l : list (K * A)) : list (K * A) := match l with [] => [] | (x, v) :: r => if eqb x k then r else (x, v) :: mremove k r end.
Fixpoint mupdate (k : K) (v : A) (l : list (K * A)) : list (K * A) := match l with [] => [] | (x, w) :: r => if eqb x k then (x, v) :: r else (x, w) :: mupdate k v r end.
End Maps.
Notation afind := (mfind N.eqb).
Notation aremove := (mremove N.eqb).
Notation aupdate := (mupdate N.eqb).
Notation nfind := (mfind Nat.eqb).
Notation nremove := (mremove Nat.eqb).
Notation nupdate := (mupdate Nat.eqb).
Definition with_count (e : mentry) (c : Z) : mentry := ME c (me_object e) (me_owned e) (me_root e).
(** ++ on an int. *)
Definition incr (c : Z) : res Z := if (c <? 2147483647)%Z then Ok (c + 1)%Z else UB UOther.

(** memory_ref, memory.cc:99-115. *)
Definition memory_ref (m : mem) (p : addr) : mem * res bool :=
  match afind p (mm_table m) with
  | Some e => match incr (me_count e) with Ok c => (set_table m (aupdate p (with_count e c) (mm_table m)), Ok true) | UB u => (m, UB u) | _ => (m, UB UOther) end
  | None => (m, Ok false)
  end.
(** memory_delete, memory.cc:163-182: the destructors run if the type is known, and the block is freed. *)
Definition memory_delete (m : mem) (p : addr) : mem :=
  let d := match afind p (mm_types m) with
           | Some t => match nfind t (mm_layouts m) with Some _ => [EvDestroy p t] | None => [] end
           | None => []
           end in
  add_log m (d ++ [EvFree p]).
(** The end of memory_unref, memory.cc:151-159; *layouts.end() is undefined. *)
Definition forget_type (m : mem) (p : addr) : mem * res unit :=
  match afind p (mm_types m) with
  | None => (m, Ok tt)
  | Some t => match nfind t (mm_layouts m) with
              | None => (m, UB UOther)
              | Some c => (set_types m (aremove p (mm_types m)) (if (c - 1 =? 0)%Z then nremove t (mm_layouts m) else nupdate t (c - 1)%Z (mm_layouts m)), Ok tt)
              end
  end.
(** memory_unref, memory.cc:126-160. rb_raise(rb_eArgError) is ERuntime. [fuel] bounds the chain of root pointers. *)
Fixpoint memory_unref (fuel : nat) (m : mem) (p : addr) : mem * res unit :=
  match fuel with
  | 0 => (m, Fuel)
  | S f =>
    match afind p (mm_table m) with
    | None => (m, Throw ERuntime)
    | Some e =>
        let m1 := set_table m (aupdate p (with_count e (me_count e - 1)%Z) (mm_table m)) in
        if negb (me_count e - 1 =? 0)%Z then (m1, Ok tt)
        else
          let m2 := if me_owned e then memory_delete m1 p else m1 in
          let '(m3, r) := match me_root e with Some q => memory_unref f m2 q | None => (m2, Ok tt) end in
          match r with
          | Ok _ => forget_type (set_table m3 (aremove p (mm_table m3))) p
          | _ => (m3, r)
          end
    end
  end.
(** memory_aref, memory.cc:184-195. *)
Definition memory_aref (m : mem) (p : addr) : option zid := option_map me_object (afind p (mm_table m)).
(** memory_aset, memory.cc:197-220. The constructor of MemoryTableEntry refuses owned entries with a root. The entry stays
    in the table when the root is not registered. No root is the null pointer. *)
Definition memory_aset (m : mem) (p : addr) (obj : zid) (owned : bool) (root : option addr) : mem * res unit :=
  match memory_aref m p with
  | Some _ => (m, Throw ERuntime)
  | None =>
    if N.eqb p (match root with Some q => q | None => 0%N end) then (m, Throw ERuntime)
    else
      let '(m1, known) := memory_ref m p in
      match known with
      | Ok true => (m1, Ok tt)
      | Ok false =>
          if owned && match root with Some _ => true | None => false end then (m1, Throw ERuntime)
          else
            let m2 := set_table m1 ((p, ME 1 obj owned root) :: mm_table m1) in
            match root with
            | None => (m2, Ok tt)
            | Some q => match afind q (mm_table m2) with
                        | None => (m2, Throw ERuntime)
                        | Some e => match incr (me_count e) with Ok c => (set_table m2 (aupdate q (with_count e c) (mm_table m2)), Ok tt) | _ => (m2, UB UOther) end
                        end
            end
      | Throw e => (m1, Throw e) | UB u => (m1, UB u) | Fuel => (m1, Fuel)
      end
  end.
(** memory_wrap, memory.cc:265-286. The new MemoryZone exists, and will be finalized, even if memory_aset raises. *)
Definition memory_wrap (m : mem) (p : addr) (owned : bool) (root : option addr) : mem * res zid :=
  match memory_aref m p with
  | Some z => (m, Ok z)
  | None =>
      let z := mm_next m in
      let m1 := set_zones m ((z, p) :: mm_zones m) (S z) in
      match memory_aset m1 p z owned root with
      | (m2, Ok _) => (m2, Ok z)
      | (m2, Throw e) => (m2, Throw e)
      | (m2, UB u) => (m2, UB u)
      | (m2, Fuel) => (m2, Fuel)
      end
  end.
(** memory_allocate, memory.cc:222-236; [p] is what ruby_xmalloc returned. *)
Definition memory_allocate (m : mem) (p : addr) : mem * res zid := memory_wrap (add_log m [EvAlloc p]) p true None.
(** memory_init, memory.cc:238-262; [has_layout]: layout_of(t, true) does not throw. Typelib::init is C08. *)
Definition memory_init (m : mem) (z : zid) (t : tid) (has_layout : bool) : mem * res unit :=
  match nfind z (mm_zones m) with
  | None => (m, UB UOther)
  | Some p =>
    match afind p (mm_types m) with
    | Some _ => (m, Throw ERuntime)
    | None =>
        match nfind t (mm_layouts m) with
        | Some c => match incr c with Ok c' => (set_types m ((p, t) :: mm_types m) (nupdate t c' (mm_layouts m)), Ok tt) | _ => (m, UB UOther) end
        | None => if has_layout then (set_types m ((p, t) :: mm_types m) ((t, 1%Z) :: mm_layouts m), Ok tt) else (m, Throw ERuntime)
        end
    end
  end.
(** memory_zone_invalidate, memory.cc:331-342: ptr becomes NULL after memory_unref has returned. *)
Definition zone_invalidate (fuel : nat) (m : mem) (z : zid) : mem * res unit :=
  match nfind z (mm_zones m) with
  | None => (m, UB UOther)
  | Some p => if (p =? 0)%N then (m, Ok tt)
              else match memory_unref fuel m p with
                   | (m', Ok _) => (set_zones m' (nupdate z 0%N (mm_zones m')) (mm_next m'), Ok tt)
                   | x => x
                   end
  end.
(** memory_zone_unref, memory.cc:117-124, the finalizer: the garbage collector calls it once. *)
Definition zone_finalize (fuel : nat) (m : mem) (z : zid) : mem * res unit :=
  match nfind z (mm_zones m) with
  | None => (m, UB UOther)
  | Some p => if (p =? 0)%N then (set_zones m (nremove z (mm_zones m)) (mm_next m), Ok tt)
              else match memory_unref fuel m p with
                   | (m', Ok _) => (set_zones m' (nremove z (mm_zones m')) (mm_next m'), Ok tt)
                   | x => x
                   end
  end.
(** memory_zone_table_size, memory.cc:355-359. *)
Definition table_size (m : mem) : nat := length (mm_table m).

(** ** Histories *)
Inductive mop :=
| MAlloc (p : addr)                          (* memory_allocate, when ruby_xmalloc returns p *)
| MWrap (p : addr) (root : option addr)      (* memory_wrap(p, false, root) *)
| MInit (z : zid) (t : tid) (has_layout : bool)
| MInvalidate (z : zid)
| MFinalize (z : zid).
Definition to_unit (x : mem * res zid) : mem * res unit := match x with (m, Ok _) => (m, Ok tt) | (m, Throw e) => (m, Throw e) | (m, UB u) => (m, UB u) | (m, Fuel) => (m, Fuel) end.
Definition mexec (fuel : nat) (m : mem) (o : mop) : mem * res unit :=
  match o with
  | MAlloc p => to_unit (memory_allocate m p)
  | MWrap p root => to_unit (memory_wrap m p false root)
  | MInit z t h => memory_init m z t h
  | MInvalidate z => zone_invalidate fuel m z
  | MFinalize z => zone_finalize fuel m z
  end.
