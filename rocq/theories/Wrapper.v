(** * Wrapper: Ruby objects that refer to parts of C++ values, and their invalidation
    (bindings/ruby/lib/typelib/type.rb, container_type.rb, compound_type.rb, array_type.rb, accessor.rb, path.rb). *)
From Verif Require Import Base.

(** ** Values in memory. Simplification: of a type only what matters for the life of memory is kept: numbers, enums, pointers
    and opaques are [WLeaf]. A value of a vector refers to a buffer; the buffers are numbered, 0 is the memory of the root
    value. A place is a buffer and the indexes of fields and elements that lead to the value inside of the buffer. Places
    stand for addresses: a buffer that was freed may be allocated again. *)
Inductive wty := WLeaf | WComp (fs : list wty) | WArr (n : nat) (e : wty) | WVec (e : wty) | WStr.
Inductive wval := VLeaf | VComp (l : list wval) | VVec (buf : N) (l : list wval) | VStr (buf : N) (n : nat).
Definition place : Type := N * list nat.
Definition root_place : place := (0%N, []).
Fixpoint nats_eqb (a b : list nat) : bool :=
  match a, b with [], [] => true | x :: r, y :: s => Nat.eqb x y && nats_eqb r s | _, _ => false end.
Definition place_eqb (a b : place) : bool := N.eqb (fst a) (fst b) && nats_eqb (snd a) (snd b).

(** The part at position [q] of a value at place [pl]: its place and its value. *)
Fixpoint locate (pl : place) (v : wval) (q : list nat) : option (place * wval) :=
  match q with
  | [] => Some (pl, v)
  | i :: q' =>
    match v with
    | VComp l => match nth_error l i with Some x => locate (fst pl, snd pl ++ [i]) x q' | None => None end
    | VVec b l => match nth_error l i with Some x => locate (b, [i]) x q' | None => None end
    | VStr b n => if Nat.ltb i n then locate (b, [i]) VLeaf q' else None
    | VLeaf => None
    end
  end.
(** The position of the part at a place, if the memory is in use: what dereferencing a pointer finds. *)
Fixpoint search (v : wval) (pl target : place) {struct v} : option (list nat) :=
  if place_eqb pl target then Some []
  else match v with
       | VLeaf => None
       | VComp l =>
         (fix go (i : nat) (l : list wval) : option (list nat) :=
            match l with
            | [] => None
            | x :: r => match search x (fst pl, snd pl ++ [i]) target with Some q => Some (i :: q) | None => go (S i) r end
            end) O l
       | VVec b l =>
         (fix go (i : nat) (l : list wval) : option (list nat) :=
            match l with
            | [] => None
            | x :: r => match search x (b, [i]) target with Some q => Some (i :: q) | None => go (S i) r end
            end) O l
       | VStr b n =>
         match target with (tb, [i]) => if N.eqb tb b && Nat.ltb i n then Some [i] else None | _ => None end
       end.
Definition read (v : wval) (pl : place) : res (list nat * wval) :=
  match search v root_place pl with
  | Some q => match locate root_place v q with Some (_, x) => Ok (q, x) | None => UB UOob end
  | None => UB UOob
  end.
Fixpoint nth_upd {A} (l : list A) (i : nat) (x : A) : list A :=
  match l, i with [], _ => [] | _ :: r, O => x :: r | y :: r, S i' => y :: nth_upd r i' x end.
(** The value with its part at position [q] replaced. *)
Fixpoint upd (v : wval) (q : list nat) (nv : wval) : wval :=
  match q with
  | [] => nv
  | i :: q' =>
    match v with
    | VComp l => match nth_error l i with Some x => VComp (nth_upd l i (upd x q' nv)) | None => v end
    | VVec b l => match nth_error l i with Some x => VVec b (nth_upd l i (upd x q' nv)) | None => v end
    | _ => v
    end
  end.

(** ** Wrappers. Every wrapper except for the root is kept in the cache of its parent: @fields of a compound, under the String or the
    Symbol it was asked for (compound_type.rb:457-471), or @elements of an array or container. [w_path]: the keys that lead to
    it from the root. [loose]: wrappers that no cache knows. [dead]: invalidated wrappers. *)
Inductive key := Fld (sym : bool) (i : nat) | Idx (i : nat).
Definition kidx (k : key) : nat := match k with Fld _ i => i | Idx i => i end.
Definition key_eqb (a b : key) : bool :=
  match a, b with Fld s i, Fld t j => Bool.eqb s t && Nat.eqb i j | Idx i, Idx j => Nat.eqb i j | _, _ => false end.
Fixpoint path_eqb (a b : list key) : bool :=
  match a, b with [], [] => true | x :: r, y :: s => key_eqb x y && path_eqb r s | _, _ => false end.
Record wr := Wr { w_path : list key; w_id : N; w_place : place; w_type : wty }.
Record st := St { s_val : wval; s_live : list wr; s_loose : list wr; s_dead : list N; s_next : N }.
Definition by_id (l : list wr) (i : N) : option wr := find (fun w => N.eqb (w_id w) i) l.
Definition by_path (l : list wr) (p : list key) : option wr := find (fun w => path_eqb (w_path w) p) l.
(** The type of the field or element for a key: has_field?, [] of compounds, arrays and containers. *)
Definition key_type (t : wty) (k : key) : option wty :=
  match t, k with
  | WComp fs, Fld _ i => nth_error fs i
  | WArr n e, Idx i => if Nat.ltb i n then Some e else None
  | WVec e, Idx _ => Some e
  | WStr, Idx _ => Some WLeaf
  | _, _ => None
  end.

(** A new root value, value_new (ext/value.cc:446-461). *)
Definition new_root (t : wty) (v : wval) : st := St v [Wr [] 0 root_place t] [] [] 1.

(** get and raw_get of compounds (compound_type.rb:457-475), raw_get of arrays (array_type.rb:154-156) and containers
    (container_type.rb:82-109), with the bounds check of containers; typelib_get_field, array_get, container_do_get compute the
    address from that of the wrapper and, for containers, from the content of the memory. An invalidated wrapper raises TypeError. *)
Definition get (s : st) (i : N) (k : key) : res (N * st) :=
  match by_id (s_live s) i with
  | None => Throw EType
  | Some w =>
    match key_type (w_type w) k with
    | None => Throw EArg
    | Some t =>
      '(q, x) <- read (s_val s) (w_place w) ;;
      match locate (w_place w) x [kidx k] with
      | None => Throw EArg
      | Some (pl, _) =>
        match by_path (s_live s) (w_path w ++ [k]) with
        | Some c => Ok (w_id c, s)
        | None => Ok (s_next s, St (s_val s) (s_live s ++ [Wr (w_path w ++ [k]) (s_next s) pl t]) (s_loose s) (s_dead s) (s_next s + 1)%N)
        end
      end
    end
  end.

(** invalidate on the wrappers selected by [f], with their children, type.rb:302-309, and removal from the caches. *)
Definition drop (f : wr -> bool) (s : st) : st :=
  St (s_val s) (filter (fun w => negb (f w)) (s_live s)) (s_loose s) (s_dead s ++ map w_id (filter f (s_live s))) (s_next s).
(** What follows a path, if it is a prefix. *)
Fixpoint strip (p q : list key) : option (list key) :=
  match p, q with [], _ => Some q | x :: r, y :: s => if key_eqb x y then strip r s else None | _, _ => None end.
(** invalidate_children, container_type.rb:70-76 and its likes. *)
Definition below (p : list key) (w : wr) : bool := match strip p (w_path w) with Some (_ :: _) => true | _ => false end.
Definition invalidate_children (p : list key) (s : st) : st := drop (below p) s.
(** The loop of handle_container_invalidation that pops trailing elements, container_type.rb:275-279. *)
Definition trailing (p : list key) (n : nat) (w : wr) : bool :=
  match strip p (w_path w) with Some (Idx i :: _) => Nat.leb n i | _ => false end.

(** Accessor.find_in_type with raw_get_cached and raw_each_cached (accessor.rb:12-52): paths to the containers, shorter ones first.
    The order of paths of equal length is unspecified (sort_by), here they are in the order they are found. *)
Inductive astep := ACall (i : nat) | AIterate.
Definition is_container (t : wty) : bool := match t with WVec _ | WStr => true | _ => false end.
Fixpoint paths (t : wty) : list (list astep) :=
  (if is_container t then [[]] else []) ++
  match t with
  | WComp fs =>
    (fix go (i : nat) (l : list wty) : list (list astep) :=
       match l with [] => [] | x :: r => map (cons (ACall i)) (paths x) ++ go (S i) r end) O fs
  | WArr _ e | WVec e => map (cons AIterate) (paths e)
  | _ => []
  end.
Fixpoint insert_by (p : list astep) (l : list (list astep)) : list (list astep) :=
  match l with [] => [p] | x :: r => if Nat.ltb (length p) (length x) then p :: l else x :: insert_by p r end.
Definition containers_accessor (t : wty) : list (list astep) := fold_left (fun acc p => insert_by p acc) (paths t) [].
(** Path#resolve, path.rb:54-83, with raw_get_cached(field name) and raw_each_cached on the caches. Fields are asked for by their
    name, a String. *)
Definition child_index (p : list key) (w : wr) : bool := match strip p (w_path w) with Some [Idx _] => true | _ => false end.
Fixpoint resolve (l : list wr) (w : wr) (a : list astep) : list wr :=
  match a with
  | [] => [w]
  | ACall i :: a' => match by_path l (w_path w ++ [Fld false i]) with Some c => resolve l c a' | None => [] end
  | AIterate :: a' => flat_map (fun c => resolve l c a') (filter (child_index (w_path w)) l)
  end.
Definition cached_containers (l : list wr) (w : wr) : list wr := flat_map (resolve l w) (containers_accessor (w_type w)).

(** contained_memory_id (ext/specialized_types.cc:603-610): the address of the elements of a vector that is not empty; nil for other
    containers (container_type.rb:258-259). size: the number of elements. *)
Definition memory_id (v : wval) (w : wr) : res (option N) :=
  match w_type w with
  | WVec _ => '(_, x) <- read v (w_place w) ;; match x with VVec _ [] => Ok None | VVec b _ => Ok (Some b) | _ => UB UOther end
  | _ => Ok None
  end.
Definition size (v : wval) (w : wr) : res nat :=
  '(_, x) <- read v (w_place w) ;; match x with VVec _ l => Ok (length l) | VStr _ n => Ok n | _ => UB UOther end.
Definition is_live (s : st) (w : wr) : bool := match by_id (s_live s) (w_id w) with Some _ => true | None => false end.
(** The ensure part of handle_container_invalidation, container_type.rb:264-281. *)
Definition memory_changed (a b : option N) : bool :=
  match a with None => false | Some x => match b with Some y => negb (N.eqb x y) | None => true end end.
Definition after_container (c : wr * option N) (s : st) : res st :=
  let '(w, mid) := c in
  if negb (is_live s w) then Ok s
  else
    changed <- (match mid with None => Ok false | Some _ => mid' <- memory_id (s_val s) w ;; Ok (memory_changed mid mid') end) ;;
    if changed then Ok (invalidate_children (w_path w) s)
    else n <- size (s_val s) w ;; Ok (drop (trailing (w_path w) n) s).
Fixpoint map_res {A B} (f : A -> res B) (l : list A) : res (list B) :=
  match l with [] => Ok [] | x :: r => y <- f x ;; ys <- map_res f r ;; Ok (y :: ys) end.
Fixpoint after_containers (l : list (wr * option N)) (s : st) : res st :=
  match l with [] => Ok s | c :: r => s' <- after_container c s ;; after_containers r s' end.
(** handle_invalidation, type.rb:343-370, around C++ code that changes the memory of the wrapper to [nv]: push, concat, erase
    (container_type.rb:303-352), copy and the assignment of fields and array elements that are typelib values (typelib.rb:243-260),
    from_buffer (type.rb:671-683); all but erase through allocating_operation. The containers are handled in the order of the list. *)
Definition protected (s : st) (i : N) (nv : wval) : res st :=
  match by_id (s_live s) i with
  | None => Throw EType
  | Some w =>
    let cs := cached_containers (s_live s) w in
    ids <- map_res (fun c => m <- memory_id (s_val s) c ;; Ok (c, m)) cs ;;
    '(q, _) <- read (s_val s) (w_place w) ;;
    after_containers ids (St (upd (s_val s) q nv) (s_live s) (s_loose s) (s_dead s) (s_next s))
  end.
(** clear of containers, container_type.rb:49-52; [nv]: the container when it is empty. *)
Definition clear (s : st) (i : N) (nv : wval) : res st :=
  match by_id (s_live s) i with
  | None => Throw EType
  | Some w =>
    '(q, _) <- read (s_val s) (w_place w) ;;
    Ok (invalidate_children (w_path w) (St (upd (s_val s) q nv) (s_live s) (s_loose s) (s_dead s) (s_next s)))
  end.
(** Changes without handle_invalidation: set and []= of containers (container_type.rb:143-158), zero! (ext/value.cc:611-616),
    raw_memcpy (ext/specialized_types.cc:614-643), the assignment of numbers. [j]: the positions below the wrapper that lead to what
    is changed, e.g. the index of the element that is set. *)
Definition unprotected (s : st) (i : N) (j : list nat) (nv : wval) : res st :=
  match by_id (s_live s) i with
  | None => Throw EType
  | Some w =>
    '(q, x) <- read (s_val s) (w_place w) ;;
    match locate (w_place w) x j with
    | None => Throw EArg
    | Some _ => Ok (St (upd (s_val s) (q ++ j) nv) (s_live s) (s_loose s) (s_dead s) (s_next s))
    end
  end.
(** delete_if, container_type.rb:355-364, container_delete_if (ext/specialized_types.cc:573-594): the block gets a wrapper for each of
    the elements, which no cache knows. Simplification: one wrapper for each of the elements of before. *)
Fixpoint loose_elements (p : list key) (b : N) (t : wty) (next : N) (i : nat) (n : nat) : list wr :=
  match n with O => [] | S n' => Wr (p ++ [Idx i]) next (b, [i]) t :: loose_elements p b t (next + 1)%N (S i) n' end.
Definition delete_if (s : st) (i : N) (nv : wval) : res st :=
  match by_id (s_live s) i with
  | None => Throw EType
  | Some w =>
    '(_, x) <- read (s_val s) (w_place w) ;;
    match x, w_type w with
    | VVec b l, WVec t =>
      protected (St (s_val s) (s_live s) (s_loose s ++ loose_elements (w_path w) b t (s_next s) 0 (length l)) (s_dead s) (s_next s + lenN l)%N) i nv
    | _, _ => Throw EArg
    end
  end.
(** cast, type.rb:248-253, value_do_cast (ext/value.cc:536-552): another wrapper of the same memory. *)
Definition cast (s : st) (i : N) (t : wty) : res (N * st) :=
  match by_id (s_live s) i with
  | None => Throw EType
  | Some w => Ok (s_next s, St (s_val s) (s_live s) (s_loose s ++ [Wr (w_path w) (s_next s) (w_place w) t]) (s_dead s) (s_next s + 1)%N)
  end.

(** ** Vector::push (lang/csupport/containers.cc:144-157): the vector is resized, which may allocate another buffer [b'], then the
    element is copied from the address given by the caller. *)
Definition vector_push (v : wval) (c src : place) (init : wval) (b' : N) (copy : wval -> wval) : res wval :=
  '(q, x) <- read v c ;;
  match x with
  | VVec b l =>
    let v1 := upd v q (VVec b' (l ++ [init])) in
    '(_, y) <- read v1 src ;;
    Ok (upd v1 (q ++ [length l]) (copy y))
  | _ => UB UOther
  end.
