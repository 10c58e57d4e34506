(** * ValueOps: values in memory and the operations of typelib/value_ops.cc and
      lang/csupport/containers.cc. *)
From Verif Require Import Base Types Layout.
Local Open Scope N_scope.

(** ** Memory *)

(** A cell is one byte of memory. A live container object of [sizeof] s occupies s cells: [Obj o]
    followed by s-1 cells [Cont]. A std::vector object owns its capacity (in bytes) and its byte buffer,
    given as cells because it may hold container objects itself. A std::string owns its characters. *)
Inductive cell :=
| B (n : N)
| Obj (o : cobj)
| Cont
with cobj :=
| VecObj (cap : N) (cs : list cell)
| StrObj (bs : list N).

Definition is_byte (c : cell) : bool := match c with B _ => true | _ => false end.
Definition byte_of (c : cell) : N := match c with B n => n | _ => 0 end.

(** A raw access to the first [n] cells of [m] (pointer arithmetic + memcpy/memset/memcmp). *)
Definition take_cells (n : N) (m : list cell) : res (list cell * list cell) :=
  if lenN m <? n then UB UOob else Ok (takeN n m, dropN n m).
Definition take_raw (n : N) (m : list cell) : res (list N * list cell) :=
  '(a, b) <- take_cells n m ;;
  if forallb is_byte a then Ok (map byte_of a, b) else UB URaw.

(** Access to the container object at the beginning of [m]. *)
Definition is_cont (c : cell) : bool := match c with Cont => true | _ => false end.
Definition take_obj (size : N) (m : list cell) : res (cobj * list cell) :=
  '(a, b) <- take_cells size m ;;
  match a with
  | Obj o :: r => if forallb is_cont r then Ok (o, b) else UB URaw
  | _ => UB URaw
  end.
Definition put_obj (size : N) (o : cobj) : list cell := Obj o :: repN (N.pred size) Cont.

(** PTRDIFF_MAX = std::vector<uint8_t>::max_size(). *)
Definition max_size : N := 9223372036854775807.
Arguments max_size : simpl never.

(** std::vector<uint8_t>::resize (libstdc++): shrinking forgets the tail bytes, growing zero-fills, in
    place when the capacity allows it, otherwise after moving the bytes to a block of size
    size + max(size, n - size). Forgetting bytes of a live container is [ULeak], moving them is [URaw].
    Simplification: allocation failure (std::bad_alloc) is not modelled. *)
Definition vec_raw_resize (n cap : N) (cs : list cell) : res (N * list cell) :=
  let len := lenN cs in
  if n <=? len then
    if forallb is_byte (dropN n cs) then Ok (cap, takeN n cs) else UB ULeak
  else if n <=? cap then Ok (cap, cs ++ repN (n - len) (B 0))
  else if max_size <? n then Throw ELength
  else if forallb is_byte cs then
    Ok (N.min max_size (len + N.max len (n - len)), cs ++ repN (n - len) (B 0))
  else UB URaw.

(** ** The generic bytecode walk

    All of ValueOps::dump (value_ops.cc:59-123), load (125-191), zero (291-340), destroy (399-445),
    copy (447-502) and compare (504-570) are the same loop
      [for (it = begin; it != end && *it != FLAG_END; ++it) switch( *it ) ...]
    over the bytecode; they differ in what they do for each operation. The record gives these parts. *)
Record handlers (S : Type) := mkH {
  h_mem : N -> S -> res S;                       (* case FLAG_MEMCPY *)
  h_skip : N -> S -> res S;                      (* case FLAG_SKIP *)
  (* case FLAG_CONTAINER: container, state, bytecode after the address word; returns the iterator *)
  h_cont : nat -> ckind -> N -> ty -> S -> list word -> res (S * list word);
  h_zero_skips : bool;                           (* does the array case call skipBlock when count == 0 ? *)
  h_arr_end : list word -> res (list word);      (* checks after an array, and ++it *)
  h_cont_end : list word -> res (list word);     (* checks after a container, and ++it *)
  h_bad : exn                                    (* default: *)
}.
Arguments mkH {S}.

(** [if (it == end || *it != FLAG_END) throw runtime_error], followed by the loop's [++it]. *)
Definition expect_end (it : list word) : res (list word) :=
  match it with
  | w :: r => match decode w with OEnd => Ok r | _ => Throw ERuntime end
  | [] => Throw ERuntime
  end.
(** [if ( *it != FLAG_END) throw runtime_error] (no test against end), value_ops.cc:155. *)
Definition expect_end_deref (it : list word) : res (list word) :=
  match it with
  | w :: r => match decode w with OEnd => Ok r | _ => Throw ERuntime end
  | [] => UB UCode
  end.
(** no test at all: the loop's [++it]. *)
Definition next_word (it : list word) : res (list word) :=
  match it with _ :: r => Ok r | [] => UB UCode end.

Fixpoint walk {S} (fuel : nat) (h : handlers S) (s : S) (it : list word) : res (S * list word) :=
  match fuel with
  | O => Fuel
  | Datatypes.S f =>
    match it with
    | [] => Ok (s, [])
    | w :: it1 =>
      match decode w with
      | OEnd => Ok (s, it)
      | OMem => match it1 with
                | W n :: it2 => s' <- h_mem h n s ;; walk f h s' it2
                | _ => UB UCode
                end
      | OSkip => match it1 with
                 | W n :: it2 => s' <- h_skip h n s ;; walk f h s' it2
                 | _ => UB UCode
                 end
      | OArr => match it1 with
                | W n :: body =>
                  '(s', it') <-
                    (if (n =? 0) && h_zero_skips h
                     then it' <- skip_block body 0 ;; Ok (s, it')
                     else loopN f n (fun p => walk f h (fst p) body) (s, body)) ;;
                  it'' <- h_arr_end h it' ;;
                  walk f h s' it''
                | _ => UB UCode
                end
      | OCont => match it1 with
                 | WC k size elt :: it2 =>
                   '(s', it') <- h_cont h f k size elt s it2 ;;
                   it'' <- h_cont_end h it' ;;
                   walk f h s' it''
                 | _ => UB UCode
                 end
      | OBad => Throw (h_bad h)
      end
    end
  end.

(** ** init (value_ops.cc:342-397) *)

(** Writing init words to memory: std::copy(it, it + size, buffer), each word truncated to uint8_t. *)
Definition write_raw (bs : list N) (m : list cell) : res (list cell * list cell) :=
  '(old, rest) <- take_cells (lenN bs) m ;;
  if forallb is_byte old then Ok (map B bs, rest) else UB URaw.

(** Container::init = placement new of an empty container: Vector::init (containers.cc:52-55),
    String::init (399-402). The memory must be raw (otherwise a live object would be lost). *)
Definition new_obj (k : ckind) : cobj := match k with KVec => VecObj 0 [] | KStr => StrObj [] end.
Definition cont_init (k : ckind) (size : N) (m : list cell) : res (list cell * list cell) :=
  '(old, rest) <- take_cells size m ;;
  if forallb is_byte old then
    if size =? 0 then UB UOob else Ok (put_obj size (new_obj k), rest)
  else UB ULeak.

(** State: cells already passed (in order), cells from the current buffer position on. *)
Definition cursor := (list cell * list cell)%type.

Fixpoint init_walk (fuel : nat) (s : cursor) (it : list word) : res (cursor * list word) :=
  match fuel with
  | O => Fuel
  | S f =>
    match it with
    | [] => Ok (s, [])
    | w :: it1 =>
      let '(dn, m) := s in
      match decode w with
      | OEnd => Ok (s, it)
      | OMem (* FLAG_INIT *) =>
        match it1 with
        | W n :: it2 =>
          '(bs, it3) <- take_words (N.to_nat n) it2 ;;
          '(wr, m') <- write_raw bs m ;;
          init_walk f (dn ++ wr, m') it3
        | _ => UB UCode
        end
      | OSkip =>
        match it1 with
        | W n :: it2 => '(a, b) <- take_cells n m ;; init_walk f (dn ++ a, b) it2
        | _ => UB UCode
        end
      | OArr (* FLAG_INIT_REPEAT *) =>
        match it1 with
        | W n :: body =>
          '(s', it') <- loopN f n (fun p => init_walk f (fst p) body) (s, body) ;;
          it'' <- expect_end it' ;;
          init_walk f s' it''
        | _ => UB UCode
        end
      | OCont (* FLAG_INIT_CONTAINER *) =>
        match it1 with
        | WC k size elt :: it2 =>
          '(o, m') <- cont_init k size m ;;
          init_walk f (dn ++ o, m') it2
        | _ => UB UCode
        end
      | OBad => Throw ERuntime
      end
    end
  end.

(** Typelib::init(uint8_t*, MemoryLayout const&), value_ops.cc:206-209: the memory after the call. *)
Definition do_init (fuel : nat) (l : layout) (m : list cell) : res (list cell) :=
  '(s, _) <- init_walk fuel ([], m) (iops l) ;; Ok (fst s ++ snd s).

(** ** Vector (lang/csupport/containers.cc:15-388) *)

(** Vector::getElementLayout, containers.cc:36-45, stored by the constructor (22).
    Simplification: exceptions other than runtime_error leave the constructor, so that no such Vector
    exists; the model gives it an empty layout. *)
Definition elt_layout (e : ty) : layout :=
  match layout_default e with Ok l => l | _ => empty_layout end.
Definition has_layout (l : layout) : bool := match ops l with [] => false | _ => true end.

(** Vector::getElementCount, containers.cc:47-51. *)
Definition vec_count (e : ty) (cs : list cell) : res N :=
  if sizeof e =? 0 then UB UDiv0 else Ok (lenN cs / sizeof e).

(** The element operations Vector::resize needs: Typelib::init, copy, destroy with a layout. They are
    passed as a record, and tied together with fuel below (the C++ functions are mutually recursive). *)
Record eops := mkE {
  e_init : layout -> list cell -> res (list cell);
  e_copy : layout -> list cell -> list cell -> res (list cell);   (* dst, src *)
  e_destroy : layout -> list cell -> res (list cell)
}.

(** [for (size_t i = lo; i < hi; i += step) body(i)] *)
Fixpoint for_range {A} (fuel : nat) (i hi step : N) (body : N -> A -> res A) (a : A) : res A :=
  match fuel with
  | O => Fuel
  | S f => if i <? hi then a' <- body i a ;; for_range f (i + step) hi step body a' else Ok a
  end.

(** An operation on the memory at [&cs[i]]: it sees the cells from index [i] to the end of the buffer. *)
Definition at_index (i : N) (f : list cell -> res (list cell)) (cs : list cell) : res (list cell) :=
  if lenN cs <? i then UB UOob
  else c <- f (dropN i cs) ;; Ok (takeN i cs ++ c).

(** Vector::resize, containers.cc:93-142. *)
Definition vec_resize (fuel : nat) (p : eops) (e : ty) (new_size : N) (cap : N) (cs : list cell)
  : res (N * list cell) :=
  let es := sizeof e in
  let lay := elt_layout e in
  let old_raw := lenN cs in
  old_size <- vec_count e cs ;;
  let new_raw := wmul new_size es in
  if negb (has_layout lay) then Throw ERuntime
  else if is_memcpy lay then vec_raw_resize new_raw cap cs
  else
    cs1 <- (if new_size <? old_size
            then for_range fuel new_raw old_raw es (fun i c => at_index i (e_destroy p lay) c) cs
            else Ok cs) ;;
    '(cap2, cs2) <-
      (if new_raw <=? cap then vec_raw_resize new_raw cap cs1
       else
         '(ncap, nbuf) <- vec_raw_resize new_raw 0 [] ;;
         '(nbuf', old') <-
           for_range fuel 0 (N.min old_raw new_raw) es
             (fun i '(nb, ob) =>
                nb1 <- at_index i (e_init p lay) nb ;;
                nb2 <- (if lenN ob <? i then UB UOob
                        else at_index i (fun d => e_copy p lay d (dropN i ob)) nb1) ;;
                ob1 <- at_index i (e_destroy p lay) ob ;;
                Ok (nb2, ob1)) (nbuf, cs1) ;;
         (* swap, then the old buffer is freed *)
         if forallb is_byte old' then Ok (ncap, nbuf') else UB ULeak) ;;
    cs3 <- (if old_size <? new_size
            then for_range fuel old_raw new_raw es (fun i c => at_index i (e_init p lay) c) cs2
            else Ok cs2) ;;
    Ok (cap2, cs3).

(** Container::destroy: Vector::destroy (containers.cc:56-62), String::destroy (403-406). The destroyed
    object's memory is raw again (indeterminate bytes, shown as 0). *)
Definition cont_destroy (fuel : nat) (p : eops) (k : ckind) (size : N) (e : ty) (o : cobj)
  : res (list cell) :=
  match k, o with
  | KVec, VecObj cap cs =>
      '(_, cs') <- vec_resize fuel p e 0 cap cs ;;
      if forallb is_byte cs' then Ok (repN size (B 0)) else UB ULeak
  | KStr, StrObj _ => Ok (repN size (B 0))
  | _, _ => UB URaw
  end.

(** Container::clear: Vector::clear (containers.cc:63-68), String::clear (407-410). *)
Definition cont_clear (fuel : nat) (p : eops) (k : ckind) (e : ty) (o : cobj) : res cobj :=
  match k, o with
  | KVec, VecObj cap cs => '(cap', cs') <- vec_resize fuel p e 0 cap cs ;; Ok (VecObj cap' cs')
  | KStr, StrObj _ => Ok (StrObj [])
  | _, _ => UB URaw
  end.

(** Vector::copy(dst, dst_idx, src, src_idx, count), containers.cc:236-258, for distinct buffers.
    The element copy of line 253 goes through Typelib::copy(Value, Value) (value_ops.cc:245-251): same
    type object on both sides, so it is copy with layout_of(element_t).
    Simplification: forming [&v[0]] for an empty vector is not counted as UB. *)
Definition vec_copy_range (fuel : nat) (p : eops) (e : ty) (dst : list cell) (di : N)
           (src : list cell) (si : N) (count : N) : res (list cell) :=
  let es := sizeof e in
  let lay := elt_layout e in
  if is_memcpy lay then
    let n := wmul es count in
    if lenN src <? si * es then UB UOob
    else
      '(bs, _) <- take_raw n (dropN (si * es) src) ;;
      at_index (di * es) (fun d => '(w, r) <- write_raw bs d ;; Ok (w ++ r)) dst
  else
    for_range fuel 0 count 1
      (fun i d =>
         l <- layout_default e ;;
         if lenN src <? (si + i) * es then UB UOob
         else at_index ((di + i) * es) (fun x => e_copy p l x (dropN ((si + i) * es) src)) d) dst.

(** Container::copy: Vector::copy (containers.cc:224-234), String::copy (441-446). *)
Definition cont_copy (fuel : nat) (p : eops) (k : ckind) (e : ty) (dst src : cobj) : res cobj :=
  match k, dst, src with
  | KVec, VecObj cap cs, VecObj _ cs0 =>
      count <- vec_count e cs0 ;;
      '(cap', cs') <- vec_resize fuel p e count cap cs ;;
      cs'' <- vec_copy_range fuel p e cs' 0 cs0 0 count ;;
      Ok (VecObj cap' cs'')
  | KStr, StrObj _, StrObj b => Ok (StrObj b)
  | _, _, _ => UB URaw
  end.

(** ** destroy (value_ops.cc:399-445) *)
Definition destroy_h (p : eops) : handlers cursor := mkH
  (fun n '(dn, m) => '(a, b) <- take_cells n m ;; Ok (dn ++ a, b))
  (fun n '(dn, m) => '(a, b) <- take_cells n m ;; Ok (dn ++ a, b))
  (fun f k size e '(dn, m) it =>
     '(o, b) <- take_obj size m ;;
     c <- cont_destroy f p k size e o ;;
     (* skipBlock(it, end) is called with [it] on the address word *)
     it' <- skip_block (WC k size e :: it) 0 ;;
     Ok ((dn ++ c, b), it'))
  false expect_end next_word ERuntime.

(** ** copy (value_ops.cc:447-502). State: destination before/after the position, source after it. *)
Definition copy_h (p : eops) : handlers (list cell * list cell * list cell) := mkH
  (fun n '(dn, d, s) =>
     '(bs, s') <- take_raw n s ;;
     '(w, d') <- write_raw bs d ;;
     Ok (dn ++ w, d', s'))
  (fun n '(dn, d, s) =>
     '(_, s') <- take_cells n s ;;
     '(a, d') <- take_cells n d ;;
     Ok (dn ++ a, d', s'))
  (fun f k size e '(dn, d, s) it =>
     '(od, d') <- take_obj size d ;;
     '(os, s') <- take_obj size s ;;
     o <- cont_copy f p k e od os ;;
     it' <- skip_block (WC k size e :: it) 0 ;;
     Ok ((dn ++ put_obj size o, d', s'), it'))
  false expect_end next_word ERuntime.

(** Tying the knot: Typelib::init/copy/destroy on a buffer with a layout
    (value_ops.cc:206-209, 253-263, 240-243). *)
Fixpoint eops_at (fuel : nat) : eops :=
  match fuel with
  | O => mkE (fun _ _ => Fuel) (fun _ _ _ => Fuel) (fun _ _ => Fuel)
  | S f =>
    let p := eops_at f in
    mkE (fun l m => do_init f l m)
        (fun l d s => '(st, _) <- walk f (copy_h p) ([], d, s) (ops l) ;;
                      let '(dn, d', _) := st in Ok (dn ++ d'))
        (fun l m => '(st, _) <- walk f (destroy_h p) ([], m) (ops l) ;; Ok (fst st ++ snd st))
  end.
Definition do_copy (fuel : nat) := e_copy (eops_at fuel).
Definition do_destroy (fuel : nat) := e_destroy (eops_at fuel).

(** ** zero (value_ops.cc:291-340) *)
Definition zero_h (p : eops) : handlers cursor := mkH
  (fun n '(dn, m) => '(_, b) <- take_raw n m ;; Ok (dn ++ repN n (B 0), b))
  (fun n '(dn, m) => '(_, b) <- take_raw n m ;; Ok (dn ++ repN n (B 0), b))
  (fun f k size e '(dn, m) it =>
     '(o, b) <- take_obj size m ;;
     o' <- cont_clear f p k e o ;;
     it' <- skip_block it 0 ;;
     Ok ((dn ++ put_obj size o', b), it'))
  false expect_end next_word ERuntime.
(** Typelib::zero(uint8_t*, MemoryLayout const&), value_ops.cc:223-226. *)
Definition do_zero (fuel : nat) (l : layout) (m : list cell) : res (list cell) :=
  '(st, _) <- walk fuel (zero_h (eops_at fuel)) ([], m) (ops l) ;; Ok (fst st ++ snd st).

(** ** compare (value_ops.cc:504-570). The early return of [false] is the pseudo exception [EDiffer]:
    it leaves all enclosing calls, as the code does (542-544), and do_compare catches it.
    memcmp on raw bytes (518). *)
Fixpoint bytes_eqb (a b : list N) : bool :=
  match a, b with
  | [], [] => true
  | x :: a', y :: b' => (x =? y) && bytes_eqb a' b'
  | _, _ => false
  end.
(** Typelib::compare(void*, void*, Type const&), value_ops.cc:278-289. [cmp] compares two elements. *)
Definition compare_layout (t : ty) : res layout := layout_of true false false true t.
Definition catch_differ (r : res bool) : res bool :=
  match r with Throw EDiffer => Ok false | x => x end.
(** Container::compare: Vector::compare (containers.cc:196-222), String::compare (434-439). *)
Definition cont_compare (fuel : nat) (cmp : ty -> list cell -> list cell -> res bool)
           (k : ckind) (e : ty) (a b : cobj) : res bool :=
  match k, a, b with
  | KVec, VecObj _ ca, VecObj _ cb =>
      n <- vec_count e ca ;;
      n' <- vec_count e cb ;;
      if negb (n =? n') then Ok false
      else
        r <- for_range fuel 0 n 1
          (fun i (u : unit) =>
             if (lenN ca <? i * sizeof e) || (lenN cb <? i * sizeof e) then UB UOob
             else eq <- cmp e (dropN (i * sizeof e) ca) (dropN (i * sizeof e) cb) ;;
                  if (eq : bool) then Ok tt else Throw EDiffer) tt ;;
        Ok true
  | KStr, StrObj x, StrObj y => Ok (bytes_eqb x y)
  | _, _, _ => UB URaw
  end.
Definition compare_h (cmp : ty -> list cell -> list cell -> res bool)
  : handlers (list cell * list cell) := mkH
  (fun n '(a, b) =>
     '(x, a') <- take_raw n a ;;
     '(y, b') <- take_raw n b ;;
     if bytes_eqb x y then Ok (a', b') else Throw EDiffer)
  (fun n '(a, b) =>
     '(_, a') <- take_cells n a ;;
     '(_, b') <- take_cells n b ;;
     Ok (a', b'))
  (fun f k size e '(a, b) it =>
     '(oa, a') <- take_obj size a ;;
     '(ob, b') <- take_obj size b ;;
     eq <- cont_compare f cmp k e oa ob ;;
     if (eq : bool) then
       it' <- skip_block (WC k size e :: it) 0 ;;
       Ok ((a', b'), it')
     else Throw EDiffer)
  false expect_end next_word ERuntime.
Fixpoint do_compare (fuel : nat) (t : ty) (a b : list cell) : res bool :=
  match fuel with
  | O => Fuel
  | S f =>
    l <- compare_layout t ;;
    catch_differ ('(_, _) <- walk f (compare_h (do_compare f)) (a, b) (ops l) ;; Ok true)
  end.

(** ** dump (value_ops.cc:59-123). The OutputStream is a state [St] and its write method. *)
Section Dump.
  Context {St : Type}.
  Variable wr : list N -> St -> res St.

  (** Container::dump: Vector::dump (containers.cc:300-327), String::dump (461-470). Returns the stream
      and the iterator. [dmp] is ValueOps::dump on one element. *)
  Definition cont_dump (fuel : nat) (dmp : St -> list cell -> list word -> res (St * list word))
             (k : ckind) (e : ty) (o : cobj) (count : N) (st : St) (it : list word)
    : res (St * list word) :=
    match k, o with
    | KVec, VecObj _ cs =>
      if is_memcpy (elt_layout e) then
        match it with
        | _ :: W n :: r =>
          '(bs, _) <- take_raw (wmul n count) cs ;;
          st' <- wr bs st ;;
          Ok (st', r)
        | _ => UB UCode
        end
      else
        for_range fuel 0 count 1
          (fun i '(st, _) =>
             if lenN cs <? i * sizeof e then UB UOob
             else dmp st (dropN (i * sizeof e) cs) it) (st, it)
    | KStr, StrObj bs =>
      (* c_str() is null-terminated: the read is within bounds when count <= length *)
      if lenN bs <? count then UB UOob
      else st' <- wr (takeN count bs) st ;;
           match it with
           | _ :: _ :: r => Ok (st', r)
           | _ => UB UCode
           end
    | _, _ => UB URaw
    end.

  (** Container::getElementCount: Vector (containers.cc:47-51), String (394-398). *)
  Definition cont_count (k : ckind) (e : ty) (o : cobj) : res N :=
    match k, o with
    | KVec, VecObj _ cs => vec_count e cs
    | KStr, StrObj bs => if sizeof e =? 0 then UB UDiv0 else Ok (lenN bs / sizeof e)
    | _, _ => UB URaw
    end.

  Definition dump_h (dmp : St -> list cell -> list word -> res (St * list word))
    : handlers (list cell * St) := mkH
    (fun n '(m, st) => '(bs, m') <- take_raw n m ;; st' <- wr bs st ;; Ok (m', st'))
    (fun n '(m, st) => '(_, m') <- take_cells n m ;; Ok (m', st))
    (fun f k size e '(m, st) it =>
       '(o, m') <- take_obj size m ;;
       count <- cont_count k e o ;;
       st1 <- wr (le_bytes 8 count) st ;;
       if count =? 0 then
         it' <- skip_block it 0 ;; Ok ((m', st1), it')
       else
         '(st2, it') <- cont_dump f dmp k e o count st1 it ;;
         Ok ((m', st2), it'))
    true expect_end expect_end EUnknownBytecode.

  (** ValueOps::dump: returns the stream and the iterator (the offset is only used by callers that
      ignore it). *)
  Fixpoint dump_at (fuel : nat) (st : St) (m : list cell) (it : list word) : res (St * list word) :=
    match fuel with
    | O => Fuel
    | S f => '(s, it') <- walk f (dump_h (dump_at f)) (m, st) it ;; Ok (snd s, it')
    end.

  (** Typelib::dump(uint8_t const*, OutputStream&, MemoryLayout const&), value_ops.cc:725-731. *)
  Definition do_dump_stream (fuel : nat) (l : layout) (m : list cell) (st : St) : res St :=
    '(st', it) <- dump_at fuel st m (ops l) ;;
    match it with [] => Ok st' | _ => Throw ERuntime end.
End Dump.

(** VectorOutputStream::write, value_ops.cc:590-594. *)
Definition wr_vector (bs : list N) (st : list N) : res (list N) := Ok (st ++ bs).
(** ByteCounterStream::write, value_ops.cc:795-796. *)
Definition wr_counter (bs : list N) (st : N) : res N := Ok (wadd st (lenN bs)).
(** ByteArrayOutputStream::write, value_ops.cc:748-755. State: what was written so far ([current] is its
    length) and the bytes of the buffer not yet written (the buffer is [written ++ remaining]).
    [current] is an unsigned int; [current + size] is computed in size_t. *)
Definition wr_bounded (bs : list N) (st : list N * list N) : res (list N * list N) :=
  let '(wn, rm) := st in
  if lenN wn + lenN rm <? wadd (lenN wn) (lenN bs) then Throw EStd
  else if lenN rm <? lenN bs then UB UOob
  else Ok (wn ++ bs, dropN (lenN bs) rm).

(** Typelib::dump(Value), value_ops.cc:574-600. *)
Definition do_dump (fuel : nat) (t : ty) (m : list cell) : res (list N) :=
  l <- layout_default t ;; do_dump_stream wr_vector fuel l m [].
(** Typelib::getDumpSize, value_ops.cc:798-810 (the iterator is not checked). *)
Definition do_dump_size (fuel : nat) (t : ty) (m : list cell) : res N :=
  l <- layout_default t ;;
  '(n, _) <- dump_at wr_counter fuel 0 m (ops l) ;; Ok n.
(** The conversion of an unsigned int (32 bits) to int (two's complement). *)
Definition to_int (n : N) : Z :=
  let z := Z.of_N (n mod 4294967296) in if (z <? 2147483648)%Z then z else (z - 4294967296)%Z.
(** int Typelib::dump(Value, uint8_t* buffer, unsigned int buffer_size), value_ops.cc:757-782. Returns the
    int and the buffer. Any std::exception is caught (775): then 0 is returned, and what was written inside of
    the buffer is not tracked (the result buffer is [None]); when the layout cannot be computed (759) the
    exception leaves. *)
Definition do_dump_bounded (fuel : nat) (t : ty) (m : list cell) (buf : list N)
  : res (Z * option (list N)) :=
  l <- layout_default t ;;
  match dump_at wr_bounded fuel ([], buf) m (ops l) with
  | Ok ((wn, rm), []) => Ok (to_int (lenN wn), Some (wn ++ rm))
  | Ok (_, _) => Throw ERuntime
  | Throw _ => Ok (0%Z, None)
  | UB u => UB u
  | Fuel => Fuel
  end.

(** ** load (value_ops.cc:125-191) *)

(** VectorInputStream (value_ops.cc:840-861) and ByteArrayInputStream (893-915): the bytes left to read
    and the number of bytes read. *)
Definition istream := (N * list N)%type.
Definition rd (n : N) (i : istream) : res (list N * istream) :=
  let '(idx, rest) := i in
  if idx + lenN rest <? wadd n idx then Throw ERuntime
  else if lenN rest <? n then UB UOob
  else Ok (takeN n rest, (idx + n, dropN n rest)).
(** The value of 8 bytes read as a little-endian uint64_t. *)
Fixpoint le_val (bs : list N) : N :=
  match bs with
  | [] => 0
  | b :: r => b mod 256 + 256 * le_val r
  end.

(** Container::load: Vector::load (containers.cc:329-360), String::load (472-487). [ld] loads one element
    at the beginning of the given cells. *)
Definition cont_load (fuel : nat) (p : eops)
           (ld : istream -> list cell -> list word -> res (list cell * istream * list word))
           (k : ckind) (e : ty) (o : cobj) (count : N) (i : istream) (it : list word)
  : res (cobj * istream * list word) :=
  match k, o with
  | KVec, VecObj cap cs =>
    '(cap', cs') <- vec_resize fuel p e count cap cs ;;
    if is_memcpy (elt_layout e) then
      match it with
      | _ :: W n :: r =>
        '(bs, i') <- rd (wmul n count) i ;;
        '(w, rest) <- write_raw bs cs' ;;
        Ok (VecObj cap' (w ++ rest), i', r)
      | _ => UB UCode
      end
    else
      '(cs2, i2, it2) <-
        for_range fuel 0 count 1
          (fun j '(c, i, _) =>
             if lenN c <? j * sizeof e then UB UOob
             else '(c', i', it') <- ld i (dropN (j * sizeof e) c) it ;;
                  Ok (takeN (j * sizeof e) c ++ c', i', it')) (cs', i, []) ;;
      Ok (VecObj cap' cs2, i2, it2)
  | KStr, StrObj _ =>
    (* buffer.resize(element_count), then read into it *)
    if max_size <? count then Throw ELength
    else '(bs, i') <- rd count i ;;
         match it with
         | _ :: _ :: r => Ok (StrObj bs, i', r)
         | _ => UB UCode
         end
  | _, _ => UB URaw
  end.

Definition load_h (p : eops)
           (ld : istream -> list cell -> list word -> res (list cell * istream * list word))
  : handlers (list cell * list cell * istream) := mkH
  (fun n '(dn, m, i) => '(bs, i') <- rd n i ;; '(w, m') <- write_raw bs m ;; Ok (dn ++ w, m', i'))
  (fun n '(dn, m, i) => '(a, m') <- take_cells n m ;; Ok (dn ++ a, m', i))
  (fun f k size e '(dn, m, i) it =>
     '(o, m') <- take_obj size m ;;
     '(bs, i1) <- rd 8 i ;;
     let count := le_val bs in
     if count =? 0 then
       it' <- skip_block it 0 ;; Ok ((dn ++ put_obj size o, m', i1), it')
     else
       '(o', i2, it') <- cont_load f p ld k e o count i1 it ;;
       Ok ((dn ++ put_obj size o', m', i2), it'))
  true expect_end_deref expect_end EUnknownBytecode.

(** ValueOps::load: memory after the call, stream, iterator. *)
Fixpoint load_at (fuel : nat) (i : istream) (m : list cell) (it : list word)
  : res (list cell * istream * list word) :=
  match fuel with
  | O => Fuel
  | S f => '(s, it') <- walk f (load_h (eops_at f) (load_at f)) ([], m, i) it ;;
           let '(dn, m', i') := s in Ok (dn ++ m', i', it')
  end.

(** Type::getTrailingPadding (typemodel.cc:73-74) and Compound::getTrailingPadding (321-337).
    Simplification: the conversions to int are exact below 2^31. *)
Fixpoint max_end (fs : fields) (acc : N) : N :=
  match fs with
  | FNil => acc
  | FCons _ o t r => max_end r (if acc <? o + sizeof t then o + sizeof t else acc)
  end.
Definition trailing_padding (t : ty) : N :=
  match t with
  | TComp s FNil => s
  | TComp s fs => s - max_end fs 0
  | _ => 0
  end.

(** Typelib::load(uint8_t*, Type const&, std::vector<uint8_t> const&, MemoryLayout const&),
    value_ops.cc:869-885 (and 923-939), with layout_of(type) (862-866). *)
Definition do_load (fuel : nat) (t : ty) (m : list cell) (buf : list N) : res (list cell) :=
  l <- layout_default t ;;
  '(m', i, it) <- load_at fuel (0, buf) m (ops l) ;;
  match it with
  | _ :: _ => Throw ERuntime
  | [] =>
    if negb (fst i =? lenN buf) && negb (fst i + trailing_padding t =? lenN buf)
    then Throw ERuntime else Ok m'
  end.
(** Typelib::load from a generic InputStream (value_ops.cc:820-835): unread bytes stay in the stream. *)
Definition do_load_stream (fuel : nat) (t : ty) (m : list cell) (i : istream)
  : res (list cell * istream) :=
  l <- layout_default t ;;
  '(m', i', it) <- load_at fuel i m (ops l) ;;
  match it with [] => Ok (m', i') | _ => Throw ERuntime end.

(** Typelib::init / zero / copy / destroy on a Value (value_ops.cc:194-268). *)
Definition init_value (fuel : nat) (t : ty) (m : list cell) : res (list cell) :=
  l <- layout_default t ;; do_init fuel l m.
Definition zero_value (fuel : nat) (t : ty) (m : list cell) : res (list cell) :=
  l <- layout_default t ;; do_zero fuel l m.
Definition destroy_value (fuel : nat) (t : ty) (m : list cell) : res (list cell) :=
  l <- layout_default t ;; do_destroy fuel l m.
Definition copy_value (fuel : nat) (t : ty) (dst src : list cell) : res (list cell) :=
  l <- layout_default t ;; do_copy fuel l dst src.
