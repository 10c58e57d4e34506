(** * Vector: element access and modification of containers (lang/csupport/containers.cc). *)
From Verif Require Import Base Types Layout ValueOps.
Local Open Scope N_scope.

(** Vector::push, containers.cc:144-157. [same_type] is the test [v.getType() == getIndirection()] (the types'
    addresses, typemodel.cc:52); [v] is the memory at [v.getData()], which is not inside of this vector (see
    [vec_push_own]). The copy is Typelib::copy(Value, Value) (value_ops.cc:245-268). *)
Definition vec_push (fuel : nat) (p : eops) (e : ty) (same_type : bool) (v : list cell) (cap : N) (cs : list cell)
  : res (N * list cell) :=
  if negb same_type then Throw ERuntime
  else
    size <- vec_count e cs ;;
    '(cap', cs') <- vec_resize fuel p e (wadd size 1) cap cs ;;
    l <- layout_default e ;;
    cs'' <- at_index (wmul size (sizeof e)) (fun d => e_copy p l d v) cs' ;;
    Ok (cap', cs'').

(** Vector::push when [v] is element [idx] of this very vector: the buffer [v] points to is freed by the resize
    when the capacity is too small for one more element (vector::resize or the swap of line 133 move to another
    block); reading it afterwards is out of bounds. *)
Definition vec_push_own (fuel : nat) (p : eops) (e : ty) (idx : N) (cap : N) (cs : list cell)
  : res (N * list cell) :=
  size <- vec_count e cs ;;
  '(cap', cs') <- vec_resize fuel p e (wadd size 1) cap cs ;;
  if cap <? wmul (wadd size 1) (sizeof e) then UB UOob
  else
    l <- layout_default e ;;
    cs'' <- at_index (wmul size (sizeof e)) (fun d => e_copy p l d (dropN (idx * sizeof e) cs')) cs' ;;
    Ok (cap', cs'').

(** Vector::copy(ptr, dst_idx, ptr, src_idx, count) inside of one vector, containers.cc:236-258: memmove (247), or
    element by element from the first one on (253-255). *)
Definition vec_move_range (fuel : nat) (p : eops) (e : ty) (di si count : N) (cs : list cell) : res (list cell) :=
  let es := sizeof e in
  if is_memcpy (elt_layout e) then
    let n := wmul es count in
    if lenN cs <? si * es then UB UOob
    else
      '(bs, _) <- take_raw n (dropN (si * es) cs) ;;
      at_index (di * es) (fun d => '(w, r) <- write_raw bs d ;; Ok (w ++ r)) cs
  else
    for_range fuel 0 count 1
      (fun i c =>
         l <- layout_default e ;;
         if lenN c <? (si + i) * es then UB UOob
         else at_index ((di + i) * es) (fun x => e_copy p l x (dropN ((si + i) * es) c)) c) cs.

(** Vector::erase(std::vector<uint8_t>*, size_t), containers.cc:186-195. *)
Definition vec_erase_at (fuel : nat) (p : eops) (e : ty) (idx : N) (cap : N) (cs : list cell)
  : res (N * list cell) :=
  n <- vec_count e cs ;;
  cs1 <- (if wadd idx 1 <? n then vec_move_range fuel p e idx (wadd idx 1) (wsub (wsub n idx) 1) cs else Ok cs) ;;
  vec_resize fuel p e (wsub n 1) cap cs1.

(** Vector::erase(void*, Value), containers.cc:159-184. Typelib::compare(Value, Value) (value_ops.cc:270-276): the
    types are the same object, so canCastTo holds. *)
Fixpoint vec_erase_loop (fuel f : nat) (p : eops) (e : ty) (v : list cell) (i n : N) (cap : N) (cs : list cell)
  : res (bool * (N * list cell)) :=
  match f with
  | O => Fuel
  | S f' =>
    if i <? n then
      if lenN cs <? i * sizeof e then UB UOob
      else
        eq <- do_compare fuel e (dropN (i * sizeof e) cs) v ;;
        if (eq : bool) then r <- vec_erase_at fuel p e i cap cs ;; Ok (true, r)
        else vec_erase_loop fuel f' p e v (i + 1) n cap cs
    else Ok (false, (cap, cs))
  end.
Definition vec_erase (fuel : nat) (p : eops) (e : ty) (same_type : bool) (v : list cell) (cap : N) (cs : list cell)
  : res (bool * (N * list cell)) :=
  if negb same_type then Throw ERuntime
  else n <- vec_count e cs ;; vec_erase_loop fuel fuel p e v 0 n cap cs.

(** Vector::delete_if_impl, containers.cc:276-298. The predicate is a C++ object: it has a state of type [P] and
    reads the element. [base] is computed once (285): it is only good as long as erase does not move the buffer,
    which the test on the capacity makes visible. *)
Fixpoint vec_delete_loop {P} (fuel f : nat) (p : eops) (e : ty) (pred : P -> list cell -> bool * P) (st : P)
         (i n : N) (cap : N) (cs : list cell) : res (P * (N * list cell)) :=
  match f with
  | O => Fuel
  | S f' =>
    if i <? n then
      if lenN cs <? (i + 1) * sizeof e then UB UOob
      else
        let '(del, st') := pred st (takeN (sizeof e) (dropN (i * sizeof e) cs)) in
        if (del : bool) then
          '(cap', cs') <- vec_erase_at fuel p e i cap cs ;;
          if negb (cap' =? cap) then UB UOob
          else vec_delete_loop fuel f' p e pred st' i (wsub n 1) cap' cs'
        else vec_delete_loop fuel f' p e pred st' (i + 1) n cap cs
    else Ok (st, (cap, cs))
  end.
Definition vec_delete_if {P} (fuel : nat) (p : eops) (e : ty) (pred : P -> list cell -> bool * P) (st : P)
           (cap : N) (cs : list cell) : res (P * (N * list cell)) :=
  n <- vec_count e cs ;; vec_delete_loop fuel fuel p e pred st 0 n cap cs.

(** Vector::setElement and getElement, containers.cc:72-86, for a non-negative index (a negative int converts to a
    huge size_t). There is no bounds check: [operator[]] past the end is undefined. *)
Definition vec_set (fuel : nat) (p : eops) (e : ty) (same_type : bool) (idx : N) (v : list cell) (cap : N)
           (cs : list cell) : res (N * list cell) :=
  let off := wmul idx (sizeof e) in
  if lenN cs <=? off then UB UOob
  else if negb same_type then Throw ERuntime
  else
    l <- layout_default e ;;
    cs' <- at_index off (fun d => e_copy p l d v) cs ;;
    Ok (cap, cs').
Definition vec_get (e : ty) (idx : N) (cs : list cell) : res (list cell) :=
  let off := wmul idx (sizeof e) in
  if lenN cs <=? off then UB UOob else Ok (dropN off cs).

(** ** The methods of the container object at the address [ptr]: [s] is its sizeof, [m] the memory from [ptr] on. *)
Definition on_vector {A} (s : N) (m : list cell) (f : N -> list cell -> res (A * (N * list cell)))
  : res (A * list cell) :=
  '(o, r) <- take_obj s m ;;
  match o with
  | VecObj cap cs => '(a, (cap', cs')) <- f cap cs ;; Ok (a, put_obj s (VecObj cap' cs') ++ r)
  | StrObj _ => UB URaw
  end.
Definition noval {A B} (r : res (A * B)) : res (unit * (A * B)) := x <- r ;; Ok (tt, x).

Definition vector_push fuel s e same_type v m :=
  on_vector s m (fun cap cs => noval (vec_push fuel (eops_at fuel) e same_type v cap cs)).
Definition vector_push_own fuel s e idx m :=
  on_vector s m (fun cap cs => noval (vec_push_own fuel (eops_at fuel) e idx cap cs)).
Definition vector_erase fuel s e same_type v m :=
  on_vector s m (fun cap cs => vec_erase fuel (eops_at fuel) e same_type v cap cs).
Definition vector_delete_if {P} fuel s e (pred : P -> list cell -> bool * P) st m :=
  on_vector s m (fun cap cs => vec_delete_if fuel (eops_at fuel) e pred st cap cs).
Definition vector_resize fuel s e n m :=
  on_vector s m (fun cap cs => noval (vec_resize fuel (eops_at fuel) e n cap cs)).
Definition vector_set fuel s e same_type idx v m :=
  on_vector s m (fun cap cs => noval (vec_set fuel (eops_at fuel) e same_type idx v cap cs)).
Definition vector_get s e idx (m : list cell) : res (list cell) :=
  '(o, _) <- take_obj s m ;; match o with VecObj _ cs => vec_get e idx cs | _ => UB URaw end.
Definition vector_count s e (m : list cell) : res N :=
  '(o, _) <- take_obj s m ;; match o with VecObj _ cs => vec_count e cs | _ => UB URaw end.

(** String::push (containers.cc:417-427): appends the first byte of [v]. String::erase (429-432) and
    String::delete_if_impl (488-489). *)
Definition string_push (s : N) (same_type : bool) (v m : list cell) : res (unit * list cell) :=
  '(o, r) <- take_obj s m ;;
  match o with
  | StrObj bs =>
    if negb same_type then Throw ERuntime
    else '(c, _) <- take_raw 1 v ;; Ok (tt, put_obj s (StrObj (bs ++ c)) ++ r)
  | VecObj _ _ => UB URaw
  end.
Definition string_erase (v m : list cell) : res (bool * list cell) := Ok (false, m).
Definition string_delete_if {P} (pred : P -> list cell -> bool * P) (st : P) (m : list cell) : res (P * list cell) :=
  Ok (st, m).
