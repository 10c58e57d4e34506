(** * Layout: the memory-layout bytecode (typelib/memory_layout.hh, typelib/memory_layout.cc). *)
From Verif Require Import Base Types.
Local Open Scope N_scope.

(** One element of MemoryLayout::Ops = std::vector<size_t> (memory_layout.hh:43).
    [W n] is a number (flag, size, count or init byte); [WC k size elt] is the word holding the address
    of a Container object (memory_layout.cc:70,108), represented by the container it points to.
    Simplification: an address is never equal to one of the flags 0..4. *)
Inductive word := W (n : N) | WC (k : ckind) (size : N) (elt : ty).

(** MemLayout::Operations, memory_layout.hh:112-118. *)
Definition FLAG_MEMCPY := 0.
Definition FLAG_ARRAY := 1.
Definition FLAG_CONTAINER := 2.
Definition FLAG_SKIP := 3.
Definition FLAG_END := 4.
(** MemLayout::InitOperations, memory_layout.hh:120-126. *)
Definition FLAG_INIT := 0.
Definition FLAG_INIT_REPEAT := 1.
Definition FLAG_INIT_CONTAINER := 2.
Definition FLAG_INIT_SKIP := 3.
Definition FLAG_INIT_END := 4.

(** The [switch( *it )] of the interpreters. The operations and the init operations use the same numbers. *)
Inductive opc := OMem | OArr | OCont | OSkip | OEnd | OBad.
Definition decode (w : word) : opc :=
  match w with
  | WC _ _ _ => OBad
  | W n => if n =? FLAG_MEMCPY then OMem else if n =? FLAG_ARRAY then OArr
           else if n =? FLAG_CONTAINER then OCont else if n =? FLAG_SKIP then OSkip
           else if n =? FLAG_END then OEnd else OBad
  end.

(** struct MemoryLayout, memory_layout.hh:41-54. *)
Record layout := mkLayout { ops : list word; iops : list word }.
Definition empty_layout : layout := mkLayout [] [].

(** MemoryLayout::isMemcpy, memory_layout.cc:11-14. *)
Definition is_memcpy (l : layout) : bool :=
  match ops l with
  | [w; _] => match decode w with OMem => true | _ => false end
  | _ => false
  end.

(** pushInitGenericOp / pushInitSkip / pushInit, memory_layout.cc:77-92. *)
Definition push_init_skip (n : N) (l : layout) : layout :=
  mkLayout (ops l) (iops l ++ [W FLAG_INIT_SKIP; W n]).
Definition push_init (data : list N) (l : layout) : layout :=
  mkLayout (ops l) (iops l ++ [W FLAG_INIT; W (lenN data)] ++ map W data).

(** MemoryLayout::pushMemcpy, memory_layout.cc:15-32. *)
Definition push_memcpy (n : N) (data : list N) (l : layout) : res layout :=
  let l1 := mkLayout (ops l ++ [W FLAG_MEMCPY; W n]) (iops l) in
  match data with
  | [] => Ok (push_init_skip n l1)
  | _ => if negb (n =? lenN data) then Throw ERuntime else Ok (push_init data l1)
  end.

(** MemoryLayout::pushSkip, memory_layout.cc:34-39. *)
Definition push_skip (n : N) (l : layout) : layout :=
  push_init_skip n (mkLayout (ops l ++ [W FLAG_SKIP; W n]) (iops l)).

(** MemoryLayout::pushArray and pushInitRepeat, memory_layout.cc:57-65,99-104. *)
Definition push_array (dim : N) (sub : layout) (l : layout) : layout :=
  mkLayout (ops l ++ [W FLAG_ARRAY; W dim] ++ ops sub ++ [W FLAG_END])
           (iops l ++ [W FLAG_INIT_REPEAT; W dim] ++ iops sub ++ [W FLAG_INIT_END]).

(** MemoryLayout::pushContainer and pushInitContainer, memory_layout.cc:67-75,106-109. *)
Definition push_container (k : ckind) (size : N) (elt : ty) (sub : layout) (l : layout) : layout :=
  mkLayout (ops l ++ [W FLAG_CONTAINER; WC k size elt] ++ ops sub ++ [W FLAG_END])
           (iops l ++ [W FLAG_INIT_CONTAINER; WC k size elt]).

(** The initialisation bytes of an enum, memory_layout.cc:557-566: the value of the first entry of the
    symbol map, converted to uint64_t (two's complement), least significant byte first. *)
Fixpoint le_bytes (n : nat) (v : N) : list N :=
  match n with
  | O => []
  | S k => (v mod 256) :: le_bytes k (v / 256)
  end.
Definition enum_init (size : N) (values : list (str * Z)) : list N :=
  match values with
  | [] => []
  | (_, v) :: _ => le_bytes (N.to_nat size) (Z.to_N (v mod Z.of_N two64))
  end.

(** MemLayout::Visitor, memory_layout.cc:546-622, with TypeVisitor::dispatch (typevisitor.cc:37-60).
    Array and Container use a fresh sub-visitor with the default flags (lines 573-575, 581-583). *)
Fixpoint visit (ap ao : bool) (t : ty) (l : layout) : res layout :=
  match t with
  | TNull => Throw ENullType
  | TOpaque n => if ao then Ok (push_skip n l) else Throw ENoLayout
  | TNum n _ => push_memcpy n [] l
  | TEnum n vs => if 8 <? n then Throw ERuntime else push_memcpy n (enum_init n vs) l
  | TPtr n => if ap then push_memcpy n [] l else Throw ENoLayout
  | TArray _ d e => sub <- visit false false e empty_layout ;; Ok (push_array d sub l)
  | TCont k s e => sub <- visit false false e empty_layout ;; Ok (push_container k s e sub l)
  | TComp sz fs =>
      '(l', cur) <- visit_fields ap ao fs 0 l ;;
      Ok (push_skip (wsub sz cur) l')
  end
with visit_fields (ap ao : bool) (fs : fields) (cur : N) (l : layout) : res (layout * N) :=
  match fs with
  | FNil => Ok (l, cur)
  | FCons _ off t r =>
      l' <- visit ap ao t (push_skip (wsub off cur) l) ;;
      visit_fields ap ao r (wadd off (sizeof t)) l'
  end.

(** raw_layout_of, memory_layout.hh:155-161. *)
Definition raw_layout_of (ap ao : bool) (t : ty) : res layout := visit ap ao t empty_layout.

(** std::vector<size_t>::resize(content_i - k) with the wrap-around of size_t: a negative size is a huge
    one, and resize throws std::length_error. *)
Definition resize_to (i k : nat) (out : list word) : res (list word) :=
  if (i <? k)%nat then Throw ELength else Ok (firstn (i - k) out).

Definition push_if (cnt : N) (cur : N) (out : list word) : list word :=
  if cnt =? 0 then out else out ++ [W cur; W cnt].

(** MemoryLayout::simplify (the recursive one), memory_layout.cc:256-367, and simplifyBlock, 246-254.
    [it]: remaining bytecode; [cur], [cnt], [skp]: current_op, current_op_count, current_skip_count;
    [out]: simplified.ops. Returns the position reached and the output.
    The recursion consumes bytecode, [fuel] is the length of the bytecode plus one.
    Simplification: a container address at the place of an operation, or at the place of a size, is [UB]. *)
Fixpoint simp (fuel : nat) (merge rts : bool) (depth : nat) (it : list word)
         (cur cnt skp : N) (out : list word) : res (list word * list word) :=
  match fuel with
  | O => Fuel
  | S f =>
    match it with
    | [] =>
        if (cnt =? 0) then Ok ([], out)
        else if negb rts || negb (cur =? FLAG_SKIP) || (0 <? depth)%nat
        then Ok ([], out ++ [W cur; W (wsub cnt skp)])
        else Ok ([], out)
    | w :: it1 =>
      match w with
      | WC _ _ _ => UB UCode
      | W op =>
        if op =? FLAG_END then Ok (it, push_if cnt cur out)
        else if op =? FLAG_ARRAY then
          match it1 with
          | W n :: it2 =>
            let out2 := push_if cnt cur out ++ [W FLAG_ARRAY; W n] in
            let content_i := length out2 in
            '(it3, out3) <- simp f merge rts (S depth) it2 FLAG_MEMCPY 0 0 out2 ;;
            match it3 with
            | [] => Throw EInvalidLayout
            | e :: it4 =>
              match decode e with
              | OEnd =>
                let added := (length out3 - content_i)%nat in
                if (added =? 2)%nat then
                  match skipn content_i out3 with
                  | [W op'; W c] =>
                    let count := wmul c n in
                    if (op' =? cur) && negb (cnt =? 0) then
                      out4 <- resize_to content_i 4 out3 ;;
                      simp f merge rts depth it4 cur (wadd cnt count) 0 out4
                    else
                      out4 <- resize_to content_i 2 out3 ;;
                      simp f merge rts depth it4 op' count 0 out4
                  | _ => UB UCode
                  end
                else if (added =? 0)%nat then
                  out4 <- resize_to content_i 4 out3 ;;
                  simp f merge rts depth it4 cur cnt 0 out4
                else simp f merge rts depth it4 cur 0 0 (out3 ++ [W FLAG_END])
              | _ => Throw EInvalidLayout
              end
            end
          | _ => UB UCode
          end
        else if op =? FLAG_CONTAINER then
          match it1 with
          | c :: it2 =>
            '(it3, out3) <- simp f merge rts (S depth) it2 FLAG_MEMCPY 0 0
                                 (push_if cnt cur out ++ [W FLAG_CONTAINER; c]) ;;
            match it3 with
            | [] => Throw EInvalidLayout
            | e :: it4 =>
              match decode e with
              | OEnd => simp f merge rts depth it4 cur 0 0 (out3 ++ [W FLAG_END])
              | _ => Throw EInvalidLayout
              end
            end
          | [] => UB UCode
          end
        else (* either FLAG_MEMCPY or FLAG_SKIP, memory_layout.cc:335-355 *)
          match it1 with
          | W size :: it2 =>
            let skp1 := if op =? FLAG_SKIP then wadd skp size else 0 in
            if op =? cur then simp f merge rts depth it2 cur (wadd cnt size) skp1 out
            else if merge then simp f merge rts depth it2 FLAG_MEMCPY (wadd cnt size) skp1 out
            else simp f merge rts depth it2 op size skp1 (push_if cnt cur out)
          | _ => UB UCode
          end
      end
    end
  end.

Definition push_init_opt (data : list N) (out : list word) : list word :=
  match data with
  | [] => out
  | _ => out ++ [W FLAG_INIT; W (lenN data)] ++ map W data
  end.

(** Reading [n] init bytes (memory_layout.cc:158): a read past the end is UB; each word is truncated to
    uint8_t by the insertion into a vector<uint8_t>. *)
Fixpoint take_words (n : nat) (it : list word) : res (list N * list word) :=
  match n with
  | O => Ok ([], it)
  | S k => match it with
           | W b :: r => '(bs, r') <- take_words k r ;; Ok (b mod 256 :: bs, r')
           | _ => UB UCode
           end
  end.

(** MemoryLayout::simplifyInit (recursive), memory_layout.cc:134-231, and simplifyInitBlock, 124-132.
    [cnt] = current_op_count, [data] = current_init_data, [out] = simplified.init_ops.
    Simplification: the debugging output of line 224 is left out. *)
Fixpoint simp_init (fuel : nat) (shave : bool) (it : list word) (cnt : N) (data : list N)
         (out : list word) : res (list word * list word) :=
  match fuel with
  | O => Fuel
  | S f =>
    match it with
    | [] =>
        if negb (cnt =? 0) && negb shave then Ok ([], out ++ [W FLAG_INIT_SKIP; W cnt])
        else Ok ([], push_init_opt data out)
    | w :: it1 =>
      match decode w with
      | OEnd =>
          if negb (cnt =? 0) then Ok (it, out ++ [W FLAG_INIT_SKIP; W cnt])
          else Ok (it, push_init_opt data out)
      | OMem (* FLAG_INIT *) =>
          match it1 with
          | W n :: it2 =>
            '(bs, it3) <- take_words (N.to_nat n) it2 ;;
            simp_init f shave it3 0 (data ++ bs) (push_if cnt FLAG_INIT_SKIP out)
          | _ => UB UCode
          end
      | OArr (* FLAG_INIT_REPEAT *) =>
          match it1 with
          | W n :: it2 =>
            let out2 := push_if cnt FLAG_INIT_SKIP (push_init_opt data out) ++ [W FLAG_INIT_REPEAT; W n] in
            let content_i := length out2 in
            '(it3, out3) <- simp_init f false it2 0 [] out2 ;;
            match it3 with
            | [] => Throw EInvalidLayout
            | e :: it4 =>
              match decode e with
              | OEnd =>
                let added := (length out3 - content_i)%nat in
                match (added =? 2)%nat, skipn content_i out3 with
                | true, [W 3; W c] =>
                    let count := wmul c n in
                    if negb (cnt =? 0) then
                      out4 <- resize_to content_i 4 out3 ;;
                      simp_init f shave it4 (wadd cnt count) [] out4
                    else
                      out4 <- resize_to content_i 2 out3 ;;
                      simp_init f shave it4 count [] out4
                | _, _ =>
                  if (added =? 0)%nat then
                    out4 <- resize_to content_i 4 out3 ;;
                    simp_init f shave it4 cnt [] out4
                  else simp_init f shave it4 0 [] (out3 ++ [W FLAG_INIT_END])
                end
              | _ => Throw EInvalidLayout
              end
            end
          | _ => UB UCode
          end
      | OCont (* FLAG_INIT_CONTAINER *) =>
          match it1 with
          | c :: it2 =>
            simp_init f shave it2 0 []
              (push_if cnt FLAG_INIT_SKIP (push_init_opt data out) ++ [W FLAG_INIT_CONTAINER; c])
          | [] => UB UCode
          end
      | OSkip =>
          match it1 with
          | W n :: it2 => simp_init f shave it2 (wadd cnt n) [] (push_init_opt data out)
          | _ => UB UCode
          end
      | OBad => Throw EInvalidLayout
      end
    end
  end.

(** MemoryLayout::simplifyInit(), memory_layout.cc:111-122. *)
Definition simplify_init (l : layout) : res (list word) :=
  '(it, out) <- simp_init (S (length (iops l))) true (iops l) 0 [] [] ;;
  match it with
  | _ :: _ => Throw EInvalidLayout
  | [] => match out with
          | [w; _] => match decode w with OSkip => Ok [] | _ => Ok out end
          | _ => Ok out
          end
  end.

(** MemoryLayout::simplify(bool, bool), memory_layout.cc:233-244. *)
Definition simplify (merge rts : bool) (l : layout) : res layout :=
  '(it, out) <- simp (S (length (ops l))) merge rts 0 (ops l) FLAG_MEMCPY 0 0 [] ;;
  match it with
  | _ :: _ => Throw EInvalidLayout
  | [] => io <- simplify_init l ;; Ok (mkLayout out io)
  end.

(** layout_of, memory_layout.hh:180-184. *)
Definition layout_of (ap ao merge rts : bool) (t : ty) : res layout :=
  l <- raw_layout_of ap ao t ;; simplify merge rts l.
(** with the default arguments of memory_layout.hh:180. *)
Definition layout_default (t : ty) : res layout := layout_of false false true true t.

(** MemoryLayout::skipBlock, memory_layout.cc:515-544. Returns the suffix starting at the block's END,
    or the end. Advancing past the end is UB. *)
Fixpoint skip_block (it : list word) (nesting : nat) : res (list word) :=
  match it with
  | [] => Ok []
  | w :: r =>
    match decode w with
    | OArr | OCont => match r with [] => UB UCode | _ :: r' => skip_block r' (S nesting) end
    | OEnd => match nesting with O => Ok it | S k => skip_block r k end
    | OSkip | OMem => match r with [] => UB UCode | _ :: r' => skip_block r' nesting end
    | OBad => skip_block r nesting
    end
  end.

(** MemoryLayout::validate, memory_layout.cc:369-441. The bytecode loop (372-402). *)
Fixpoint validate_ops (it : list word) (indent : nat) : res unit :=
  match it with
  | [] => match indent with O => Ok tt | _ => Throw EInvalidLayout end
  | w :: r =>
    match decode w with
    | OMem | OSkip => match r with [] => UB UCode | _ :: r' => validate_ops r' indent end
    | OArr | OCont => match r with [] => UB UCode | _ :: r' => validate_ops r' (S indent) end
    | OEnd => match indent with O => Throw EInvalidLayout | S k => validate_ops r k end
    | OBad => Throw EInvalidLayout
    end
  end.
(** The init bytecode loop (404-440). [int(size)] of line 414 is left out: sizes are below 2^31.
    Unknown words are ignored (the switch has no default). *)
Fixpoint validate_init (fuel : nat) (it : list word) (indent : nat) : res unit :=
  match fuel with
  | O => Fuel
  | S f =>
    match it with
    | [] => match indent with O => Ok tt | _ => Throw EInvalidLayout end
    | w :: r =>
      match decode w with
      | OSkip | OCont => match r with [] => UB UCode | _ :: r' => validate_init f r' indent end
      | OArr => match r with [] => UB UCode | _ :: r' => validate_init f r' (S indent) end
      | OMem =>
        match r with
        | W n :: r' =>
          (* [it] points to the size word: end - it = 1 + length r' *)
          if 1 + lenN r' <? n then Throw EInvalidLayout
          else if lenN r' <? n then UB UCode  (* it += size; ++it goes past end() *)
          else validate_init f (dropN n r') indent
        | _ => UB UCode
        end
      | OEnd => match indent with O => Throw EInvalidLayout | S k => validate_init f r k end
      | OBad => validate_init f r indent
      end
    end
  end.
Definition validate (l : layout) : res unit :=
  _ <- validate_ops (ops l) 0 ;; validate_init (S (length (iops l))) (iops l) 0.
