(** * Compiled: the compiled endian swap, CompileEndianSwapVisitor (typelib/endianness.hh:40-107, typelib/endianness.cc). *)
From Verif Require Import Base Types Layout ValueOps Visitor Endian.
Local Open Scope N_scope.

(** The opcodes, endianness.hh:64-79: (size_t)-1 ... (size_t)-5. *)
Definition CSKIP : N := 18446744073709551615.
Definition CARRAY : N := 18446744073709551614.
Definition CEND : N := 18446744073709551613.
Definition CSWAP4 : N := 18446744073709551612.
Definition CSWAP8 : N := 18446744073709551611.

(** The conversions size_t -> int (the parameter of skip) -> size_t (its uses). *)
Definition int_arg (n : N) : N :=
  let m := n mod 4294967296 in if m <? 2147483648 then m else two64 - 4294967296 + m.

(** CompileEndianSwapVisitor::skip, endianness.cc:15-25. *)
Definition cskip (n : N) (code : list N) : list N :=
  match rev code with
  | x :: f :: r => if f =? CSKIP then rev (wadd x (int_arg n) :: f :: r) else code ++ [CSKIP; int_arg n]
  | _ => code ++ [CSKIP; int_arg n]
  end.
Definition is_array (t : ty) : bool := match t with TArray _ _ _ => true | _ => false end.
Fixpoint mul_nth (i : nat) (d : N) (code : list N) : res (list N) :=
  match i, code with
  | _, [] => UB UOob
  | O, x :: r => Ok (wmul x d :: r)
  | S j, x :: r => r' <- mul_nth j d r ;; Ok (x :: r')
  end.

(** The visit_ methods, endianness.cc:27-118. The state is (m_output_index, m_compiled). *)
Fixpoint cvisit (t : ty) (st : N * list N) {struct t} : res (N * list N) :=
  let '(idx, code) := st in
  match t with
  | TNull => Throw ENullType
  | TOpaque _ | TPtr _ | TCont _ _ _ => Throw ERuntime
  | TNum n _ =>
    match n with
    | 1 => Ok (idx, cskip 1 code)
    | 2 => Ok (idx, code ++ [wadd idx 1; idx])
    | 4 => Ok (idx, code ++ [CSWAP4])
    | 8 => Ok (idx, code ++ [CSWAP8])
    | _ => Throw ERuntime
    end
  | TEnum _ _ => Ok (idx, code ++ [wadd idx 3; wadd idx 2; wadd idx 1; wadd idx 0])
  | TArray _ d e =>
    if is_array e then
      '(idx', code') <- cvisit e (idx, code) ;;
      code'' <- mul_nth (length code + 1) d code' ;;
      Ok (idx', code'')
    else
      let pre := code ++ [CARRAY; d; sizeof e] in
      '(idx', code') <- cvisit e (idx, pre) ;;
      match skipn (length pre) code' with
      | [f; n] => if f =? CSKIP then Ok (idx', code ++ [CSKIP; wmul n d]) else Ok (idx', code' ++ [CEND])
      | _ => Ok (idx', code' ++ [CEND])
      end
  | TComp _ fs => cvisit_fields fs idx (idx, code)
  end
with cvisit_fields (fs : fields) (base : N) (st : N * list N) {struct fs} : res (N * list N) :=
  match fs with
  | FNil => Ok st
  | FCons _ off t r =>
    let '(idx, code) := st in
    let new := wadd base off in
    if new <? idx then cvisit_fields r base st
    else
      let code1 := if idx <? new then cskip (wsub new idx) code else code in
      '(_, code2) <- cvisit t (new, code1) ;;
      cvisit_fields r base (wadd new (sizeof t), code2)
  end.
(** CompileEndianSwapVisitor::apply, endianness.cc:120-125. *)
Definition compile_swap (t : ty) : res (list N) := '(_, code) <- cvisit t (0, []) ;; Ok code.

(** ** The interpreter, CompileEndianSwapVisitor::swap, endianness.cc:127-196. [inp] and [out] are the two buffers; when
    both values are the same memory, [alias] is true and reads see what was written before. *)
Definition cread (off n : N) (m : list N) : res (list N) := if lenN m <? off + n then UB UOob else Ok (slice off n m).
Definition cwrite (off : N) (bs m : list N) : res (list N) :=
  if lenN m <? off + lenN bs then UB UOob else Ok (takeN off m ++ bs ++ dropN (off + lenN bs) m).
(** The loop over the elements, endianness.cc:172-179; [run] is the recursive call. *)
Fixpoint aloop (run : N -> N -> list N -> res (N * list N * list N)) (g : nat) (d es io i oo : N) (e : option (list N))
         (out : list N) : res (N * list N * list N) :=
  match g with
  | O => Fuel
  | S g' =>
    if i <? d then
      '(oo1, it1, out1) <- run oo (wadd io (wmul es i)) out ;;
      aloop run g' d es io (i + 1) oo1 (Some it1) out1
    else match e with Some x => Ok (oo, x, out) | None => UB UOther end   (* array_end is not initialised *)
  end.
Fixpoint crun (fuel : nat) (alias : bool) (oo io : N) (it : list N) (inp out : list N) {struct fuel}
  : res (N * list N * list N) :=
  match fuel with
  | O => Fuel
  | S f =>
    let src := if alias then out else inp in
    match it with
    | [] => Ok (oo, [], out)
    | w :: r =>
      if w =? CSKIP then
        match r with
        | n :: r' =>
          (* the byte by byte loop; reading and writing the same offset, so that it can be done at once *)
          bs <- cread oo n src ;; out' <- cwrite oo bs out ;; crun f alias (wadd oo n) io r' inp out'
        | [] => UB UCode
        end
      else if w =? CSWAP4 then
        bs <- cread oo 4 src ;; out' <- cwrite oo (endian_swap_word 4 bs) out ;; crun f alias (wadd oo 4) io r inp out'
      else if w =? CSWAP8 then
        bs <- cread oo 8 src ;; out' <- cwrite oo (endian_swap_word 8 bs) out ;; crun f alias (wadd oo 8) io r inp out'
      else if w =? CARRAY then
        match r with
        | d :: es :: body =>
          '(oo', it', out') <-
            aloop (fun o i x => crun f alias o i body inp x) f d es io 0 oo None out ;;
          match it' with
          | _ :: r' => crun f alias oo' io r' inp out'
          | [] => UB UCode
          end
        | _ => UB UCode
        end
      else if w =? CEND then Ok (oo, it, out)
      else
        bs <- cread (wadd io w) 1 src ;; out' <- cwrite oo bs out ;; crun f alias (wadd oo 1) io r inp out'
    end
  end.
(** apply(type) followed by swap(in, out), endianness.hh:94-99. *)
Definition compiled_swap (fuel : nat) (alias : bool) (t : ty) (inp out : list N) : res (list N) :=
  code <- compile_swap t ;;
  '(_, _, out') <- crun fuel alias 0 0 code inp out ;;
  Ok out'.
