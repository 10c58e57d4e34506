(** * Endian: byte swapping, typelib/endian_swap.hh and typelib/endianness.hh (EndianSwapVisitor). *)
From Verif Require Import Base Types Layout ValueOps Visitor.
Local Open Scope N_scope.

(** Endian::Details::swap_helper, endian_swap.hh:22-42. The unsigned types are wide enough for every intermediate
    result, so the model needs no truncation except the conversions to uint32_t of the 8 byte version. *)
Definition swap_helper2 (data : N) : N :=
  N.lor (N.land (N.shiftr data 8) 255) (N.land (N.shiftl data 8) 65280).
Definition swap_helper4 (data : N) : N :=
  N.lor (N.lor (N.lor (N.shiftr (N.land data 4278190080) 24) (N.shiftr (N.land data 16711680) 8))
               (N.shiftl (N.land data 255) 24)) (N.shiftl (N.land data 65280) 8).
Definition swap_helper8 (data : N) : N :=
  let src_low := N.land data 4294967295 in
  let src_high := N.shiftr data 32 mod 4294967296 in
  let dst_low := swap_helper4 src_high in
  let dst_high := swap_helper4 src_low in
  N.lor (N.shiftl dst_high 32) dst_low.
Definition swap_helper (n : N) (data : N) : N :=
  match n with
  | 2 => swap_helper2 data
  | 4 => swap_helper4 data
  | 8 => swap_helper8 data
  | _ => data
  end.
(** Endian::swap<S> on the [n] = sizeof(S) bytes of the argument (little endian machine), endian_swap.hh:46-58.
    Simplification: passing a float by value does not change its bytes (true of SSE registers, not of x87 ones for
    signalling NaNs). *)
Definition endian_swap_word (n : N) (bs : list N) : list N := le_bytes (N.to_nat n) (swap_helper n (le_val bs)).

(** EndianSwapVisitor, endianness.hh:15-31; UnsupportedEndianSwap is a std::runtime_error. *)
Definition swap_visitor : visitor unit := mkV
  (fun n _ bs s => Ok (true, endian_swap_word n bs, s))
  (fun _ bs s => Ok (true, endian_swap_word enum_size bs, s))
  (fun _ s => Ok (true, s))
  (Some ERuntime)
  (fun _ _ _ _ _ => None).
(** endian_swap(Value), endianness.hh:34-38. *)
Definition endian_swap (fuel : nat) (t : ty) (m : list cell) : res (list cell) :=
  '(m', _) <- apply_visitor swap_visitor fuel t m tt ;; Ok m'.
