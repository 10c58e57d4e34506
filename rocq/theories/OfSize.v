(** * OfSize: containers built from one element (bindings/ruby/lib/typelib/container_type.rb). *)
From Verif Require Import Base Types Layout ValueOps.
Local Open Scope N_scope.

(** Ruby's Array#pack with Q, for one integer: RangeError from 2^64 on (and below -2^64). *)
Definition pack_Q (z : Z) : res (list N) :=
  if (Z.of_N two64 <=? z)%Z then Throw ERange
  else if (z <=? - Z.of_N two64)%Z then Throw ERange
  else Ok (le_bytes 8 (Z.to_N (z mod Z.of_N two64))).
(** String * integer: ArgumentError for negative integers. *)
Definition str_times (bs : list N) (z : Z) : res (list N) :=
  if (z <? 0)%Z then Throw EArg else Ok (concat (repN (Z.to_N z) bs)).
(** ContainerType.of_size, container_type.rb:250-253, for an element [v] of the element type (from_ruby returns it as it is),
    with to_byte_array and from_buffer with their default options (type.rb:579-581, 660-680; ext/value.cc:
    value_do_byte_array, value_do_from_buffer). [d]: the memory of the new container. C++ exceptions in from_buffer become
    ArgumentError; here they keep their name. *)
Definition of_size (fuel : nat) (k : ckind) (s : N) (e : ty) (size : Z) (v d : list cell) : res (list cell) :=
  elt <- do_dump fuel e v ;;
  head <- pack_Q size ;;
  body <- str_times elt size ;;
  do_load fuel (TCont k s e) d (head ++ body).
