(** * CastCopy: copies and comparisons of values from Ruby (bindings/ruby/ext/value.cc:633-676). *)
From Verif Require Import Base Types Layout ValueOps.
From Verif Require Graph.
Local Open Scope N_scope.

(** typelib_do_copy, value.cc:633-646, called by Typelib.copy (lib/typelib.rb:243-260). [to], [from]: the type objects
    of the two values, [T]: the tree of [from] (GraphLayoutSpec.v), [d], [s]: the memory of the two values.
    Simplification: the conversions of converted types and the invalidation of wrappers around the call are in
    Wrapper.v; an exception of Typelib::copy, which is not caught here, stays the exception it is. *)
Definition typelib_do_copy (fuel : nat) (H : Graph.heap) (to from : Graph.tid) (T : ty) (d s : list cell) : res (list cell) :=
  if (from =? to)%nat then copy_value fuel T d s
  else ok <- Graph.canCastTo fuel H from to ;;
       if negb ok then Throw EArg else copy_value fuel T d s.

(** typelib_compare, value.cc:654-676, called by Typelib.compare (lib/typelib.rb:262-270): all exceptions of
    Typelib::compare become ArgumentError. *)
Definition typelib_compare (fuel : nat) (H : Graph.heap) (to from : Graph.tid) (T : ty) (d s : list cell) : res bool :=
  let cmp := match do_compare fuel T d s with Throw _ => Throw EArg | x => x end in
  if (from =? to)%nat then cmp
  else ok <- Graph.canCastTo fuel H from to ;;
       if negb ok then Throw EArg else cmp.
