(** * RubyCallsSpec: what a call from Ruby to the extension can end with.

    The Ruby interpreter is a C program. A method of the extension may return, or raise a Ruby exception (rb_raise); a C++ exception
    that leaves the method finds no handler on the stack (the frames above are those of the interpreter): std::terminate is
    called and the process is aborted, without any Ruby code (rescue, ensure, at_exit) being run. *)
From Verif Require Import Base.

(** The exceptions that are Ruby's: ArgumentError, RangeError, TypeError, IndexError, Typelib::NotFound. *)
Definition ruby_exn (e : exn) : bool := match e with EArg | ERange | EType | EIndex | ENotFound => true | _ => false end.
(** The call returns, or raises an exception that Ruby code can rescue. *)
Definition answered {A} (r : res A) : Prop := (exists a, r = Ok a) \/ (exists e, r = Throw e /\ ruby_exn e = true).
(** The call takes the process down. *)
Definition aborted {A} (r : res A) : Prop := exists e, r = Throw e /\ ruby_exn e = false.
