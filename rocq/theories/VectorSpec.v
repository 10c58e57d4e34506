(** * VectorSpec: vectors as sequences (specification side; nothing here mentions the operations). *)
From Verif Require Import Base Types ValueOps ValueSpec.
Local Open Scope N_scope.

(** [elements s e m ms]: the memory [m] is a live vector object (of [s] bytes) whose elements are [ms], in this order. *)
Definition elements (s : N) (e : ty) (m : list cell) (ms : list (list cell)) : Prop :=
  exists cap, m = put_obj s (VecObj cap (concat ms)) /\ Forall (valid e) ms /\
              lenN (concat ms) <= cap /\ cap <= max_size.

(** Two sequences of elements are logically equal, element by element. *)
Definition same_seq (e : ty) : list (list cell) -> list (list cell) -> Prop := Forall2 (same e).

(** Offering the elements one after the other, in order, to a predicate with a state: the state at the end and the
    elements it did not want deleted. *)
Fixpoint sieve {P} (pred : P -> list cell -> bool * P) (st : P) (ms : list (list cell)) : P * list (list cell) :=
  match ms with
  | [] => (st, [])
  | x :: r =>
    let (del, st') := pred st x in
    let (st'', keep) := sieve pred st' r in
    (st'', if del : bool then keep else x :: keep)
  end.
(** A predicate that depends on the logical value only (not on padding or capacities). *)
Definition logical {P} (e : ty) (pred : P -> list cell -> bool * P) : Prop :=
  forall st a b, same e a b -> pred st a = pred st b.
