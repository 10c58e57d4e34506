(** * RbCreateSpec: what the types built from Ruby should look like (specification side). *)
From Verif Require Import Base Types.
From Verif Require Import Graph.
Local Open Scope nat_scope.

Definition int_range (z : Z) : Prop := (-2147483648 <= z <= 2147483647)%Z.
(** A field as it is given: its name, its type, and its offset if there is one. *)
Definition given_field : Type := (str * tid * option Z)%type.
(** The offsets of the fields: the given ones; a field without offset follows the one before it, the first one is at 0. *)
Definition placed (size_of : tid -> N) (given : list given_field) (offsets : list Z) : Prop :=
  length offsets = length given /\
  forall i n t o, nth_error given i = Some (n, t, o) ->
    match o with
    | Some z => nth_error offsets i = Some z
    | None => match i with
              | 0 => nth_error offsets 0 = Some 0%Z
              | S j => exists n' t' o' z', nth_error given j = Some (n', t', o') /\ nth_error offsets j = Some z' /\
                                           nth_error offsets i = Some (z' + Z.of_N (size_of t'))%Z
              end
    end.
(** The values of an enum: the given ones; a symbol without value has the value of the one before it plus one, the first 0. *)
Definition numbered (given : list (str * option Z)) (values : list Z) : Prop :=
  length values = length given /\
  forall i n o, nth_error given i = Some (n, o) ->
    match o with
    | Some z => nth_error values i = Some z
    | None => match i with
              | 0 => nth_error values 0 = Some 0%Z
              | S j => exists z', nth_error values j = Some z' /\ nth_error values i = Some (z' + 1)%Z
              end
    end.
(** No symbol is given two values. *)
Definition consistent (l : list (str * Z)) : Prop := forall n v w, In (n, v) l -> In (n, w) l -> v = w.
(** A field occupies the byte [b] of the compound. *)
Definition occupies (size_of : tid -> N) (f : fld) (b : N) : Prop := (f_off f <= b < f_off f + size_of (f_type f))%N.
