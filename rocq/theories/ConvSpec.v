(** * ConvSpec: values with fields that Ruby sees as objects of its own (specification side).

    A value is a list of fields. A field that is converted is either stored in memory, or is the Ruby object that was read from it or
    assigned to it last: modifying the object modifies the field. *)
From Verif Require Import Base.
Local Open Scope nat_scope.

Notation ref := nat (only parsing).
Inductive op :=
| ONew (raw : list Z)                     (* a new value with these contents *)
| OObj (c : Z)                            (* a new Ruby object *)
| OMutate (r : ref) (c : Z)               (* a Ruby object is modified *)
| ORead (v i : nat)                       (* v.field *)
| OWrite (v i : nat) (r : ref)            (* v.field = object *)
| OBytes (v : nat)                        (* v.to_byte_array, also to_simple_value and pretty_print *)
| OEqual (a b : nat)                      (* a == b *)
| OCopy (to from : nat)                   (* Typelib.copy *)
| OGet (v i : nat)                        (* v[field] *)
| OSet (v i : nat) (r : ref)              (* v[field] = object *)
| ORawSet (v i : nat) (z : Z)             (* v.raw_field = z *)
| OLoad (v : nat) (raw : list Z)          (* v.from_buffer, v.zero!: raises if the size is wrong *)
| ODup (v : nat)
| OArray (vs : list nat).                 (* to_byte_array of an array with these elements *)
Inductive result := RUnit | RRef (r : ref) | RVal (v : nat) | RBytes (l : list Z) | RBool (b : bool) | RRaise.
Fixpoint upd {A} (l : list A) (i : nat) (x : A) : list A :=
  match l, i with
  | [], _ => []
  | _ :: t, 0 => x :: t
  | a :: t, S j => a :: upd t j x
  end.
Fixpoint opt_all {A} (l : list (option A)) : option (list A) :=
  match l with [] => Some [] | None :: _ => None | Some x :: t => option_map (cons x) (opt_all t) end.

Section Spec.
  (** Which fields are converted, and how; back raises on objects that cannot be stored. *)
  Variable converted : nat -> bool.
  Variable conv : nat -> Z -> Z.
  Variable back : nat -> Z -> option Z.
  Inductive cell := Stored (z : Z) | Object (r : ref).
  Record sstate := SS { s_vals : list (list cell); s_heap : list Z }.
  Definition cell_raw (heap : list Z) (i : nat) (c : cell) : option Z :=
    match c with Stored z => Some z | Object r => match nth_error heap r with Some x => back i x | None => None end end.
  Fixpoint cells_raw (heap : list Z) (i : nat) (l : list cell) : list (option Z) :=
    match l with [] => [] | c :: t => cell_raw heap i c :: cells_raw heap (S i) t end.
  (** The contents of a value. *)
  Definition contents (s : sstate) (v : nat) : option (list Z) :=
    match nth_error (s_vals s) v with Some l => opt_all (cells_raw (s_heap s) 0 l) | None => None end.
  Definition z_dec := list_eq_dec Z.eq_dec.
  Definition with_cell (s : sstate) (v i : nat) (l : list cell) (c : cell) : sstate := SS (upd (s_vals s) v (upd l i c)) (s_heap s).
  (** Reading and writing a field. *)
  Definition s_read (s : sstate) (v i : nat) : sstate * result :=
    match nth_error (s_vals s) v with
    | None => (s, RRaise)
    | Some l =>
        match nth_error l i with
        | None => (s, RRaise)
        | Some (Object r) => (s, RRef r)
        | Some (Stored z) =>
            let r := length (s_heap s) in
            let h := s_heap s ++ [conv i z] in
            if converted i then (SS (upd (s_vals s) v (upd l i (Object r))) h, RRef r) else (SS (s_vals s) h, RRef r)
        end
    end.
  Definition s_write (s : sstate) (v i : nat) (r : ref) : sstate * result :=
    match nth_error (s_vals s) v, nth_error (s_heap s) r with
    | Some l, Some x =>
        match nth_error l i with
        | None => (s, RRaise)
        | Some _ => if converted i then (with_cell s v i l (Object r), RUnit)
                    else match back i x with Some z => (with_cell s v i l (Stored z), RUnit) | None => (s, RRaise) end
        end
    | _, _ => (s, RRaise)
    end.
  Definition s_step (s : sstate) (o : op) : sstate * result :=
    match o with
    | ONew raw => (SS (s_vals s ++ [map Stored raw]) (s_heap s), RVal (length (s_vals s)))
    | OObj c => (SS (s_vals s) (s_heap s ++ [c]), RRef (length (s_heap s)))
    | OMutate r c => if r <? length (s_heap s) then (SS (s_vals s) (upd (s_heap s) r c), RUnit) else (s, RRaise)
    | ORead v i | OGet v i => s_read s v i
    | OWrite v i r | OSet v i r => s_write s v i r
    | ORawSet v i z =>
        match nth_error (s_vals s) v with
        | Some l => if i <? length l then (with_cell s v i l (Stored z), RUnit) else (s, RRaise)
        | None => (s, RRaise)
        end
    | OBytes v => (s, match contents s v with Some l => RBytes l | None => RRaise end)
    | OEqual a b => (s, match contents s a, contents s b with Some x, Some y => RBool (if z_dec x y then true else false) | _, _ => RRaise end)
    | OCopy to from =>
        if (to <? length (s_vals s)) then match contents s from with Some x => (SS (upd (s_vals s) to (map Stored x)) (s_heap s), RUnit) | None => (s, RRaise) end
        else (s, RRaise)
    | OLoad v raw => match nth_error (s_vals s) v with
                     | Some l => if length raw =? length l then (SS (upd (s_vals s) v (map Stored raw)) (s_heap s), RUnit) else (s, RRaise)
                     | None => (s, RRaise)
                     end
    | ODup v => match contents s v with Some x => (SS (s_vals s ++ [map Stored x]) (s_heap s), RVal (length (s_vals s))) | None => (s, RRaise) end
    | OArray vs => (s, match opt_all (map (contents s) vs) with Some l => RBytes (concat l) | None => RRaise end)
    end.
  (** What a sequence of operations returns. *)
  Fixpoint s_run (s : sstate) (l : list op) : list result := match l with [] => [] | o :: t => let (s', x) := s_step s o in x :: s_run s' t end.
End Spec.
