(** * Graph: type objects (typelib/typemodel.hh, typemodel.cc) with their identity, and their comparison.

    A type object is addressed by its identity (the Type const* of the code); a heap maps identities to objects. *)
From Verif Require Import Base Types.
Local Open Scope N_scope.

Definition tid := nat.
(** class Field, typemodel.hh:359-394. *)
Record fld := Fld { f_name : str; f_off : N; f_type : tid }.
(** The subclasses of class Type with their own attributes. Containers: the identity of the factory function
    (typemodel.hh:520, getFactory) is the [ckind]. *)
Inductive okind :=
| ONull
| OOpaque
| ONum (c : ncat)
| OEnum (values : list (str * Z))
| OPtr (on : tid)
| OArr (dim : N) (on : tid)
| OCont (k : ckind) (on : tid)
| OComp (fs : list fld).
Record tobj := Obj { o_name : str; o_size : N; o_kind : okind }.
Definition heap := tid -> tobj.

(** Type::getCategory, typemodel.cc:46. *)
Definition category (k : okind) : nat :=
  match k with
  | ONull => 0 | OArr _ _ => 1 | OPtr _ => 2 | ONum _ => 3 | OEnum _ => 4 | OComp _ => 5 | OOpaque => 6 | OCont _ _ => 7
  end%nat.
Definition ncat_eqb (a b : ncat) : bool :=
  match a, b with SInt, SInt | UInt, UInt | Float, Float => true | _, _ => false end.
Definition ckind_eqb (a b : ckind) : bool :=
  match a, b with KVec, KVec | KStr, KStr => true | _, _ => false end.
Definition seqb (a b : str) : bool := if list_eq_dec ascii_dec a b then true else false.

(** dependsOn(): Indirect, typemodel.cc:259-264; Compound, typemodel.cc:396-402; no dependency by default. A
    std::set is modelled by a list. *)
Definition dependsOn (H : heap) (t : tid) : list tid :=
  match o_kind (H t) with
  | OPtr x | OArr _ x | OCont _ x => [x]
  | OComp fs => map f_type fs
  | _ => []
  end.

(** RecursionStack: std::map<Type const*, Type const*>, typemodel.hh:110. *)
Definition stack := list (tid * tid).
Fixpoint lookup (l : tid) (st : stack) : option tid :=
  match st with
  | [] => None
  | (x, y) :: r => if (x =? l)%nat then Some y else lookup l r
  end.

(** Type::do_compare, typemodel.cc:101-102. *)
Definition base_compare (a b : tobj) : bool :=
  (o_size a =? o_size b) && (category (o_kind a) =? category (o_kind b))%nat.
(** std::map operator==. *)
Fixpoint values_eqb (a b : list (str * Z)) : bool :=
  match a, b with
  | [], [] => true
  | (x, v) :: a', (y, w) :: b' => seqb x y && (v =? w)%Z && values_eqb a' b'
  | _, _ => false
  end.
Fixpoint value_find (n : str) (l : list (str * Z)) : option Z :=
  match l with
  | [] => None
  | (x, v) :: r => if seqb x n then Some v else value_find n r
  end.
(** Enum::do_compare, typemodel.cc:445-469. *)
Definition enum_compare (a b : list (str * Z)) (equality : bool) : bool :=
  if equality then values_eqb a b
  else if (length b <? length a)%nat then false
  else forallb (fun p => match value_find (fst p) b with Some v => (v =? snd p)%Z | None => false end) a.

(** The loop of Compound::do_compare, typemodel.cc:347-361, [rec]: rec_compare. *)
Fixpoint fields_compare (rec : tid -> tid -> stack -> res (bool * stack)) (a b : list fld) (st : stack) : res (bool * stack) :=
  match a, b with
  | x :: a', y :: b' =>
      if negb (seqb (f_name x) (f_name y)) || negb (f_off x =? f_off y) then Ok (false, st)
      else '(ok, st') <- rec (f_type x) (f_type y) st ;;
           if ok then fields_compare rec a' b' st' else Ok (false, st')
  | [], _ => Ok (true, st)
  | _ :: _, [] => UB UOther                 (* excluded by the test on the sizes *)
  end.

(** Type::rec_compare, typemodel.cc:76-100, [rec]: the virtual do_compare. The stack is not restored when the
    comparison returns (only when it throws, which none does). *)
Definition rec_compare (cmp : tid -> tid -> bool -> stack -> res (bool * stack)) (l r : tid) (equality : bool) (st : stack)
  : res (bool * stack) :=
  if (l =? r)%nat then Ok (true, st)
  else match lookup l st with
       | Some x => Ok ((r =? x)%nat, st)
       | None => cmp l r equality ((l, r) :: st)
       end.
(** The virtual do_compare: OpaqueType, typemodel.cc:239; Numeric, typemodel.cc:245-247; Indirect (and Pointer),
    typemodel.cc:256-258; Compound, typemodel.cc:337-363; Enum, typemodel.cc:445-469; Array, typemodel.cc:536-543;
    Container, typemodel.cc:607-614; NullType: Type::do_compare. *)
Fixpoint do_compare (fuel : nat) (H : heap) (l r : tid) (equality : bool) (st : stack) : res (bool * stack) :=
  match fuel with
  | O => Fuel
  | S f =>
    let a := H l in
    let b := H r in
    let rec := rec_compare (do_compare f H) in
    match o_kind a with
    | ONull => Ok (base_compare a b, st)
    | OOpaque => Ok (base_compare a b && seqb (o_name a) (o_name b), st)
    | ONum c =>
        Ok (base_compare a b && match o_kind b with ONum c' => ncat_eqb c c' | _ => false end, st)
    | OEnum v =>
        if negb (base_compare a b) then Ok (false, st)
        else match o_kind b with OEnum w => Ok (enum_compare v w equality, st) | _ => UB UOther end
    | OPtr x =>
        if negb (base_compare a b) then Ok (false, st)
        else match o_kind b with OPtr y => rec x y equality st | _ => UB UOther end
    | OArr d x =>
        if negb (base_compare a b) then Ok (false, st)
        else match o_kind b with
             | OArr d' y => if d =? d' then rec x y true st else Ok (false, st)
             | _ => UB UOther
             end
    | OCont k x =>
        if negb (base_compare a b) then Ok (false, st)
        else match o_kind b with
             | OCont k' y => if ckind_eqb k k' then rec x y true st else Ok (false, st)
             | _ => UB UOther
             end
    | OComp fs =>
        match o_kind b with
        | OComp gs =>
            if equality && negb (base_compare a b) then Ok (false, st)
            else if negb (length fs =? length gs)%nat then Ok (false, st)
            else fields_compare (fun x y st => rec x y equality st) fs gs st
        | _ => Ok (false, st)
        end
    end
  end.
(** Type::isSame, typemodel.cc:54-62; Type::canCastTo, typemodel.cc:63-71. *)
Definition compare_types (fuel : nat) (H : heap) (a b : tid) (equality : bool) : res bool :=
  if (a =? b)%nat then Ok true
  else '(ok, _) <- do_compare fuel H a b equality [(a, b)] ;; Ok ok.
Definition isSame (fuel : nat) (H : heap) (a b : tid) : res bool := compare_types fuel H a b true.
Definition canCastTo (fuel : nat) (H : heap) (a b : tid) : res bool := compare_types fuel H a b false.
