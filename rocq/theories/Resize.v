(** * Resize: Registry::resize (typelib/registry.cc) and Type::resize (typelib/typemodel.cc).

    The type objects are mutated: the heap is part of the state. *)
From Verif Require Import Base Types NamesSpec Names Graph Registry.
Local Open Scope N_scope.

(** std::map<std::string, std::pair<size_t, size_t>>: name -> (old size, new size). *)
Definition sizes := list (str * (N * N)).
Fixpoint sfind (n : str) (s : sizes) : option (N * N) :=
  match s with
  | [] => None
  | (k, v) :: r => if seqb k n then Some v else sfind n r
  end.
(** std::map::insert: an existing binding is kept. *)
Definition sinsert (n : str) (v : N * N) (s : sizes) : sizes := match sfind n s with Some _ => s | None => (n, v) :: s end.

Definition upd (H : heap) (t : tid) (o : tobj) : heap := fun x => if (x =? t)%nat then o else H x.
(** Type::setSize, typemodel.cc:49. *)
Definition setSize (H : heap) (t : tid) (n : N) : heap := upd H t (Obj (o_name (H t)) n (o_kind (H t))).
(** Field::setOffset, typemodel.cc:651, on the [i]-th field of the compound [t]. *)
Fixpoint set_nth_off (i : nat) (o : N) (fs : list fld) : list fld :=
  match i, fs with
  | _, [] => []
  | 0%nat, x :: r => Fld (f_name x) o (f_type x) :: r
  | S j, x :: r => x :: set_nth_off j o r
  end.
Definition fields_of (H : heap) (t : tid) : list fld := match o_kind (H t) with OComp fs => fs | _ => [] end.
Definition setOffset (H : heap) (t : tid) (i : nat) (o : N) : heap :=
  upd H t (Obj (o_name (H t)) (o_size (H t)) (OComp (set_nth_off i o (fields_of H t)))).

(** Registry::get_(Type const&), registry.cc:288-294. *)
Definition get_same (H : heap) (r : reg) (t : tid) : res tid :=
  match get r (o_name (H t)) with Some x => Ok x | None => Throw EUndefined end.
(** Type::do_resize, typemodel.cc:152-166. *)
Definition base_resize (H : heap) (sz : sizes) (t : tid) : bool * heap :=
  match sfind (o_name (H t)) sz with
  | Some (_, n) => if negb (o_size (H t) =? n) then (true, setSize H t n) else (false, H)
  | None => (false, H)
  end.
(** The loop of Compound::do_resize, typemodel.cc:406-417; [i]: the index of the field, [g]: global_offset (a size_t),
    [rec]: resize. *)
Fixpoint fields_resize (rec : heap -> sizes -> tid -> res (bool * heap * sizes)) (r : reg) (t : tid) (n i : nat) (g : N)
  (H : heap) (sz : sizes) : res (N * heap * sizes) :=
  match n with
  | O => Ok (g, H, sz)
  | S n' =>
      match nth_error (fields_of H t) i with
      | None => UB UOther
      | Some x =>
          let H1 := setOffset H t i (wadd (f_off x) g) in
          ft <- get_same H1 r (f_type x) ;;
          '(b, H2, sz2) <- rec H1 sz ft ;;
          if b then
            match sfind (o_name (H2 ft)) sz2 with
            | None => UB UOther             (* dereference of end() *)
            | Some (old, _) => fields_resize rec r t n' (S i) (wadd g (wsub (o_size (H2 ft)) old)) H2 sz2
            end
          else fields_resize rec r t n' (S i) g H2 sz2
      end
  end.
(** Type::resize, typemodel.cc:138-150, and the virtual do_resize: Type, typemodel.cc:152-166; Indirect (Pointer,
    Container), typemodel.cc:289-293; Compound, typemodel.cc:404-424; Array, typemodel.cc:544-551. *)
Fixpoint resize (fuel : nat) (r : reg) (H : heap) (sz : sizes) (t : tid) : res (bool * heap * sizes) :=
  match fuel with
  | O => Fuel
  | S f =>
    let old := o_size (H t) in
    match sfind (o_name (H t)) sz with
    | Some _ => Ok (true, H, sz)
    | None =>
        '(b, H', sz') <-
          (let indirect x :=
             let '(res, H1) := base_resize H sz t in
             y <- get_same H1 r x ;;
             '(b, H2, sz2) <- resize f r H1 sz y ;;
             Ok (b || res, H2, sz2) in
           match o_kind (H t) with
           | OPtr x | OCont _ x => indirect x
           | OArr d x =>
               '(b, H1, sz1) <- indirect x ;;
               if b then Ok (true, setSize H1 t (wmul d (o_size (H1 x))), sz1) else Ok (false, H1, sz1)
           | OComp fs =>
               '(g, H1, sz1) <- fields_resize (resize f r) r t (length fs) 0 0 H sz ;;
               if negb (g =? 0) then Ok (true, setSize H1 t (wadd (o_size (H1 t)) g), sz1) else Ok (false, H1, sz1)
           | _ => let '(b, H1) := base_resize H sz t in Ok (b, H1, sz)
           end) ;;
        if (b : bool) then Ok (true, H', sinsert (o_name (H' t)) (old, o_size (H' t)) sz') else Ok (false, H', sz')
    end
  end.
(** Registry::resize, registry.cc:575-593: the loop over the requested sizes ... *)
Fixpoint request (r : reg) (req : list (str * N)) (H : heap) (sz : sizes) : res (heap * sizes) :=
  match req with
  | [] => Ok (H, sz)
  | (n, s) :: req' =>
      match get r n with
      | None => UB UOther                   (* dereference of a null pointer *)
      | Some t => request r req' (setSize H t s) (sinsert (o_name (H t)) (o_size (H t), s) sz)
      end
  end.
(** ... and the loop over the types. *)
Fixpoint resize_all (fuel : nat) (r : reg) (l : list tid) (H : heap) (sz : sizes) : res (heap * sizes) :=
  match l with
  | [] => Ok (H, sz)
  | t :: l' => '(_, H', sz') <- resize fuel r H sz t ;; resize_all fuel r l' H' sz'
  end.
Definition registry_resize (fuel : nat) (r : reg) (req : list (str * N)) (H : heap) : res heap :=
  '(H1, sz1) <- request r req H [] ;;
  '(H2, _) <- resize_all fuel r (map (fun p => e_type (snd p)) (filter (fun p => negb (isAlias H1 p)) (r_global r))) H1 sz1 ;;
  Ok H2.
