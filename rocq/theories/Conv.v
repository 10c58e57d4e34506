(** * Conv: fields with custom convertions in the Ruby library (bindings/ruby/lib/typelib/compound_type.rb).

    A value has its memory (one number per field) and, for each converted field, the instance variable (@__typelib_name). A copy of the
    shared wrappers of fields (@fields) is not needed, as fields are numbers here; fields that are compounds are left out. *)
From Verif Require Import Base ConvSpec.
Local Open Scope nat_scope.

Section Conv.
  Variable converted : nat -> bool.
  Variable conv : nat -> Z -> Z.
  Variable back : nat -> Z -> option Z.
  Record rval := RV { v_mem : list Z; v_ivar : list (option ref) }.
  Record rstate := RS { r_vals : list rval; r_heap : list Z }.
  Definition fresh (mem : list Z) : rval := RV mem (map (fun _ => None) mem).
  (** apply_changes_from_converted_types, compound_type.rb:91-103: set_field for each converted field in turn; an exception leaves
      the fields before it written. *)
  Fixpoint apply_fields (heap : list Z) (i : nat) (mem : list Z) (iv : list (option ref)) : list Z * bool :=
    match mem, iv with
    | z :: mem', x :: iv' =>
        match (if converted i then x else None) with
        | None => let (m, ok) := apply_fields heap (S i) mem' iv' in (z :: m, ok)
        | Some r => match match nth_error heap r with Some c => back i c | None => None end with
                    | Some z' => let (m, ok) := apply_fields heap (S i) mem' iv' in (z' :: m, ok)
                    | None => (z :: mem', false)
                    end
        end
    | _, _ => (mem, true)
    end.
  Definition set_val (s : rstate) (v : nat) (x : rval) : rstate := RS (upd (r_vals s) v x) (r_heap s).
  Definition apply (s : rstate) (v : nat) : rstate * option (list Z) :=
    match nth_error (r_vals s) v with
    | None => (s, None)
    | Some x => let (m, ok) := apply_fields (r_heap s) 0 (v_mem x) (v_ivar x) in (set_val s v (RV m (v_ivar x)), if ok : bool then Some m else None)
    end.
  (** invalidate_changes_from_converted_types, compound_type.rb:81-89 *)
  Definition invalidate (s : rstate) (v : nat) : rstate := match nth_error (r_vals s) v with Some x => set_val s v (fresh (v_mem x)) | None => s end.
  Definition new_obj (s : rstate) (c : Z) : rstate * ref := (RS (r_vals s) (r_heap s ++ [c]), length (r_heap s)).
  (** get, compound_type.rb:441-451 *)
  Definition get (s : rstate) (v i : nat) : rstate * result :=
    match nth_error (r_vals s) v with
    | None => (s, RRaise)
    | Some x => match nth_error (v_mem x) i with None => (s, RRaise) | Some z => let (s', r) := new_obj s (conv i z) in (s', RRef r) end
    end.
  (** set, raw_set, compound_type.rb:461-512 *)
  Definition raw_set (s : rstate) (v i : nat) (z : Z) : rstate * result :=
    match nth_error (r_vals s) v with
    | None => (s, RRaise)
    | Some x => if i <? length (v_mem x) then (set_val s v (RV (upd (v_mem x) i z) (v_ivar x)), RUnit) else (s, RRaise)
    end.
  Definition set (s : rstate) (v i : nat) (r : ref) : rstate * result :=
    match nth_error (r_vals s) v with
    | None => (s, RRaise)
    | Some x => if i <? length (v_mem x) then
                  match nth_error (r_heap s) r with
                  | None => (s, RRaise)
                  | Some c => match back i c with Some z => raw_set s v i z | None => (s, RRaise) end
                  end
                else (s, RRaise)
    end.
  (** The accessors of converted fields, compound_type.rb:166-182, and those of the other ones, :228-238. *)
  Definition attr_read (s : rstate) (v i : nat) : rstate * result :=
    if converted i then
      match nth_error (r_vals s) v with
      | None => (s, RRaise)
      | Some x =>
          match nth_error (v_ivar x) i with
          | None => (s, RRaise)
          | Some (Some r) => (s, RRef r)
          | Some None =>
              match get s v i with
              | (s', RRef r) => (set_val s' v (RV (v_mem x) (upd (v_ivar x) i (Some r))), RRef r)
              | p => p
              end
          end
      end
    else get s v i.
  Definition attr_write (s : rstate) (v i : nat) (r : ref) : rstate * result :=
    if converted i then
      match nth_error (r_vals s) v, nth_error (r_heap s) r with
      | Some x, Some _ => if i <? length (v_ivar x) then (set_val s v (RV (v_mem x) (upd (v_ivar x) i (Some r))), RUnit) else (s, RRaise)
      | _, _ => (s, RRaise)
      end
    else set s v i r.
  Definition mem_of (s : rstate) (v : nat) : option (list Z) := option_map v_mem (nth_error (r_vals s) v).
  (** Typelib.copy, typelib.rb:243-260 *)
  Definition copy (s : rstate) (to from : nat) : rstate * result :=
    if to <? length (r_vals s) then
      let s1 := invalidate s to in
      match apply s1 from with
      | (s2, Some m) => (match nth_error (r_vals s2) to with Some x => set_val s2 to (RV m (map (fun _ => None) m)) | None => s2 end, RUnit)
      | (s2, None) => (s2, RRaise)
      end
    else (s, RRaise).
  (** CustomConvertionsHandling#dup, compound_type.rb:105-115: the instance variables that are set are those of self. *)
  Fixpoint dup_ivars (heap : list Z) (i : nat) (iv : list (option ref)) : list (option ref) * list Z :=
    match iv with
    | [] => ([], heap)
    | x :: t => match (if converted i then x else None) with
                | Some r => let h := heap ++ [nth r heap 0%Z] in let (l, h') := dup_ivars h (S i) t in (Some (length heap) :: l, h')
                | None => let (l, h') := dup_ivars heap (S i) t in (x :: l, h')
                end
    end.
  Definition dup (s : rstate) (v : nat) : rstate * result :=
    match apply s v with
    | (s1, Some m) =>
        match nth_error (r_vals s1) v with
        | Some x => let (iv, h) := dup_ivars (r_heap s1) 0 (v_ivar x) in
                    (RS (upd (r_vals s1) v (RV (v_mem x) iv) ++ [fresh m]) h, RVal (length (r_vals s1)))
        | None => (s1, RRaise)
        end
    | (s1, None) => (s1, RRaise)
    end.
  Definition r_step (s : rstate) (o : op) : rstate * result :=
    match o with
    | ONew raw => (RS (r_vals s ++ [fresh raw]) (r_heap s), RVal (length (r_vals s)))
    | OObj c => let (s', r) := new_obj s c in (s', RRef r)
    | OMutate r c => if r <? length (r_heap s) then (RS (r_vals s) (upd (r_heap s) r c), RUnit) else (s, RRaise)
    | ORead v i => attr_read s v i
    | OWrite v i r => attr_write s v i r
    (* to_byte_array, type.rb:709-717 *)
    | OBytes v => match apply s v with (s', Some m) => (s', RBytes m) | (s', None) => (s', RRaise) end
    (* Typelib.compare, typelib.rb:262-270 *)
    | OEqual a b => match apply s a with
                    | (s1, Some _) => match apply s1 b with
                                      | (s2, Some y) => (s2, match mem_of s2 a with Some x => RBool (if z_dec x y then true else false) | None => RRaise end)
                                      | (s2, None) => (s2, RRaise)
                                      end
                    | (s1, None) => (s1, RRaise)
                    end
    | OCopy to from => copy s to from
    | OGet v i => get s v i
    | OSet v i r => set s v i r
    | ORawSet v i z => raw_set s v i z
    (* from_buffer, type.rb:653-677, zero!, value.cc:644-650: the instance variables stay *)
    | OLoad v raw => match nth_error (r_vals s) v with
                     | Some x => if length raw =? length (v_mem x) then (set_val s v (RV raw (v_ivar x)), RUnit) else (s, RRaise)
                     | None => (s, RRaise)
                     end
    | ODup v => dup s v
    (* ArrayType does not define apply_changes_from_converted_types: type.rb:262 *)
    | OArray vs => (s, match opt_all (map (mem_of s) vs) with Some l => RBytes (concat l) | None => RRaise end)
    end.
  Fixpoint r_run (s : rstate) (l : list op) : list result := match l with [] => [] | o :: t => let (s', x) := r_step s o in x :: r_run s' t end.
  Fixpoint r_states (s : rstate) (l : list op) : rstate := match l with [] => s | o :: t => r_states (fst (r_step s o)) t end.
End Conv.
