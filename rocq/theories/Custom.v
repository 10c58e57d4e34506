(** * Custom: customizations of types (bindings/ruby/lib/typelib/specializations.rb, type.rb:180-235 and the
    subclass_initialize methods).

    Simplifications: conditions (:if) are pure and do not raise; a Ruby Hash is a list of keys and values in insertion
    order; modules and blocks are known by a number. *)
From Verif Require Import Base CustomSpec.

(** Ruby's Hash: [], []= (a new key goes to the end). *)
Section Hash.
  Context {K V : Type} (dec : forall a b : K, {a = b} + {a <> b}).
  Definition hash := list (K * V).
  Fixpoint hget (h : hash) (k : K) : option V :=
    match h with [] => None | (k', v) :: r => if dec k' k then Some v else hget r k end.
  Fixpoint hset (h : hash) (k : K) (v : V) : hash :=
    match h with [] => [(k, v)] | (k', v') :: r => if dec k' k then (k', v) :: r else (k', v') :: hset r k v end.
End Hash.
Definition sdec : forall a b : str, {a = b} + {a <> b} := list_eq_dec ascii_dec.

Section Table.
  Variable matches : N -> str -> bool.
  Context {O : Type}.
  (** RubyMappingCustomization, specializations.rb:24-48. [tb_container]: whether a container was given. *)
  Record table := Table {
    tb_typename : list (str * list (entry O)); tb_array : list (str * list (entry O));
    tb_cont : list (str * list (entry O)); tb_regexp : list (N * list (entry O)); tb_container : bool }.
  Definition new_table (container : bool) : table := Table [] [] [] [] container.

  (** The hash that a key is for, and the key in it. *)
  Inductive place := InCont (s : str) | InArray (s : str) | InName (s : str) | InRegexp (i : N).
  (** mapping_for_key, specializations.rb:54-66: key[-2, 2] is nil for texts of less than two characters. *)
  Definition suffix2 (s : str) : option str := if length s <? 2 then None else Some (skipn (length s - 2) s).
  Definition mapping_for_key (k : key) : place :=
    match k with
    | KText s =>
      match suffix2 s with
      | Some p => if sdec p (s_ "<>") then InCont (firstn (length s - 2) s)
                  else if sdec p (s_ "[]") then InArray (firstn (length s - 2) s) else InName s
      | None => InName s
      end
    | KMatch i => InRegexp i
    end.
  Definition pget (tb : table) (p : place) : option (list (entry O)) :=
    match p with
    | InCont s => hget sdec (tb_cont tb) s | InArray s => hget sdec (tb_array tb) s
    | InName s => hget sdec (tb_typename tb) s | InRegexp i => hget N.eq_dec (tb_regexp tb) i
    end.
  Definition pset (tb : table) (p : place) (v : list (entry O)) : table :=
    match p with
    | InCont s => Table (tb_typename tb) (tb_array tb) (hset sdec (tb_cont tb) s v) (tb_regexp tb) (tb_container tb)
    | InArray s => Table (tb_typename tb) (hset sdec (tb_array tb) s v) (tb_cont tb) (tb_regexp tb) (tb_container tb)
    | InName s => Table (hset sdec (tb_typename tb) s v) (tb_array tb) (tb_cont tb) (tb_regexp tb) (tb_container tb)
    | InRegexp i => Table (tb_typename tb) (tb_array tb) (tb_cont tb) (hset N.eq_dec (tb_regexp tb) i v) (tb_container tb)
    end.
  (** set, specializations.rb:73-78 *)
  Definition set (tb : table) (k : key) (e : entry O) : table := pset tb (mapping_for_key k) [e].
  (** add, specializations.rb:89-97; None: ArgumentError *)
  Definition add (tb : table) (k : key) (e : entry O) : option table :=
    if tb_container tb then
      let p := mapping_for_key k in
      Some (pset tb p (match pget tb p with Some l => l | None => [] end ++ [e]))
    else None.
  Definition run_op (tb : table) (o : op O) : table :=
    match o with OSet k e => set tb k e | OAdd k e => match add tb k e with Some tb' => tb' | None => tb end end.
  Definition run (tb : table) (h : list (op O)) : table := fold_left run_op h tb.

  (** find_all, specializations.rb:113-138 *)
  Definition concat_found (o : option (list (entry O))) : list (entry O) := match o with Some l => l | None => [] end.
  Definition candidates (tb : table) (t : tm) : list (entry O) :=
    match tm_shape t with
    | ShContainer c => concat_found (hget sdec (tb_cont tb) c)
    | ShArray c => concat_found (hget sdec (tb_array tb) c)
    | _ => []
    end
    ++ concat_found (hget sdec (tb_typename tb) (tm_name t))
    ++ flat_map (fun p => if matches (fst p) (tm_name t) then snd p else []) (tb_regexp tb).
  Definition compact (l : list (option O)) : list O := flat_map (fun o => match o with Some x => [x] | None => [] end) l.
  Definition find_all (tb : table) (t : tm) : list O :=
    compact (map (fun e => if e_if e t then e_obj e else None) (candidates tb t)).
  (** find, specializations.rb:102-108: the message of the ArgumentError uses name, which is not defined: the exception is a
      NameError. *)
  Inductive exc := ArgumentError | NameError.
  Definition find (tb : table) (t : tm) (error_if_ambiguous : bool) : option O + exc :=
    let all := find_all tb t in
    if (1 <? length all) && error_if_ambiguous then inr NameError
    else inl (match all with [] => None | x :: _ => Some x end).
End Table.
Arguments table : clear implicits.

(** ** The module functions and the customization of new types *)
(** Convertion, specializations.rb:261-279. *)
Notation to_conv := (option ruby_class * N)%type.
Notation from_conv := (ruby_class * N)%type.

(** Where a conversion from Ruby comes from: a registered block, or one that typelib defines. *)
Inductive source := Registered (b : N) | Builtin.
(** What subclass_initialize leaves in a type class: modules it is extended with, modules it includes, @convertions_from_ruby,
    the block behind to_ruby (None: the default one), convertion_to_ruby (class and :builtin) and contains_converted_types. *)
Record customized := Customized {
  cu_model : list N; cu_value : list N; cu_from : list (ruby_class * source);
  cu_to_ruby : option N; cu_declared : option (option ruby_class * bool); cu_contains : bool }.
Record world := World {
  w_model : table N; w_value : table N; w_from : table from_conv; w_to : table to_conv; w_types : list (tm * customized) }.
(** specializations.rb:142-145 *)
Definition world0 : world := World (new_table true) (new_table true) (new_table true) (new_table true) [].

(** Kernel.validate_options (utilrb) with :if as the only known key and a default that accepts everything. None:
    ArgumentError. *)
Definition validate_options (o : options) : option (tm -> bool) :=
  if 0 <? length (o_unknown o) then None else Some (match o_if o with Some p => p | None => fun _ => true end).

(** Typelib.specialize_model, specialize, convert_to_ruby, convert_from_ruby, specializations.rb:226-229, 255-258, 306-315,
    342-348. None: an exception. *)
Definition run_call (w : world) (c : call) : option world :=
  match c with
  | CSpecializeModel k o m =>
    match validate_options o with
    | Some p => option_map (fun tb => World tb (w_value w) (w_from w) (w_to w) (w_types w)) (add (w_model w) k (Entry p (Some m)))
    | None => None
    end
  | CSpecialize k o m =>
    match validate_options o with
    | Some p => option_map (fun tb => World (w_model w) tb (w_from w) (w_to w) (w_types w)) (add (w_value w) k (Entry p (Some m)))
    | None => None
    end
  | CToRuby k a o block =>
    (* specializations.rb:307-309: the Hash is dropped and the options stay what they were *)
    let a' := match a with AHash _ => ANil | _ => a end in
    match a', block with
    | AOther, _ | AHash _, _ => None
    | _, None => None
    | _, Some b =>
      let cls := match a' with AClass c => Some c | _ => None end in
      match validate_options o with
      | Some p => option_map (fun tb => World (w_model w) (w_value w) (w_from w) tb (w_types w)) (add (w_to w) k (Entry p (Some (cls, b))))
      | None => None
      end
    end
  | CFromRuby a k o block =>
    match validate_options o with
    | Some p =>
      match a, block with
      | AClass c, Some b => option_map (fun tb => World (w_model w) (w_value w) tb (w_to w) (w_types w)) (add (w_from w) k (Entry p (Some (c, b))))
      | _, _ => None
      end
    | None => None
    end
  end.

Section Create.
  Variable matches : N -> str -> bool.
  (** Type.subclass_initialize and Type.convert_to_ruby/convert_from_ruby, type.rb:184-235 *)
  Definition type_subclass_initialize (w : world) (t : tm) : customized :=
    let from := fold_left (fun h (c : from_conv) => hset N.eq_dec h (fst c) (Registered (snd c))) (find_all matches (w_from w) t) [] in
    let base := Customized (find_all matches (w_model w) t) (find_all matches (w_value w) t) from None None false in
    match find matches (w_to w) t false with
    | inl (Some (cls, b)) => Customized (cu_model base) (cu_value base) from (Some b) (Some (cls, false)) true
    | _ => base
    end.
  Definition with_from (cu : customized) (f : list (ruby_class * source)) : customized :=
    Customized (cu_model cu) (cu_value cu) f (cu_to_ruby cu) (cu_declared cu) (cu_contains cu).
  (** The subclass_initialize of the kinds of types: compound_type.rb:283-301 (Hash and Array only if there is none),
      array_type.rb:104-118 (Array), container_type.rb:185-203 (Array, DeepCopyArray), numeric_type.rb:4-14. *)
  Definition subclass_initialize (w : world) (t : tm) : customized :=
    let cu := type_subclass_initialize w t in
    match tm_shape t with
    | ShCompound =>
      let f1 := match hget N.eq_dec (cu_from cu) c_Hash with Some _ => cu_from cu | None => hset N.eq_dec (cu_from cu) c_Hash Builtin end in
      let f2 := match hget N.eq_dec f1 c_Array with Some _ => f1 | None => hset N.eq_dec f1 c_Array Builtin end in
      with_from cu f2
    | ShArray _ => with_from cu (hset N.eq_dec (cu_from cu) c_Array Builtin)
    | ShContainer _ => with_from cu (hset N.eq_dec (hset N.eq_dec (cu_from cu) c_Array Builtin) c_DeepCopyArray Builtin)
    | ShNumeric i => Customized (cu_model cu) (cu_value cu) (cu_from cu) (cu_to_ruby cu) (Some (Some (if i then c_Numeric else c_Float), true)) false
    | ShOther => cu
    end.
  Definition run_event (w : world) (e : event) : world :=
    match e with
    | ECall c => match run_call w c with Some w' => w' | None => w end
    | ECreate t => World (w_model w) (w_value w) (w_from w) (w_to w) (w_types w ++ [(t, subclass_initialize w t)])
    end.
  Definition run_events (w : world) (h : list event) : world := fold_left run_event h w.
End Create.

(** needs_convertion_to_ruby?, type.rb:57-59 *)
Definition needs_convertion_to_ruby (cu : customized) : bool := match cu_declared cu with Some (_, b) => negb b | None => false end.
