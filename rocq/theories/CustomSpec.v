(** * CustomSpec: what registering type customizations should mean (specification side). *)
From Verif Require Import Base.

(** A type, as far as customizations go: its name and its kind (name of the container template, name of the element type). *)
Inductive shape := ShContainer (kind : str) | ShArray (elt : str) | ShCompound | ShNumeric (integer : bool) | ShOther.
Record tm := TM { tm_name : str; tm_shape : shape }.

(** A key is a text, or an object that matches names (a regexp, known by its identity up to eql?). *)
Inductive key := KText (s : str) | KMatch (i : N).
Definition key_dec : forall a b : key, {a = b} + {a <> b}.
Proof. decide equality; [apply (list_eq_dec ascii_dec)|apply N.eq_dec]. Defined.

(** What is registered: an object (None is nil) and a condition on the type. *)
Record entry (O : Type) := Entry { e_if : tm -> bool; e_obj : option O }.
Arguments Entry {O}. Arguments e_if {O}. Arguments e_obj {O}.
Inductive op (O : Type) := OSet (k : key) (e : entry O) | OAdd (k : key) (e : entry O).
Arguments OSet {O}. Arguments OAdd {O}.

Section Spec.
  Variable matches : N -> str -> bool.   (* whether a regexp matches a name *)
  Context {O : Type}.

  Definition ends_with (p s : str) : Prop := exists x, s = x ++ p.
  Definition generic (s : str) : Prop := ends_with (s_ "<>") s \/ ends_with (s_ "[]") s.
  (** Which types a key is for: name<> is for the containers of that name, name[] for the arrays of that element, any other
      text for the type of that name, a regexp for the types whose name matches. *)
  Definition key_for (k : key) (t : tm) : Prop :=
    match k with
    | KText s => (exists c, tm_shape t = ShContainer c /\ s = c ++ s_ "<>") \/ (exists c, tm_shape t = ShArray c /\ s = c ++ s_ "[]")
                 \/ (s = tm_name t /\ ~ generic s)
    | KMatch i => matches i (tm_name t) = true
    end.
  (** [e] is registered for the key [k] after the operations [h] (the oldest first): it was given with set or add, and set
      was not called for that key since. *)
  Definition registered (h : list (op O)) (k : key) (e : entry O) : Prop :=
    exists h1 h2 o, h = h1 ++ o :: h2 /\ (o = OSet k e \/ o = OAdd k e) /\ forall e', ~ In (OSet k e') h2.

  (** The same, in order. *)
  Fixpoint live_from (k : key) (acc : list (entry O)) (h : list (op O)) : list (entry O) :=
    match h with
    | [] => acc
    | OSet k' e :: r => live_from k (if key_dec k' k then [e] else acc) r
    | OAdd k' e :: r => live_from k (if key_dec k' k then acc ++ [e] else acc) r
    end.
  Definition live (k : key) (h : list (op O)) := live_from k [] h.
  Definition op_key (o : op O) : key := match o with OSet k _ | OAdd k _ => k end.
  (** The regexps, in the order of their first registration. *)
  Fixpoint first_seen (seen : list N) (l : list key) : list N :=
    match l with
    | [] => []
    | KMatch i :: r => if in_dec N.eq_dec i seen then first_seen seen r else i :: first_seen (i :: seen) r
    | KText _ :: r => first_seen seen r
    end.
  Definition matchers (h : list (op O)) : list N := first_seen [] (map op_key h).
  Definition genericb (s : str) : bool := if list_eq_dec ascii_dec (skipn (length s - 2) s) (s_ "<>") then true else if list_eq_dec ascii_dec (skipn (length s - 2) s) (s_ "[]") then true else false.
  (** The keys that are for a type, in the order in which they are looked at. *)
  Definition keys_of (h : list (op O)) (t : tm) : list key :=
    match tm_shape t with ShContainer c => [KText (c ++ s_ "<>")] | ShArray c => [KText (c ++ s_ "[]")] | _ => [] end
    ++ (if genericb (tm_name t) then [] else [KText (tm_name t)])
    ++ map KMatch (filter (fun i => matches i (tm_name t)) (matchers h)).
  Fixpoint chosen (t : tm) (l : list (entry O)) : list O :=
    match l with
    | [] => []
    | e :: r => match e_obj e with Some o => if e_if e t then o :: chosen t r else chosen t r | None => chosen t r end
    end.
  Definition customizations (h : list (op O)) (t : tm) : list O := chosen t (flat_map (fun k => live k h) (keys_of h t)).
End Spec.

(** ** The calls of the public API *)
(** Options are a Hash; the only known key is :if. *)
Record options := Options { o_if : option (tm -> bool); o_unknown : list str }.
Definition no_options : options := Options None [].
Definition ruby_class := N.
Definition c_Hash : ruby_class := 0%N.
Definition c_Array : ruby_class := 1%N.
Definition c_DeepCopyArray : ruby_class := 2%N.
Definition c_Numeric : ruby_class := 3%N.
Definition c_Float : ruby_class := 4%N.
(** An argument that should be a class. *)
Inductive arg := ANil | AClass (c : ruby_class) | AHash (o : options) | AOther.
Inductive call :=
| CSpecializeModel (k : key) (o : options) (m : N)
| CSpecialize (k : key) (o : options) (m : N)
| CToRuby (k : key) (a : arg) (o : options) (block : option N)
| CFromRuby (a : arg) (k : key) (o : options) (block : option N).
Inductive event := ECall (c : call) | ECreate (t : tm).

Definition cond (o : options) : option (tm -> bool) :=
  match o_unknown o with
  | [] => Some (match o_if o with Some p => p | None => fun _ => true end)
  | _ => None
  end.
(** What each call asks for. *)
Definition asks_to (c : call) : option (op (option ruby_class * N)) :=
  match c with
  | CToRuby k ANil o (Some b) => option_map (fun p => OAdd k (Entry p (Some (None, b)))) (cond o)
  | CToRuby k (AClass c) o (Some b) => option_map (fun p => OAdd k (Entry p (Some (Some c, b)))) (cond o)
  | CToRuby k (AHash o) (Options None []) (Some b) => option_map (fun p => OAdd k (Entry p (Some (None, b)))) (cond o)
  | _ => None
  end.
Definition asks_from (c : call) : option (op (ruby_class * N)) :=
  match c with CFromRuby (AClass c) k o (Some b) => option_map (fun p => OAdd k (Entry p (Some (c, b)))) (cond o) | _ => None end.
Definition asks_model (c : call) : option (op N) :=
  match c with CSpecializeModel k o m => option_map (fun p => OAdd k (Entry p (Some m))) (cond o) | _ => None end.
Definition asks_value (c : call) : option (op N) :=
  match c with CSpecialize k o m => option_map (fun p => OAdd k (Entry p (Some m))) (cond o) | _ => None end.
Fixpoint asked {X} (f : call -> option X) (h : list event) : list X :=
  match h with
  | [] => []
  | ECall c :: r => match f c with Some x => x :: asked f r | None => asked f r end
  | ECreate _ :: r => asked f r
  end.
