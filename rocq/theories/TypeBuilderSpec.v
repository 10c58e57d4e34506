(** * TypeBuilderSpec: names of derived types, and the types they mean. *)
From Coq Require Import DecimalString.
From Verif Require Import Base Types NamesSpec Names Graph Registry RegistrySpec World.
Local Open Scope nat_scope.

(** What is built on a type: a pointer to it, or an array of it. *)
Inductive modif := MPtr | MArr (d : N).
(** [*] or [\[d\]], with the usual decimal text. *)
Definition mod_text (m : modif) : str :=
  match m with MPtr => s_ "*" | MArr d => s_ "[" ++ s_ (NilZero.string_of_uint (N.to_uint d)) ++ s_ "]" end.
(** The name of the type built on the type [base] by a sequence of modifiers. *)
Definition name_with (base : str) (ms : list modif) : str := base ++ concat (map mod_text ms).
Definition dims_below (n : N) (ms : list modif) : Prop := Forall (fun m => match m with MPtr => True | MArr d => (d < n)%N end) ms.
(** A name that does not end with a modifier or a space, and has at least two characters. *)
Definition base_name (b : str) : Prop := exists c r d, b = c :: r ++ [d] /\ d <> "]"%char /\ d <> "*"%char /\ d <> " "%char.
(** [x] is the type built on [t] by a sequence of modifiers. *)
Fixpoint built (H : heap) (t : tid) (ms : list modif) (x : tid) : Prop :=
  match ms with
  | [] => x = t
  | m :: ms' => exists y, match m with MPtr => o_kind (H y) = OPtr t | MArr d => o_kind (H y) = OArr d t end /\ built H y ms' x
  end.
(** The registry's names with modifiers mean what they say: a name n* is a pointer to the type named n, etc. (Registry
    accepts any type under such a name: this is a property of the way it was filled.) *)
Definition modifiers_meant (H : heap) (r : reg) : Prop :=
  forall n m x, absolute n -> get r (n ++ mod_text m) = Some x ->
    exists t, get r n = Some t /\ match m with MPtr => o_kind (H x) = OPtr t | MArr d => o_kind (H x) = OArr d t end.
(** [s'] is [s] with additional objects. *)
Definition extends (s s' : store) : Prop := s_next s <= s_next s' /\ forall t, t < s_next s -> s_heap s' t = s_heap s t.

(** A name that does not end with a modifier. *)
Definition unmodified (n : str) : Prop := forall a m, n <> a ++ mod_text m.
(** Registries filled in the usual way: a pointer or an array is added when what it is built on is there, and no other
    type is added, or aliased, under a name with modifiers. *)
Definition orderly_op (H : heap) (r : reg) (o : op) : Prop :=
  match o with
  | OpAdd t _ _ =>
      match o_kind (H t) with
      | OPtr x | OArr _ x => registered r x
      | _ => unmodified (o_name (H t))
      end
  | OpAlias _ n _ _ => unmodified n
  | OpRemove _ | OpClear | OpNamespace _ | OpImport _ _ => True
  | OpRemoveAlias _ | OpClearAliases => False
  end.
Inductive orderly : store -> reg -> Prop :=
| orderly_init : orderly (Store (fun _ => null_obj) 0) reg0
| orderly_new s r o : orderly s r -> constructed s o -> orderly (alloc s o) r
| orderly_op_ s r o f r' out : orderly s r -> op_exists s o -> op_ok (s_heap s) o -> orderly_op (s_heap s) r o ->
    exec f (s_heap s) r o = (r', out) -> out <> Fuel -> orderly s r'.
