(** * Properties_Describe: C86, the description of types by simple Ruby objects. *)
From Verif Require Import Base Types Graph GraphProofs DescribeSpec Describe DescribeProofs.
Local Open Scope N_scope.

(** C86. Type.to_h describes the type with hashes, arrays, numbers and strings: its name, class and size, the category of
    numbers, the values of enums, the length and element of arrays, the element of containers and the fields of structures,
    whose types are described in full with the option recursive. Two types have the same full description iff they have the
    same definition. Every type can be described. *)

(** The description has what is documented, and nothing else. Missing: structures with two fields of the same name, when
    offsets are asked for (C86_duplicate_fields_refuted). *)
Theorem C86_describes_partial fuel full lay H t h :
  (lay = true -> forall x, inside H t x -> distinct H x) ->
  to_h fuel full lay H t = Ok h -> describes full lay H t (RHash h).
Proof. apply to_h_describes. Qed.

(** With the options recursive and layout_info, the descriptions are equal iff the definitions are the same (up to what
    pointers point to, C86_pointees_refuted). *)
Theorem C86_same_definition_partial fuel fuel' H H' t t' h h' :
  (forall x, inside H t x -> distinct H x) -> (forall x, inside H' t' x -> distinct H' x) ->
  to_h fuel true true H t = Ok h -> to_h fuel' true true H' t' = Ok h' ->
  (same (RHash h) (RHash h') <-> alike H H' t t').
Proof.
  intros D D' E E'. split; intros A.
  - eapply describes_alike; [exact (finite_to_h E)|eapply to_h_describes; [intros _; exact D|exact E]|eapply to_h_describes; [intros _; exact D'|exact E']|exact A].
  - assert (X : h = h').
    { assert (E1 : to_h (max fuel fuel') true true H t = Ok h) by (apply to_h_mono with (1 := E); lia).
      assert (E2 : to_h (max fuel fuel') true true H' t' = Ok h') by (apply to_h_mono with (1 := E'); lia).
      rewrite (alike_to_h true true (max fuel fuel') A) in E1. congruence. }
    subst h'. apply same_refl.
Qed.
(** The same definition gives the same description, with all options. *)
Theorem C86_same_description full lay H H' t t' fuel : alike H H' t t' -> to_h fuel full lay H t = to_h fuel full lay H' t'.
Proof. apply alike_to_h. Qed.

(** The full description ends exactly when no type within [t] contains itself. *)
Theorem C86_recursive_ends_partial lay H t : (exists h, conv (fun f => to_h f true lay H t) (Ok h)) <-> finite H t.
Proof.
  split.
  - intros (h & n & C). eapply finite_to_h, (C n), Nat.le_refl.
  - intros F. destruct (to_h_finite lay F) as (f & h & E). exists h, f. intros m L. apply to_h_mono with (1 := E). exact L.
Qed.
(** Without the option recursive it always ends. *)
Theorem C86_shallow_ends lay H t : exists h, conv (fun f => to_h f false lay H t) (Ok h).
Proof.
  destruct (@to_h_step false lay H 0 t) as (h & E); [discriminate|]. exists h, 1%nat. intros m L. apply to_h_mono with (1 := E). exact L.
Qed.
(** It never raises an error. *)
Theorem C86_no_error fuel full lay H t : (exists h, to_h fuel full lay H t = Ok h) \/ to_h fuel full lay H t = Fuel.
Proof. apply to_h_fuel. Qed.

(** ** Where the code falls short *)
(** struct Tree { std::vector<Tree> children; }: Tree.to_h(recursive: true) recurses until the stack is exhausted. *)
Definition tree_heap : heap := fun t =>
  match t with
  | O => Obj (s_ "/Tree") 24 (OComp [Fld (s_ "children") 0 1])
  | _ => Obj (s_ "/std/vector</Tree>") 24 (OCont KVec 0)
  end%nat.
Theorem C86_recursive_type_refuted lay : forall fuel, to_h fuel true lay tree_heap 0%nat = Fuel.
Proof.
  assert (A : forall fuel, to_h fuel true lay tree_heap 0%nat = Fuel /\ to_h fuel true lay tree_heap 1%nat = Fuel).
  { induction fuel as [|f [I0 I1]]; [split; reflexivity|]. split; cbn [to_h tree_heap o_kind fields_h f_type]; [rewrite I1|rewrite I0]; reflexivity. }
  intros fuel. apply A.
Qed.
(** Two pointers to structures of the same name that differ: the types are not the same, their descriptions are. *)
Definition pointer_heap : heap := fun t =>
  match t with
  | 0 => Obj (s_ "/T*") 8 (OPtr 1)
  | 1 => Obj (s_ "/T") 4 (OComp [Fld (s_ "a") 0 4])
  | 2 => Obj (s_ "/T*") 8 (OPtr 3)
  | 3 => Obj (s_ "/T") 8 (OComp [Fld (s_ "b") 0 4; Fld (s_ "c") 4 4])
  | _ => Obj (s_ "/int32_t") 4 (ONum SInt)
  end%nat.
Theorem C86_pointees_refuted :
  isSame 10 pointer_heap 0%nat 2%nat = Ok false /\
  (exists h, to_h 10 true true pointer_heap 0%nat = Ok h /\ to_h 10 true true pointer_heap 2%nat = Ok h).
Proof. split; [vm_compute; reflexivity|]. eexists. split; vm_compute; reflexivity. Qed.
(** A structure with two fields of the same name: both are given the offset of the first one. *)
Definition twin_heap : heap := fun t =>
  match t with
  | 0 => Obj (s_ "/S") 8 (OComp [Fld (s_ "a") 0 1; Fld (s_ "a") 4 1])
  | _ => Obj (s_ "/int32_t") 4 (ONum SInt)
  end%nat.
Theorem C86_duplicate_fields_refuted : exists h, to_h 10 true true twin_heap 0%nat = Ok h /\ ~ describes true true twin_heap 0%nat (RHash h).
Proof.
  eexists. split; [vm_compute; reflexivity|]. intros D.
  destruct (describes_compound D eq_refl) as (l & E & F). vm_compute in E. injection E as <-. inversion F as [|? ? ? ? _ F1]; subst. inversion F1 as [|? ? ? ? G _]; subst.
  inversion G as [? g d A B C O _]; subst. specialize (O eq_refl). vm_compute in O. discriminate O.
Qed.

(** ** The hypotheses are met *)
(** struct Line { Point points[2]; std::vector<Color> colors; }. *)
Definition line_heap : heap := fun t =>
  match t with
  | 0 => Obj (s_ "/Line") 56 (OComp [Fld (s_ "points") 0 1; Fld (s_ "colors") 32 4])
  | 1 => Obj (s_ "/Point[2]") 32 (OArr 2 2)
  | 2 => Obj (s_ "/Point") 16 (OComp [Fld (s_ "x") 0 3; Fld (s_ "y") 8 3])
  | 3 => Obj (s_ "/double") 8 (ONum Float)
  | 4 => Obj (s_ "/std/vector</Color>") 24 (OCont KVec 5)
  | _ => Obj (s_ "/Color") 4 (OEnum [(s_ "BLUE", 1%Z); (s_ "RED", 0%Z)])
  end%nat.
Example C86_line : (exists h, to_h 10 true true line_heap 0%nat = Ok h) /\ (forall x, distinct line_heap x) /\ finite line_heap 0%nat.
Proof.
  assert (D : exists h, to_h 10 true true line_heap 0%nat = Ok h) by (eexists; vm_compute; reflexivity).
  split; [exact D|]. split.
  - intros x fs K. destruct x as [|[|[|[|[|x]]]]]; cbn [line_heap o_kind] in K; try discriminate K; injection K as <-; repeat constructor; vm_compute; intuition discriminate.
  - destruct D as (h & E). eapply finite_to_h, E.
Qed.
Example C86_line_shallow : to_h 1 false true line_heap 2%nat = Ok
  [(s_ "name", RStr (s_ "/Point")); (s_ "class", RStr (s_ "Typelib::CompoundType")); (s_ "size", RInt 16);
   (s_ "fields", RArr
     [RHash [(s_ "name", RStr (s_ "x")); (s_ "type", RHash [(s_ "name", RStr (s_ "/double")); (s_ "class", RStr (s_ "Typelib::NumericType")); (s_ "size", RInt 8)]); (s_ "offset", RInt 0)];
      RHash [(s_ "name", RStr (s_ "y")); (s_ "type", RHash [(s_ "name", RStr (s_ "/double")); (s_ "class", RStr (s_ "Typelib::NumericType")); (s_ "size", RInt 8)]); (s_ "offset", RInt 8)]])].
Proof. vm_compute. reflexivity. Qed.
