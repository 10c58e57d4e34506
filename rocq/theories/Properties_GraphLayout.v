(** * Properties_GraphLayout: C56, the layout of a type object.

    Notions used in the statements (GraphLayoutSpec.v): [holds] - a type has values of the other one inside of its own;
    [sound_type] - no type holds itself; [tree_of] - the tree one sees from an object; [object_ok] - what a compiler
    ensures of one object. Recursion through pointers is allowed everywhere. *)
From Verif Require Import Base Types WellFormed Layout LayoutSpec Properties_Layout GraphLayout GraphLayoutSpec GraphLayoutProofs.
From Verif Require Import Graph.
Local Open Scope N_scope.

(** The computation ends for every type that does not hold itself, recursive through pointers or not. *)
Theorem C56_ends H dom t ap ao merge rts : (forall b, holds H t b -> In b dom) -> sound_type H t ->
  exists r, r <> Fuel /\ conv (fun f => glayout_of f ap ao merge rts H t) r.
Proof.
  intros hd hs. destruct (sound_tree hd hs) as [T hT]. destruct (glayout_conv ap ao merge rts hT) as (r & h1 & h2).
  exists r; split; [| assumption]. intros ->; exact h2.
Qed.
(** It gives the layout of the tree of the type: the same bytecode, each container standing for its own tree; and throws
    what the layout of the tree throws. All theorems about layouts of trees are thus about type objects. *)
Theorem C56_of_tree H t T ap ao merge rts : tree_of H t T ->
  exists r, conv (fun f => glayout_of f ap ao merge rts H t) r /\ same_result H r (layout_of ap ao merge rts T).
Proof. exact (@glayout_conv H t T ap ao merge rts). Qed.
(** Every type that does not hold itself has one tree, which is well formed if the objects are. *)
Theorem C56_tree_exists H dom t : (forall b, holds H t b -> In b dom) -> sound_type H t ->
  exists T, tree_of H t T /\ (forall T', tree_of H t T' -> T' = T) /\
    ((forall b, b = t \/ holds H t b -> object_ok H b) -> wf T).
Proof.
  intros hd hs. destruct (sound_tree hd hs) as [T hT]. exists T; split; [assumption | split].
  - intros T' h. symmetry. exact (proj1 (tree_fun_all H) _ _ hT _ h).
  - exact (proj1 (wf_all H) _ _ hT).
Qed.
(** Types whose objects are as a compiler makes them have a layout unless they hold a pointer or an opaque type, in which
    case NoLayout is thrown. *)
Theorem C56_has_layout H dom t merge : (forall b, holds H t b -> In b dom) -> sound_type H t ->
  (forall b, b = t \/ holds H t b -> object_ok H b /\ o_kind (H b) <> ONull) ->
  ((forall b, b = t \/ holds H t b -> o_kind (H b) <> OOpaque /\ forall x, o_kind (H b) <> OPtr x) ->
     exists l, conv (fun f => glayout_of f false false merge true H t) (Ok l)) /\
  ((exists b, (b = t \/ holds H t b) /\ (o_kind (H b) = OOpaque \/ exists x, o_kind (H b) = OPtr x)) ->
     conv (fun f => glayout_of f false false merge true H t) (Throw ENoLayout)).
Proof.
  intros hd hs ho. destruct (C56_tree_exists hd hs) as (T & hT & _ & hw).
  assert (w : wf T) by (apply hw; intros b hb; apply ho; assumption). clear hw.
  assert (cn : contains is_null T = false).
  { destruct (contains is_null T) eqn:e; [| reflexivity]. exfalso.
    apply (proj1 (@contains_all H is_null ltac:(auto) ltac:(reflexivity) ltac:(reflexivity)) _ _ hT) in e.
    destruct e as (b & hb & hk). destruct (ho b hb) as [_ hn]. destruct (o_kind (H b)); try (destruct hk; discriminate); congruence. }
  assert (co : contains is_opaque T || contains is_ptr T = true <->
               exists b, (b = t \/ holds H t b) /\ (o_kind (H b) = OOpaque \/ exists x, o_kind (H b) = OPtr x)).
  { rewrite orb_true_iff.
    rewrite (proj1 (@contains_all H is_opaque ltac:(auto) ltac:(reflexivity) ltac:(reflexivity)) _ _ hT).
    rewrite (proj1 (@contains_all H is_ptr ltac:(auto) ltac:(reflexivity) ltac:(reflexivity)) _ _ hT). split.
    - intros [(b & hb & hk) | (b & hb & hk)]; exists b; (split; [assumption |]);
        destruct (o_kind (H b)); simpl in hk; try contradiction; try discriminate; try (destruct hk; discriminate); eauto.
    - intros (b & hb & [hk | [x hk]]); [left | right]; exists b; (split; [assumption |]); rewrite hk; simpl; exists 0; reflexivity. }
  pose proof (C13_default_flags merge w cn) as hl.
  destruct (glayout_conv false false merge true hT) as (r & h1 & h2).
  split.
  - intros hno. destruct (contains is_opaque T || contains is_ptr T) eqn:e.
    + exfalso. destruct (proj1 co eq_refl) as (b & hb & [hk | [x hk]]); destruct (hno b hb) as [n1 n2]; [congruence | apply (n2 x hk)].
    + destruct hl as [l hl]. rewrite hl in h2. destruct r as [l' | | |]; try contradiction. eauto.
  - intros hex. apply co in hex. rewrite hex in hl. rewrite hl in h2. destruct r; try contradiction. simpl in h2; subst; assumption.
Qed.
(** A type that holds itself never gets a layout ... *)
Theorem C56_needs_sound H t f ap ao merge rts l : glayout_of f ap ao merge rts H t = Ok l -> sound_type H t.
Proof.
  unfold glayout_of. destruct (gvisit f ap ao H t empty_layout) eqn:e; try discriminate. intros _.
  destruct (visited_tree e) as [T hT]. exact (tree_sound hT).
Qed.
(** ... and if nothing else is wrong with it, the recursion goes on for ever (the program's stack overflows): such types
    exist in C++, they hold containers of themselves. *)
Theorem C56_holds_itself_refuted H t : ~ sound_type H t -> (forall b, b = t \/ holds H t b -> visitable (H b)) ->
  forall f ap ao merge rts, glayout_of f ap ao merge rts H t = Fuel.
Proof.
  intros hn hv f ap ao merge rts. unfold glayout_of.
  destruct (@visit_no_throw H f ap ao t empty_layout hv) as [e | [l e]]; rewrite e; [reflexivity |].
  exfalso. apply hn. destruct (visited_tree e) as [T hT]. exact (tree_sound hT).
Qed.

(** ** Cases *)
(** struct List { List* next; std::vector<double> values; Item items[2]; } with struct Item { int32_t id; char c; } *)
Definition hlist : heap := fun t =>
  match t with
  | 0 => Obj (s_ "/List") 48 (OComp [Fld (s_ "next") 0 1; Fld (s_ "values") 8 2; Fld (s_ "items") 32 3])
  | 1 => Obj (s_ "/List*") 8 (OPtr 0)
  | 2 => Obj (s_ "/std/vector</double>") 24 (Graph.OCont KVec 4)
  | 3 => Obj (s_ "/Item[2]") 16 (Graph.OArr 2 5)
  | 4 => Obj (s_ "/double") 8 (ONum Float)
  | 5 => Obj (s_ "/Item") 8 (OComp [Fld (s_ "id") 0 6; Fld (s_ "c") 4 7])
  | 6 => Obj (s_ "/int32_t") 4 (ONum SInt)
  | 7 => Obj (s_ "/char") 1 (ONum SInt)
  (* struct Tree { int32_t v; std::vector<Tree> children; } *)
  | 8 => Obj (s_ "/Tree") 32 (OComp [Fld (s_ "v") 0 6; Fld (s_ "children") 8 9])
  | 9 => Obj (s_ "/std/vector</Tree>") 24 (Graph.OCont KVec 8)
  | _ => Obj [] 0 ONull
  end%nat.
(** a measure that decreases from a type to what it holds *)
Definition hrank (t : tid) : nat := match t with 0 => 3 | 3 => 2 | 2 => 1 | 5 => 1 | _ => 0 end%nat.
Lemma hlist_inner a b : (a < 8)%nat -> In b (inner hlist a) -> (b < 8 /\ hrank b < hrank a)%nat.
Proof.
  intros ha hb. do 8 (destruct a as [| a]; [vm_compute in hb; repeat destruct hb as [<- | hb]; try contradiction; vm_compute; lia |]). lia.
Qed.
Lemma hlist_holds a b : holds hlist a b -> (a < 8)%nat -> (b < 8 /\ hrank b < hrank a)%nat.
Proof.
  induction 1 as [a b hb | a b c hb _ IH]; intros ha; pose proof (hlist_inner ha hb) as [h1 h2]; [auto |].
  destruct (IH h1); split; [assumption | lia].
Qed.
Definition list_layout : layout := mkLayout
  [W FLAG_MEMCPY; W 8; W FLAG_CONTAINER; addr 2%nat; W FLAG_MEMCPY; W 8; W FLAG_END; W FLAG_MEMCPY; W 16]
  [W FLAG_INIT_SKIP; W 8; W FLAG_INIT_CONTAINER; addr 2%nat].
Definition dom8 : list tid := seq 0 8.
Example C56_case : (forall b, holds hlist 0%nat b -> In b dom8) /\ sound_type hlist 0%nat /\
  (forall b, b = 0%nat \/ holds hlist 0%nat b -> object_ok hlist b /\ o_kind (hlist b) <> ONull) /\
  conv (fun f => glayout_of f false false true true hlist 0%nat) (Throw ENoLayout) /\
  conv (fun f => glayout_of f true false true true hlist 0%nat) (Ok list_layout).
Proof.
  assert (h8 : forall b, b = 0%nat \/ holds hlist 0%nat b -> (b < 8)%nat).
  { intros b [-> | h]; [lia | apply (hlist_holds h); lia]. }
  split; [| split; [| split; [| split]]].
  - intros b h. apply in_seq. pose proof (h8 b (or_intror h)). lia.
  - split; [intros h; pose proof (hlist_holds h); lia |].
    intros b hb h. pose proof (h8 b (or_intror hb)). pose proof (hlist_holds h); lia.
  - intros b hb. pose proof (h8 b hb) as hlt. clear hb.
    do 8 (destruct b as [| b]; [vm_compute; repeat split; try discriminate; auto; exfalso; auto |]). lia.
  - exists 10%nat. intros m hm. replace m with (10 + (m - 10))%nat by lia. generalize (m - 10)%nat. intros k. vm_compute. reflexivity.
  - exists 10%nat. intros m hm. replace m with (10 + (m - 10))%nat by lia. generalize (m - 10)%nat. intros k. vm_compute. reflexivity.
Qed.

(** struct Tree holds itself. *)
Example C56_tree_case : ~ sound_type hlist 8%nat /\ (forall b, b = 8%nat \/ holds hlist 8%nat b -> visitable (hlist b)) /\
  object_ok hlist 8%nat /\ object_ok hlist 9%nat.
Proof.
  assert (hv : forall b, holds hlist 8%nat b \/ holds hlist 9%nat b -> b = 6%nat \/ b = 8%nat \/ b = 9%nat).
  { assert (g : forall a b, holds hlist a b -> a = 8%nat \/ a = 9%nat \/ a = 6%nat -> b = 6%nat \/ b = 8%nat \/ b = 9%nat).
    { induction 1 as [a b hb | a b c hb _ IH]; intros ha.
      - destruct ha as [-> | [-> | ->]]; vm_compute in hb; repeat destruct hb as [<- | hb]; auto; contradiction.
      - apply IH. destruct ha as [-> | [-> | ->]]; vm_compute in hb; repeat destruct hb as [<- | hb]; auto; contradiction. }
    intros b [h | h]; eapply g; eauto. }
  split; [| split; [| split]].
  - intros [h _]. apply h. apply (@holds_more _ _ 9%nat); [vm_compute; auto |]. apply holds_one; vm_compute; auto.
  - intros b [-> | hb]; [exact I |]. destruct (hv b (or_introl hb)) as [-> | [-> | ->]]; exact I.
  - vm_compute; repeat split; intros; discriminate.
  - vm_compute; repeat split; intros; discriminate.
Qed.
Print Assumptions C56_has_layout.
