(** * Properties_Graph: comparison of types (C25, C44). *)
From Verif Require Import Base Types Names Graph GraphSpec GraphProofs.
Local Open Scope N_scope.

(** ** C25 *)
(** isSame and canCastTo return, for any two type graphs, cyclic ones included. *)
Theorem C25_terminates H dom a b : finite_graph H dom a ->
  (exists v, conv (fun f => isSame f H a b) (Ok v)) /\ (exists v, conv (fun f => canCastTo f H a b) (Ok v)).
Proof. intros Hd. split; apply (compare_conv _ _ Hd). Qed.
Theorem C25_reflexive H a : conv (fun f => isSame f H a a) (Ok true).
Proof. exists 0%nat. intros m _. unfold isSame, compare_types. rewrite Nat.eqb_refl. reflexivity. Qed.
(** What isSame accepts has the same structure. *)
Theorem C25_accepts_only_same H a b : conv (fun f => isSame f H a b) (Ok true) -> struct_same H a b.
Proof. intros [n E]. apply (@isSame_sound n). apply E. lia. Qed.
Lemma isSame_decides H dom a b (P : Prop) : finite_graph H dom a -> (conv (fun f => isSame f H a b) (Ok true) <-> P) ->
  conv (fun f => isSame f H a b) (Ok false) <-> ~ P.
Proof.
  intros Hd Hp. split.
  - intros Hf Hp'. apply Hp in Hp'. assert (X := conv_fun Hf Hp'). discriminate.
  - intros Hn. destruct (@compare_conv H dom a b true Hd) as [[] Hc]; [|exact Hc]. exfalso. apply Hn. apply Hp. exact Hc.
Qed.
(** It is exactly structural equality when no two types of the right graph are structurally equal... *)
Theorem C25_exact H dom a b : finite_graph H dom a -> canonical H b ->
  (conv (fun f => isSame f H a b) (Ok true) <-> struct_same H a b) /\
  (conv (fun f => isSame f H a b) (Ok false) <-> ~ struct_same H a b).
Proof.
  intros Hd Hc. assert (K : conv (fun f => isSame f H a b) (Ok true) <-> struct_same H a b)
    by (split; [apply C25_accepts_only_same|apply (@isSame_complete H dom); assumption]).
  split; [exact K|]. eapply isSame_decides; eassumption.
Qed.
(** ... and in general, it demands a correspondence that gives each type on the left a single counterpart. *)
Theorem C25_exact_general H dom a b : finite_graph H dom a ->
  conv (fun f => isSame f H a b) (Ok true) <->
  a = b \/ exists F : tid -> tid -> Prop, F a b /\ (forall l r r', F l r -> F l r' -> r = r') /\ (forall l r, F l r -> node H (fun x y => x = y \/ F x y) l r).
Proof. apply isSame_functional. Qed.
(** Missing from the English property: the hypotheses [canonical] (see the refutation below). *)
Theorem C25_symmetric_partial H dom dom' a b v : finite_graph H dom a -> finite_graph H dom' b -> canonical H a -> canonical H b ->
  conv (fun f => isSame f H a b) (Ok v) <-> conv (fun f => isSame f H b a) (Ok v).
Proof.
  intros Ha Hb Ca Cb. destruct (C25_exact Ha Cb) as [T1 F1]. destruct (C25_exact Hb Ca) as [T2 F2].
  destruct v; [rewrite T1, T2|rewrite F1, F2]; split; intros X; try (intros Y; apply X); apply same_sym; assumption.
Qed.
Theorem C25_transitive_partial H dom a b c : finite_graph H dom a -> canonical H c ->
  conv (fun f => isSame f H a b) (Ok true) -> conv (fun f => isSame f H b c) (Ok true) -> conv (fun f => isSame f H a c) (Ok true).
Proof.
  intros Ha Cc H1 H2. apply (C25_exact Ha Cc). eapply same_trans; apply C25_accepts_only_same; eassumption.
Qed.
Theorem C25_same_can_cast H a b : enums_ok H -> conv (fun f => isSame f H a b) (Ok true) -> conv (fun f => canCastTo f H a b) (Ok true).
Proof. intros He [n E]. exists n. intros m Hm. apply isSame_canCastTo; auto. Qed.

(** Not symmetric: struct { uint8_t a; uint8_t b } and struct { bool a; uint8_t b } (bool is an unsigned integer of one
    byte), in two registries. *)
Definition hsym : heap := fun t =>
  match t with
  | 0 => Obj (s_ "/S") 2 (OComp [Fld (s_ "a") 0 1; Fld (s_ "b") 1 1])
  | 1 => Obj (s_ "/uint8_t") 1 (ONum UInt)
  | 2 => Obj (s_ "/S") 2 (OComp [Fld (s_ "a") 0 3; Fld (s_ "b") 1 4])
  | 3 => Obj (s_ "/bool") 1 (ONum UInt)
  | 4 => Obj (s_ "/uint8_t") 1 (ONum UInt)
  | _ => Obj [] 0 ONull
  end%nat.
Theorem C25_symmetry_refuted : exists H a b, struct_same H a b /\
  conv (fun f => isSame f H a b) (Ok false) /\ conv (fun f => isSame f H b a) (Ok true).
Proof.
  exists hsym, 0%nat, 2%nat.
  assert (K : conv (fun f => isSame f hsym 2%nat 0%nat) (Ok true)).
  { exists 10%nat. intros m Hm. replace m with (10 + (m - 10))%nat by lia. generalize (m - 10)%nat. intros k. vm_compute. reflexivity. }
  split; [apply same_sym, C25_accepts_only_same; exact K|]. split; [|exact K].
  exists 10%nat. intros m Hm. replace m with (10 + (m - 10))%nat by lia. generalize (m - 10)%nat. intros k. vm_compute. reflexivity.
Qed.

(** A cyclic example: two copies of struct Node { Node* next; int32_t v; }. *)
Definition hrec : heap := fun t =>
  match t with
  | 0 => Obj (s_ "/Node") 16 (OComp [Fld (s_ "next") 0 1; Fld (s_ "v") 8 2])
  | 1 => Obj (s_ "/Node*") 8 (OPtr 0)
  | 2 => Obj (s_ "/int32_t") 4 (ONum SInt)
  | 3 => Obj (s_ "/Node") 16 (OComp [Fld (s_ "next") 0 4; Fld (s_ "v") 8 5])
  | 4 => Obj (s_ "/Node*") 8 (OPtr 3)
  | 5 => Obj (s_ "/int32_t") 4 (ONum SInt)
  | 6 => Obj (s_ "/Node") 16 (OComp [Fld (s_ "next") 0 7; Fld (s_ "v") 8 8])
  | 7 => Obj (s_ "/Node*") 8 (OPtr 6)
  | 8 => Obj (s_ "/uint32_t") 4 (ONum UInt)
  | _ => Obj [] 0 ONull
  end%nat.
Lemma hrec_reaches a k : (k = 0 \/ k = 3 \/ k = 6)%nat -> reaches hrec k a -> (a = k \/ a = S k \/ a = S (S k))%nat.
Proof.
  intros Hk. induction 1 as [|b c _ IH Hi]; [auto|].
  destruct Hk as [-> |[-> | ->]]; destruct IH as [-> |[-> | ->]]; simpl in Hi; repeat destruct Hi as [<- |Hi]; auto; destruct Hi.
Qed.
Example C25_example :
  finite_graph hrec [0; 1; 2]%nat 0%nat /\ finite_graph hrec [3; 4; 5]%nat 3%nat /\ canonical hrec 0%nat /\ canonical hrec 3%nat /\ canonical hrec 6%nat /\ enums_ok hrec /\
  conv (fun f => isSame f hrec 0%nat 3%nat) (Ok true) /\ conv (fun f => isSame f hrec 0%nat 6%nat) (Ok false).
Proof.
  assert (C : forall k, (k = 0 \/ k = 3 \/ k = 6)%nat -> canonical hrec k).
  { intros k Hk x y Hx Hy Hs. apply same_node in Hs. destruct Hs as [Hs _].
    apply hrec_reaches in Hx, Hy; try assumption. destruct Hk as [-> |[-> | ->]]; destruct Hx as [-> |[-> | ->]], Hy as [-> |[-> | ->]]; try reflexivity; vm_compute in Hs; discriminate. }
  split; [|split; [|split; [|split; [|split; [|split; [|split]]]]]].
  - intros b Hb. apply hrec_reaches in Hb; [|auto]. simpl. intuition.
  - intros b Hb. apply hrec_reaches in Hb; [|auto]. simpl. intuition.
  - auto.
  - auto.
  - auto.
  - intros t v E. do 9 (destruct t as [|t]; [discriminate|]). discriminate.
  - exists 10%nat. intros m Hm. replace m with (10 + (m - 10))%nat by lia. generalize (m - 10)%nat. intros k. vm_compute. reflexivity.
  - exists 10%nat. intros m Hm. replace m with (10 + (m - 10))%nat by lia. generalize (m - 10)%nat. intros k. vm_compute. reflexivity.
Qed.

(** ** C44: canCastTo *)
(** What canCastTo accepts can be put in a correspondence that only pairs compatible components. *)
Theorem C44_cast_components H a b : conv (fun f => canCastTo f H a b) (Ok true) -> castable H a b.
Proof. intros [n E]. apply (@canCastTo_sound n). apply E. lia. Qed.
(** But a compound can be castable to another although a field of it is not: struct P { A a; vector<A> v } and
    struct Q { B a; vector<B> v } where A = { int32_t x } has 4 bytes and B = { int32_t x } 8 bytes. *)
Definition hcast : heap := fun t =>
  match t with
  | 0 => Obj (s_ "/P") 32 (OComp [Fld (s_ "a") 0 1; Fld (s_ "v") 8 2])
  | 1 => Obj (s_ "/A") 4 (OComp [Fld (s_ "x") 0 3])
  | 2 => Obj (s_ "/std/vector</A>") 24 (OCont KVec 1)
  | 3 => Obj (s_ "/int32_t") 4 (ONum SInt)
  | 4 => Obj (s_ "/P") 32 (OComp [Fld (s_ "a") 0 5; Fld (s_ "v") 8 6])
  | 5 => Obj (s_ "/A") 8 (OComp [Fld (s_ "x") 0 7])
  | 6 => Obj (s_ "/std/vector</A>") 24 (OCont KVec 5)
  | 7 => Obj (s_ "/int32_t") 4 (ONum SInt)
  | _ => Obj [] 0 ONull
  end%nat.
Theorem C44_field_not_castable_refuted : exists H a b fs gs x y,
  o_kind (H a) = OComp fs /\ o_kind (H b) = OComp gs /\ In (x, y) (combine fs gs) /\
  conv (fun f => canCastTo f H a b) (Ok true) /\ conv (fun f => canCastTo f H (f_type x) (f_type y)) (Ok false).
Proof.
  exists hcast, 0%nat, 4%nat, [Fld (s_ "a") 0 1%nat; Fld (s_ "v") 8 2%nat], [Fld (s_ "a") 0 5%nat; Fld (s_ "v") 8 6%nat], (Fld (s_ "v") 8 2%nat), (Fld (s_ "v") 8 6%nat).
  split; [reflexivity|]. split; [reflexivity|]. split; [right; left; reflexivity|].
  split; exists 10%nat; intros m Hm; replace m with (10 + (m - 10))%nat by lia; generalize (m - 10)%nat; intros k; vm_compute; reflexivity.
Qed.

Print Assumptions C25_terminates.
Print Assumptions C25_exact.
Print Assumptions C25_exact_general.
Print Assumptions C25_symmetric_partial.
Print Assumptions C25_transitive_partial.
Print Assumptions C25_same_can_cast.
Print Assumptions C25_symmetry_refuted.
Print Assumptions C44_cast_components.
Print Assumptions C44_field_not_castable_refuted.
