(** * Properties_CastCopy: copies and comparisons between values of different type objects (C70). *)
From Verif Require Import Base Types WellFormed Layout ValueOps ValueSpec GraphLayout GraphLayoutSpec GraphLayoutProofs CastCopySpec CastCopy CastCopyProofs CastCopyGraph Properties_Graph.
From Verif Require Import Graph GraphSpec GraphProofs.
Local Open Scope N_scope.

Lemma casts_refl : (forall t, casts t t) /\ (forall fs, casts_fields fs fs).
Proof. apply ty_fields_ind; intros; constructor; auto. Qed.
Lemma tree_functional H :
  (forall t T, tree_of H t T -> forall T', tree_of H t T' -> T = T') /\
  (forall fs F, fields_of H fs F -> forall F', fields_of H fs F' -> F = F').
Proof.
  apply tree_fields_ind; intros; try (inversion H1; subst; congruence).
  - inversion H3; subst; try congruence. rewrite H0 in H4. inversion H4; subst. f_equal. auto.
  - inversion H3; subst; try congruence. rewrite H0 in H4. inversion H4; subst. f_equal. auto.
  - inversion H3; subst; try congruence. rewrite H0 in H4. inversion H4; subst. f_equal. auto.
  - inversion H0. reflexivity.
  - inversion H4; subst. f_equal; auto.
Qed.
Lemma conv_casts H a b T T' : a = b \/ separate H a -> conv (fun f => Graph.canCastTo f H a b) (Ok true) -> tree_of H a T -> tree_of H b T' -> casts T T'.
Proof.
  intros [<- |Hs] [n E] HT HT'; [rewrite (proj1 (tree_functional H) _ _ HT _ HT'); apply casts_refl|]. eapply canCast_trees; eauto.
Qed.

(** ** C70 *)
(** A copy into a value whose type is another type object, when the C++ library says the source type can be cast to the
    destination type: afterwards the destination is the value of its own type which the source memory stands for, and
    nothing after the destination changed. Missing from the English property: types in which a structure is used both
    directly and in elements (see the refutation below). *)
Theorem C70_copy_partial H to from T T' d s d2 s2 :
  tree_of H from T -> tree_of H to T' -> wf T -> wf T' -> plain T -> from = to \/ separate H from ->
  conv (fun f => Graph.canCastTo f H from to) (Ok true) -> valid T' d -> valid T s ->
  exists d', conv (fun f => typelib_do_copy f H to from T (d ++ d2) (s ++ s2)) (Ok (d' ++ d2)) /\ same T' d' (seen_as T' s).
Proof.
  intros HT HT' Hw Hw' Hp Hs Hc Vd Vs. assert (C := conv_casts Hs Hc HT HT').
  destruct (@cast_copy T T' d s d2 s2 C Hw Hw' Hp Vd Vs) as (d' & [n E] & S). exists d'. split; [|assumption].
  destruct Hc as [m Hc]. exists (n + m)%nat. intros f Hf. unfold typelib_do_copy. rewrite (Hc f), (E f) by lia. destruct (from =? to)%nat; reflexivity.
Qed.
(** A comparison tells whether the two values are the same, seen as values of the first type. *)
Theorem C70_compare_partial H to from T T' d s d2 s2 :
  tree_of H from T -> tree_of H to T' -> wf T -> wf T' -> supported true T = true -> from = to \/ separate H from ->
  conv (fun f => Graph.canCastTo f H from to) (Ok true) -> valid T' d -> valid T s ->
  exists r, conv (fun f => typelib_compare f H to from T (d ++ d2) (s ++ s2)) (Ok r) /\ (r = true <-> same T' d (seen_as T' s)).
Proof.
  intros HT HT' Hw Hw' Hp Hs Hc Vd Vs. assert (C := conv_casts Hs Hc HT HT').
  destruct (@cast_compare T T' d s d2 s2 C Hw Hw' Hp Vd Vs) as (r & [n E] & S). exists r. split; [|assumption].
  destruct Hc as [m Hc]. exists (n + m)%nat. intros f Hf. unfold typelib_compare. rewrite (Hc f), (E f) by lia. destruct (from =? to)%nat; reflexivity.
Qed.
(** In all other cases both calls raise ArgumentError, whatever the memory, and nothing is written. *)
Theorem C70_rejects H dom to from T d s : finite_graph H dom from -> from <> to ->
  ~ conv (fun f => Graph.canCastTo f H from to) (Ok true) ->
  conv (fun f => typelib_do_copy f H to from T d s) (Throw EArg) /\ conv (fun f => typelib_compare f H to from T d s) (Throw EArg).
Proof.
  intros Hd Hne Hn. destruct (proj2 (@C25_terminates H dom from to Hd)) as [[|] Hc]; [destruct (Hn Hc)|]. destruct Hc as [m Hc].
  split; exists m; intros f Hf; unfold typelib_do_copy, typelib_compare; rewrite (Hc f Hf); apply Nat.eqb_neq in Hne; rewrite Hne; reflexivity.
Qed.
(** Comparison with the default type: the memory of the source is enough for the destination, up to padding. *)
Theorem C70_same_type t s d : wf t -> plain t -> valid t s -> same t d (seen_as t s) -> same t d s.
Proof.
  intros Hw Hp Vs S. destruct (@cast_split false t t false (proj1 casts_refl t) Hw Hw Hp) as (pre & k & k' & E1 & E2 & Hq & E3 & Z & Z').
  assert (k' = k) by lia. subst k'. destruct (@cast_value t false pre k s Hp E3 Hq Vs) as (s1 & sk & -> & As & Bs & Ls).
  unfold seen_as in S. assert (L : lenN (s1 ++ sk) = sizeof t) by (destruct Bs as (bs & Hl & ->); unfold lenN in *; rewrite app_length, map_length; lia).
  rewrite L, N.sub_diag, repN_0, app_nil_r in S. unfold takeN in S. rewrite firstn_all2 in S by (unfold lenN in L; lia). assumption.
Qed.

(** ** Refutations *)
(** The source is a valid P, the destination a valid Q, canCastTo accepts; after the copy, the destination is not a valid Q any
    more: its std::vector<B> (elements of 8 bytes) has a buffer of 4 bytes. *)
Definition t_int32 := TNum 4 SInt.
Definition tA := TComp 4 (FCons (s_ "x") 0 t_int32 FNil).
Definition tB := TComp 8 (FCons (s_ "x") 0 t_int32 FNil).
Definition tP := TComp 32 (FCons (s_ "a") 0 tA (FCons (s_ "v") 8 (TCont KVec 24 tA) FNil)).
Definition tQ := TComp 32 (FCons (s_ "a") 0 tB (FCons (s_ "v") 8 (TCont KVec 24 tB) FNil)).
Definition vP : list cell := map B [7;0;0;0] ++ map B [0;0;0;0] ++ put_obj 24 (VecObj 4 (map B [9;0;0;0])).
Definition vQ : list cell := map B [1;0;0;0;0;0;0;0] ++ put_obj 24 (VecObj 0 []).
Definition vQ' : list cell := map B [7;0;0;0;0;0;0;0] ++ put_obj 24 (VecObj 4 (map B [9;0;0;0])).
Lemma tree_tP : tree_of hcast 0%nat tP.
Proof.
  assert (X : tree_of hcast 1%nat tA) by (apply (@tree_comp hcast 1%nat [Fld (s_ "x") 0 3%nat]); [reflexivity|]; apply (@fields_cons hcast (Fld (s_ "x") 0 3%nat)); [apply (@tree_num hcast 3%nat SInt); reflexivity|constructor]).
  apply (@tree_comp hcast 0%nat [Fld (s_ "a") 0 1%nat; Fld (s_ "v") 8 2%nat]); [reflexivity|].
  apply (@fields_cons hcast (Fld (s_ "a") 0 1%nat)); [exact X|]. apply (@fields_cons hcast (Fld (s_ "v") 8 2%nat)); [|constructor].
  apply (@tree_cont hcast 2%nat KVec 1%nat); [reflexivity|exact X].
Qed.
Lemma tree_tQ : tree_of hcast 4%nat tQ.
Proof.
  assert (X : tree_of hcast 5%nat tB) by (apply (@tree_comp hcast 5%nat [Fld (s_ "x") 0 7%nat]); [reflexivity|]; apply (@fields_cons hcast (Fld (s_ "x") 0 7%nat)); [apply (@tree_num hcast 7%nat SInt); reflexivity|constructor]).
  apply (@tree_comp hcast 4%nat [Fld (s_ "a") 0 5%nat; Fld (s_ "v") 8 6%nat]); [reflexivity|].
  apply (@fields_cons hcast (Fld (s_ "a") 0 5%nat)); [exact X|]. apply (@fields_cons hcast (Fld (s_ "v") 8 6%nat)); [|constructor].
  apply (@tree_cont hcast 6%nat KVec 5%nat); [reflexivity|exact X].
Qed.
Lemma bytes_ok l n : lenN l = n -> bytes n (map B l).
Proof. intros <-. exists l. auto. Qed.
Lemma vP_valid : valid tP vP.
Proof.
  exists [], (map B [7;0;0;0]). eexists. split; [reflexivity|]. split; [apply (@bytes_ok []); reflexivity|]. split.
  { exists [], (map B [7;0;0;0]), []. split; [reflexivity|]. split; [apply (@bytes_ok []); reflexivity|]. split; [apply bytes_ok; reflexivity|apply (@bytes_ok []); reflexivity]. }
  exists (map B [0;0;0;0]), (put_obj 24 (VecObj 4 (map B [9;0;0;0]))), []. split; [reflexivity|]. split; [apply bytes_ok; reflexivity|]. split; [|apply (@bytes_ok []); reflexivity].
  exists 4, [map B [9;0;0;0]]. split; [reflexivity|]. split; [|split; vm_compute; discriminate]. constructor; [|constructor].
  exists [], (map B [9;0;0;0]), []. split; [reflexivity|]. split; [apply (@bytes_ok []); reflexivity|]. split; [apply bytes_ok; reflexivity|apply (@bytes_ok []); reflexivity].
Qed.
Lemma vQ_valid : valid tQ vQ.
Proof.
  exists [], (map B [1;0;0;0;0;0;0;0]). eexists. split; [reflexivity|]. split; [apply (@bytes_ok []); reflexivity|]. split.
  { exists [], (map B [1;0;0;0]), (map B [0;0;0;0]). split; [reflexivity|]. split; [apply (@bytes_ok []); reflexivity|]. split; [apply bytes_ok; reflexivity|apply bytes_ok; reflexivity]. }
  exists [], (put_obj 24 (VecObj 0 [])), []. split; [reflexivity|]. split; [apply (@bytes_ok []); reflexivity|]. split; [|apply (@bytes_ok []); reflexivity].
  exists 0, []. split; [reflexivity|]. split; [constructor|split; vm_compute; discriminate].
Qed.
Lemma tB_len m : valid tB m -> lenN m = 8.
Proof.
  intros (p & a & b & -> & (p' & Lp & ->) & (a' & La & ->) & (b' & Lb & ->)). cbn [sizeof t_int32] in *.
  unfold lenN in *. rewrite !app_length, !map_length. lia.
Qed.
Lemma vQ'_invalid : ~ valid tQ vQ'.
Proof.
  intros (p & a & b & E & (p' & Lp & ->) & Va & (q & c & r & -> & (q' & Lq & ->) & (cap & ms & -> & F & _) & _)).
  apply tB_len in Va. assert (p' = []) by (destruct p'; [reflexivity|unfold lenN in Lp; cbn in Lp; lia]). assert (q' = []) by (destruct q'; [reflexivity|unfold lenN in Lq; cbn in Lq; lia]). subst.
  cbn [map app] in E.
  assert (L8 : length a = 8%nat) by (unfold lenN in Va; lia).
  do 8 (destruct a as [|? a]; [discriminate|]). destruct a; [|discriminate]. unfold vQ' in E. cbn [map app] in E.
  apply (f_equal (fun l => hd Cont (skipn 8 l))) in E. unfold put_obj in E. cbn [hd app skipn] in E. injection E as _ E. destruct ms as [|m [|m' ms]]; [discriminate| |].
  - apply Forall_inv in F. apply tB_len in F. cbn [concat] in E. rewrite app_nil_r in E. subst m. discriminate.
  - inversion F as [|? ? F1 F2]; subst. inversion F2; subst. apply tB_len in F1. apply (f_equal (@length cell)) in E. cbn [concat] in E. unfold lenN in F1. rewrite app_length in E. cbn in E. lia.
Qed.
Theorem C70_copy_refuted : exists H to from T T' d s, tree_of H from T /\ tree_of H to T' /\ wf T /\ wf T' /\ plain T /\
  conv (fun f => Graph.canCastTo f H from to) (Ok true) /\ valid T' d /\ valid T s /\
  exists d', conv (fun f => typelib_do_copy f H to from T d s) (Ok d') /\ ~ valid T' d'.
Proof.
  exists hcast, 4%nat, 0%nat, tP, tQ, vQ, vP. split; [exact tree_tP|]. split; [exact tree_tQ|].
  split; [cbn; unfold two64; repeat split; lia|]. split; [cbn; unfold two64; repeat split; lia|]. split; [reflexivity|].
  split; [exists 10%nat; intros m Hm; replace m with (10 + (m - 10))%nat by lia; generalize (m - 10)%nat; intros k; vm_compute; reflexivity|].
  split; [exact vQ_valid|]. split; [exact vP_valid|]. exists vQ'. split; [|exact vQ'_invalid].
  exists 40%nat. intros m Hm. replace m with (40 + (m - 40))%nat by lia. generalize (m - 40)%nat. intros k. vm_compute. reflexivity.
Qed.
(** Comparisons are not symmetric: an enumeration can be compared with one that has more symbols, but not the other way
    round. *)
Definition henum : heap := fun t =>
  match t with
  | 0 => Obj (s_ "/E") 4 (OEnum [(s_ "A", 0%Z)])
  | 1 => Obj (s_ "/E") 4 (OEnum [(s_ "A", 0%Z); (s_ "B", 1%Z)])
  | _ => Obj [] 0 ONull
  end%nat.
Theorem C70_symmetry_refuted : exists H x y T T' m, tree_of H x T /\ tree_of H y T' /\ wf T /\ wf T' /\ valid T m /\ valid T' m /\
  conv (fun f => typelib_compare f H y x T m m) (Ok true) /\ conv (fun f => typelib_compare f H x y T' m m) (Throw EArg).
Proof.
  exists henum, 0%nat, 1%nat, (TEnum 4 [(s_ "A", 0%Z)]), (TEnum 4 [(s_ "A", 0%Z); (s_ "B", 1%Z)]), (map B [0;0;0;0]).
  split; [apply (@tree_enum henum 0%nat); reflexivity|]. split; [apply (@tree_enum henum 1%nat); reflexivity|].
  split; [cbn; unfold two64; repeat split; lia|]. split; [cbn; unfold two64; repeat split; lia|].
  split; [apply bytes_ok; reflexivity|]. split; [apply bytes_ok; reflexivity|].
  split; exists 20%nat; intros m Hm; replace m with (20 + (m - 20))%nat by lia; generalize (m - 20)%nat; intros k; vm_compute; reflexivity.
Qed.

(** ** A concrete case: struct R { A a; vector<int32_t> v } (32 bytes) into struct { B a; vector<int32_t> v } (40 bytes). *)
Definition hgood : heap := fun t =>
  match t with
  | 0 => Obj (s_ "/R") 32 (OComp [Fld (s_ "a") 0 1; Fld (s_ "v") 8 2])
  | 1 => Obj (s_ "/A") 4 (OComp [Fld (s_ "x") 0 3])
  | 2 => Obj (s_ "/std/vector</int32_t>") 24 (OCont KVec 3)
  | 3 => Obj (s_ "/int32_t") 4 (ONum SInt)
  | 4 => Obj (s_ "/R") 40 (OComp [Fld (s_ "a") 0 5; Fld (s_ "v") 8 6])
  | 5 => Obj (s_ "/A") 8 (OComp [Fld (s_ "x") 0 7])
  | 6 => Obj (s_ "/std/vector</int32_t>") 24 (OCont KVec 7)
  | 7 => Obj (s_ "/int32_t") 4 (ONum SInt)
  | _ => Obj [] 0 ONull
  end%nat.
Definition tR := TComp 32 (FCons (s_ "a") 0 tA (FCons (s_ "v") 8 (TCont KVec 24 t_int32) FNil)).
Definition tR' := TComp 40 (FCons (s_ "a") 0 tB (FCons (s_ "v") 8 (TCont KVec 24 t_int32) FNil)).
Definition vR' : list cell := map B [1;0;0;0;0;0;0;0] ++ put_obj 24 (VecObj 0 []) ++ map B [5;5;5;5;5;5;5;5].
Lemma hgood_direct x : direct hgood 0%nat x -> In x [0; 1; 2; 3]%nat.
Proof.
  induction 1 as [|x y Hd IH Ek|x fs f Hd IH Ek Hi]; [left; reflexivity| |]; cbn [In] in IH; destruct IH as [<- |[<- |[<- |[<- |[]]]]]; cbn in Ek; try discriminate; injection Ek as <-; cbn in Hi;
    repeat (destruct Hi as [<- |Hi]); cbn; tauto.
Qed.
Lemma hgood_element x : element hgood 0%nat x -> x = 3%nat.
Proof.
  induction 1 as [x d y Hd Ek|x k y Hd Ek|x y He IH Hi].
  - apply hgood_direct in Hd. cbn [In] in Hd. destruct Hd as [<- |[<- |[<- |[<- |[]]]]]; discriminate.
  - apply hgood_direct in Hd. cbn [In] in Hd. destruct Hd as [<- |[<- |[<- |[<- |[]]]]]; try discriminate. injection Ek as _ <-. reflexivity.
  - subst x. destruct Hi.
Qed.
Example C70_case : tree_of hgood 0%nat tR /\ tree_of hgood 4%nat tR' /\ wf tR /\ wf tR' /\ plain tR /\ separate hgood 0%nat /\
  conv (fun f => Graph.canCastTo f hgood 0%nat 4%nat) (Ok true) /\ valid tR' vR' /\ valid tR vP.
Proof.
  split.
  { apply (@tree_comp hgood 0%nat [Fld (s_ "a") 0 1%nat; Fld (s_ "v") 8 2%nat]); [reflexivity|]. apply (@fields_cons hgood (Fld (s_ "a") 0 1%nat)).
    - apply (@tree_comp hgood 1%nat [Fld (s_ "x") 0 3%nat]); [reflexivity|]. apply (@fields_cons hgood (Fld (s_ "x") 0 3%nat)); [apply (@tree_num hgood 3%nat SInt); reflexivity|constructor].
    - apply (@fields_cons hgood (Fld (s_ "v") 8 2%nat)); [|constructor]. apply (@tree_cont hgood 2%nat KVec 3%nat); [reflexivity|apply (@tree_num hgood 3%nat SInt); reflexivity]. }
  split.
  { apply (@tree_comp hgood 4%nat [Fld (s_ "a") 0 5%nat; Fld (s_ "v") 8 6%nat]); [reflexivity|]. apply (@fields_cons hgood (Fld (s_ "a") 0 5%nat)).
    - apply (@tree_comp hgood 5%nat [Fld (s_ "x") 0 7%nat]); [reflexivity|]. apply (@fields_cons hgood (Fld (s_ "x") 0 7%nat)); [apply (@tree_num hgood 7%nat SInt); reflexivity|constructor].
    - apply (@fields_cons hgood (Fld (s_ "v") 8 6%nat)); [|constructor]. apply (@tree_cont hgood 6%nat KVec 7%nat); [reflexivity|apply (@tree_num hgood 7%nat SInt); reflexivity]. }
  split; [cbn; unfold two64; repeat split; lia|]. split; [cbn; unfold two64; repeat split; lia|]. split; [reflexivity|].
  split. { intros x fs Ek _ He. apply hgood_element in He. subst x. discriminate. }
  split; [exists 10%nat; intros m Hm; replace m with (10 + (m - 10))%nat by lia; generalize (m - 10)%nat; intros k; vm_compute; reflexivity|].
  split.
  - exists [], (map B [1;0;0;0;0;0;0;0]). eexists. split; [reflexivity|]. split; [apply (@bytes_ok []); reflexivity|]. split.
    { exists [], (map B [1;0;0;0]), (map B [0;0;0;0]). split; [reflexivity|]. split; [apply (@bytes_ok []); reflexivity|]. split; apply bytes_ok; reflexivity. }
    exists [], (put_obj 24 (VecObj 0 [])), (map B [5;5;5;5;5;5;5;5]). split; [reflexivity|]. split; [apply (@bytes_ok []); reflexivity|]. split; [|apply bytes_ok; reflexivity].
    exists 0, []. split; [reflexivity|]. split; [constructor|split; vm_compute; discriminate].
  - exists [], (map B [7;0;0;0]). eexists. split; [reflexivity|]. split; [apply (@bytes_ok []); reflexivity|]. split.
    { exists [], (map B [7;0;0;0]), []. split; [reflexivity|]. split; [apply (@bytes_ok []); reflexivity|]. split; [apply bytes_ok; reflexivity|apply (@bytes_ok []); reflexivity]. }
    exists (map B [0;0;0;0]), (put_obj 24 (VecObj 4 (map B [9;0;0;0]))), []. split; [reflexivity|]. split; [apply bytes_ok; reflexivity|]. split; [|apply (@bytes_ok []); reflexivity].
    exists 4, [map B [9;0;0;0]]. split; [reflexivity|]. split; [|split; vm_compute; discriminate]. constructor; [apply bytes_ok; reflexivity|constructor].
Qed.
(** Run on it: the field and the elements get there, and the comparison then says yes. *)
Example C70_run : exists d', typelib_do_copy 40 hgood 4%nat 0%nat tR vR' vP = Ok d' /\ typelib_compare 40 hgood 4%nat 0%nat tR d' vP = Ok true /\
  typelib_compare 40 hgood 4%nat 0%nat tR vR' vP = Ok false.
Proof. eexists. split; [vm_compute; reflexivity|]. split; vm_compute; reflexivity. Qed.

Print Assumptions C70_copy_partial.
Print Assumptions C70_compare_partial.
Print Assumptions C70_rejects.
Print Assumptions C70_same_type.
Print Assumptions C70_copy_refuted.
Print Assumptions C70_symmetry_refuted.
