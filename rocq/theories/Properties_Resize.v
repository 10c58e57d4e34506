(** * Properties_Resize: Registry::resize (C28). *)
From Verif Require Import Base Types NamesSpec Names NamesProofs NamesPath Graph GraphProofs Registry RegistrySpec RegistryProofs RegistryOps RegistryMain RegistryNames RegistryAlias Properties_Registry Resize ResizeSpec ResizeProofs.
Local Open Scope N_scope.

(** When no type of the registry refers to itself and the requested sizes are not smaller than the current ones, every
    type of the registry becomes what it should be: the types of the request get their new size, the fields of the other
    compounds are shifted by the growth of the fields before them, compounds and arrays get the size of their contents,
    everything else is unchanged. Missing from the English property: shrinking, recursive types, and the fields of the
    compounds that are themselves in the request (refuted below). *)
Theorem C28_resize_partial H r req : reachable H r -> deps_closed H r -> acyclic H r -> (forall t, registered r t -> sizes_ok H t) ->
  Forall (fun p => get r (fst p) <> None) req -> NoDup (map (fun p => get r (fst p)) req) ->
  (forall t s, asks r req t s -> o_size (H t) <= s) ->
  (forall H', (forall t, registered r t -> resized r req H H' t) -> forall t, registered r t -> o_size (H' t) < two64) ->
  exists H', conv (fun f => registry_resize f r req H) (Ok H') /\ (forall t, registered r t -> resized r req H H' t).
Proof.
  intros Hr Hcl [rank Hrank] Hok Hres Hnd Hgrow Hov. assert (I := reachable_Inv Hr).
  assert (Hov' : forall t, registered r t -> ns H r req rank t < two64).
  { intros t Ht. apply (Hov (target H r req rank)); [|assumption]. intros u Hu. eapply target_resized; eauto. }
  destruct (@registry_resize_spec H r req rank I Hcl Hrank Hres Hnd Hgrow Hok Hov') as (H' & Hc & HT). exists H'. split; [assumption|].
  intros t Ht. eapply target_resized; eauto.
Qed.
(** The fields of the compounds that are not in the request stay in order, disjoint and inside. *)
Lemma shifted_in_order H H' fs size :
  (forall x, In x fs -> o_size (H (f_type x)) <= o_size (H' (f_type x))) ->
  forall from g, in_order H from fs size -> in_order H' (from + g) (shifted (growth H H') g fs) (size + g + total (growth H H') fs).
Proof.
  induction fs as [|x fs IH]; intros Hi from g Ho; simpl in *; [lia|]. destruct Ho as [Ho1 Ho2]. split; [lia|]. assert (Hx := Hi x (or_introl eq_refl)).
  specialize (IH (fun y Hy => Hi y (or_intror Hy)) _ (g + growth H H' (f_type x)) Ho2).
  assert (Ed : o_size (H' (f_type x)) = o_size (H (f_type x)) + growth H H' (f_type x)) by (unfold growth; lia). rewrite Ed. revert IH. generalize (growth H H' (f_type x)) as d. intros d IH.
  replace (f_off x + g + (o_size (H (f_type x)) + d)) with (f_off x + o_size (H (f_type x)) + (g + d)) by lia.
  replace (size + g + (d + total (growth H H') fs)) with (size + (g + d) + total (growth H H') fs) by lia. exact IH.
Qed.
Theorem C28_fields_stay_disjoint_partial H r req H' t fs : reachable H r -> deps_closed H r -> acyclic H r -> (forall t, registered r t -> sizes_ok H t) ->
  Forall (fun p => get r (fst p) <> None) req -> NoDup (map (fun p => get r (fst p)) req) ->
  (forall t s, asks r req t s -> o_size (H t) <= s) ->
  (forall H', (forall t, registered r t -> resized r req H H' t) -> forall t, registered r t -> o_size (H' t) < two64) ->
  conv (fun f => registry_resize f r req H) (Ok H') -> registered r t -> (forall s, ~ asks r req t s) ->
  o_kind (H t) = OComp fs -> in_order H 0 fs (o_size (H t)) -> exists fs', o_kind (H' t) = OComp fs' /\ in_order H' 0 fs' (o_size (H' t)).
Proof.
  intros Hr Hcl [rank Hrank] Hok Hres Hnd Hgrow Hov Hc Ht Hna Ek Ho. assert (I := reachable_Inv Hr).
  assert (Hov' : forall t, registered r t -> ns H r req rank t < two64).
  { intros u Hu. apply (Hov (target H r req rank)); [|assumption]. intros v Hv. eapply target_resized; eauto. }
  destruct (@registry_resize_spec H r req rank I Hcl Hrank Hres Hnd Hgrow Hok Hov') as (H2 & Hc2 & HT). assert (X := conv_fun Hc Hc2). inversion X; subst H2.
  destruct (@target_resized H r req rank Hcl Hrank Hnd H' t HT Ht) as (_ & _ & R). specialize (R Hna). rewrite Ek in R. destruct R as [-> ->]. eexists. split; [reflexivity|].
  replace (o_size (H t) + total (growth H H') fs) with (o_size (H t) + 0 + total (growth H H') fs) by lia. change 0 with (0 + 0) at 1. apply shifted_in_order; [|assumption].
  intros x Hx. assert (Hd : In (f_type x) (dependsOn H t)) by (unfold dependsOn; rewrite Ek; apply in_map; assumption). rewrite (HT (f_type x)) by (apply (Hcl _ _ Ht Hd)). cbn [target o_size].
  eapply grows; eauto.
Qed.

(** An example: struct /C { A a; B b; A c[2] }, /D { C c; B d }, and A grows from 4 to 8 bytes. *)
Definition hres : heap := fun t =>
  match t with
  | 0 => Obj (s_ "/A") 4 (ONum SInt)
  | 1 => Obj (s_ "/B") 8 (ONum Float)
  | 2 => Obj (s_ "/A[2]") 8 (OArr 2 0)
  | 3 => Obj (s_ "/C") 24 (OComp [Fld (s_ "a") 0 0; Fld (s_ "b") 8 1; Fld (s_ "c") 16 2])
  | 4 => Obj (s_ "/D") 32 (OComp [Fld (s_ "c") 0 3; Fld (s_ "d") 24 1])
  | _ => Obj [] 0 ONull
  end%nat.
Definition ops_res := [OpAdd 0 true []; OpAdd 1 true []; OpAdd 2 true []; OpAdd 3 true []; OpAdd 4 true []]%nat.
Definition rres := run hres reg0 ops_res.
Definition greq := [(s_ "/A", 8)].
Lemma rres_reachable : reachable hres rres.
Proof. reach ops_res. Qed.
Lemma rres_registered t : registered rres t -> (t <= 4)%nat.
Proof.
  intros (n & Ha & Hg). destruct (get_In (reachable_Inv rres_reachable) Ha Hg) as (e & Hi & <-). vm_compute in Hi.
  repeat (destruct Hi as [Hi|Hi]; [inversion Hi; simpl; lia|]). destruct Hi.
Qed.
Lemma rres_all t : (t <= 4)%nat -> registered rres t.
Proof. intros Ht. exists (o_name (hres t)). do 5 (destruct t as [|t]; [split; [eexists; reflexivity|vm_compute; reflexivity]|]). lia. Qed.
Example C28_example :
  reachable hres rres /\ deps_closed hres rres /\ acyclic hres rres /\ (forall t, registered rres t -> sizes_ok hres t) /\
  Forall (fun p => get rres (fst p) <> None) greq /\ NoDup (map (fun p => get rres (fst p)) greq) /\
  (forall t s, asks rres greq t s -> o_size (hres t) <= s) /\
  (forall H', (forall t, registered rres t -> resized rres greq hres H' t) -> forall t, registered rres t -> o_size (H' t) < two64) /\
  match registry_resize 9 rres greq hres with
  | Ok H' => map (fun t => o_size (H' t)) [0; 1; 2; 3; 4]%nat = [8; 8; 16; 36; 44] /\ o_kind (H' 4%nat) = OComp [Fld (s_ "c") 0 3%nat; Fld (s_ "d") 36 1%nat]
  | _ => False
  end.
Proof.
  assert (G0 : get rres (s_ "/A") = Some 0%nat) by (vm_compute; reflexivity).
  assert (AA : forall t s, asks rres greq t s -> t = 0%nat /\ s = 8).
  { intros t s (n & [Hi|[]] & Hg). assert (E1 : s_ "/A" = n) by congruence. assert (E2 : 8 = s) by congruence. subst n s. rewrite G0 in Hg. split; congruence. }
  assert (A0 : asks rres greq 0%nat 8) by (exists (s_ "/A"); split; [left; reflexivity|assumption]).
  split; [apply rres_reachable|]. split; [|split; [|split; [|split; [|split; [|split; [|split]]]]]].
  - intros d x Hd Hx. apply rres_registered in Hd. apply rres_all. do 5 (destruct d as [|d]; [simpl in Hx; intuition lia|]). lia.
  - exists (fun t => t). intros t d Ht Hd. apply rres_registered in Ht. do 5 (destruct t as [|t]; [simpl in Hd; intuition lia|]). lia.
  - intros t Ht. apply rres_registered in Ht. do 5 (destruct t as [|t]; [unfold sizes_ok; simpl; repeat constructor; simpl; lia|]). lia.
  - constructor; [|constructor]. cbn [fst]. rewrite G0. discriminate.
  - constructor; [intros []|constructor].
  - intros t s Ha. apply AA in Ha. destruct Ha as [-> ->]. vm_compute. discriminate.
  - intros H' HR t Ht. apply rres_registered in Ht.
    assert (NA : forall u, u <> 0%nat -> forall s, ~ asks rres greq u s) by (intros u Hu s Ha; apply AA in Ha; tauto).
    assert (E0 : o_size (H' 0%nat) = 8) by (apply (HR 0%nat); [apply rres_all; lia|assumption]).
    assert (E1 : o_size (H' 1%nat) = 8) by (destruct (HR 1%nat) as (_ & _ & R); [apply rres_all; lia|]; specialize (R (NA 1%nat ltac:(discriminate))); simpl in R; rewrite R; reflexivity).
    assert (E2 : o_size (H' 2%nat) = 16) by (destruct (HR 2%nat) as (_ & _ & R); [apply rres_all; lia|]; specialize (R (NA 2%nat ltac:(discriminate))); simpl in R; destruct R as [_ ->]; rewrite E0; reflexivity).
    assert (E3 : o_size (H' 3%nat) = 36) by (destruct (HR 3%nat) as (_ & _ & R); [apply rres_all; lia|]; specialize (R (NA 3%nat ltac:(discriminate))); cbn [o_kind hres] in R; destruct R as [_ ->]; cbn [total f_type]; unfold growth; rewrite E0, E1, E2; reflexivity).
    assert (E4 : o_size (H' 4%nat) = 44) by (destruct (HR 4%nat) as (_ & _ & R); [apply rres_all; lia|]; specialize (R (NA 4%nat ltac:(discriminate))); cbn [o_kind hres] in R; destruct R as [_ ->]; cbn [total f_type]; unfold growth; rewrite E1, E3; reflexivity).
    do 5 (destruct t as [|t]; [rewrite ?E0, ?E1, ?E2, ?E3, ?E4; reflexivity|]). lia.
  - vm_compute. auto.
Qed.

(** With a recursive type in the registry, resize never returns, whatever is asked: Node { Node* next; int32_t v }. *)
Lemma recursive_never r : get r (s_ "/Node") = Some 0%nat -> get r (s_ "/Node*") = Some 1%nat -> forall f H,
  o_name (H 0%nat) = s_ "/Node" -> (exists s o o', H 0%nat = Obj (s_ "/Node") s (OComp [Fld (s_ "next") o 1%nat; Fld (s_ "v") o' 2%nat])) ->
  (exists s, H 1%nat = Obj (s_ "/Node*") s (OPtr 0%nat)) -> resize f r H [] 0%nat = Fuel /\ resize f r H [] 1%nat = Fuel.
Proof.
  intros G0 G1. induction f as [|f IH]; intros H _ (s & o & o' & H0) (s1 & H1); [split; reflexivity|]. split; cbn [resize]; rewrite ?H0, ?H1; cbn [o_name o_kind sfind].
  - cbn [length fields_resize]. unfold fields_of. rewrite H0. cbn [o_kind nth_error f_off f_type]. unfold get_same.
    assert (X : setOffset H 0%nat 0%nat (wadd o 0) 1%nat = H 1%nat) by reflexivity. rewrite X, H1. cbn [o_name]. rewrite G1. cbn [bind].
    destruct (IH (setOffset H 0%nat 0%nat (wadd o 0))) as [_ ->]; [unfold setOffset, upd; simpl; rewrite H0; reflexivity| |exists s1; rewrite X; assumption|reflexivity].
    exists s, (wadd o 0), o'. unfold setOffset, upd, fields_of. simpl. rewrite H0. reflexivity.
  - unfold base_resize. rewrite H1. cbn [o_name sfind]. unfold get_same. rewrite H0. cbn [o_name]. rewrite G0. cbn [bind].
    destruct (IH H) as [-> _]; [rewrite H0; reflexivity|eauto|eauto|]. reflexivity.
Qed.
Definition hnode : heap := fun t =>
  match t with
  | 0 => Obj (s_ "/Node") 16 (OComp [Fld (s_ "next") 0 1; Fld (s_ "v") 8 2])
  | 1 => Obj (s_ "/Node*") 8 (OPtr 0)
  | 2 => Obj (s_ "/int32_t") 4 (ONum SInt)
  | _ => Obj [] 0 ONull
  end%nat.
Definition ops_node := [OpAdd 2 true []; OpAdd 0 true []; OpAdd 1 true []]%nat.
Theorem C28_recursive_types_refuted : exists H r, reachable H r /\ deps_closed H r /\ (forall t, registered r t -> sizes_ok H t) /\ forall f, registry_resize f r [] H = Fuel.
Proof.
  exists hnode, (run hnode reg0 ops_node). assert (Hr : reachable hnode (run hnode reg0 ops_node)) by reach ops_node.
  assert (R : forall t, registered (run hnode reg0 ops_node) t -> (t <= 2)%nat).
  { intros t (n & Ha & Hg). destruct (get_In (reachable_Inv Hr) Ha Hg) as (e & Hi & <-). vm_compute in Hi. repeat (destruct Hi as [Hi|Hi]; [inversion Hi; simpl; lia|]). destruct Hi. }
  assert (A : forall t, (t <= 2)%nat -> registered (run hnode reg0 ops_node) t).
  { intros t Ht. exists (o_name (hnode t)). do 3 (destruct t as [|t]; [split; [eexists; reflexivity|vm_compute; reflexivity]|]). lia. }
  split; [assumption|]. split; [|split].
  - intros d x Hd Hx. apply R in Hd. apply A. do 3 (destruct d as [|d]; [simpl in Hx; intuition lia|]). lia.
  - intros t Ht. apply R in Ht. do 3 (destruct t as [|t]; [unfold sizes_ok; simpl; repeat constructor; simpl; lia|]). lia.
  - intros f. unfold registry_resize. cbn [request bind].
    assert (E : map (fun p => e_type (snd p)) (filter (fun p => negb (isAlias hnode p)) (r_global (run hnode reg0 ops_node))) = [0; 1; 2]%nat) by (vm_compute; reflexivity). rewrite E. cbn [resize_all].
    destruct (@recursive_never (run hnode reg0 ops_node)) with (f := f) (H := hnode) as [-> _]; [vm_compute; reflexivity|vm_compute; reflexivity|reflexivity| | |reflexivity].
    + exists 16, 0, 8. reflexivity.
    + exists 8. reflexivity.
Qed.
(** Changes that cancel out are applied again each time the compound is visited: /C { A a; B b } and /D { C c }, with A
    growing and B shrinking by 4 bytes; field b ends up outside of /C. *)
Definition hcancel : heap := fun t =>
  match t with
  | 0 => Obj (s_ "/A") 4 (ONum SInt)
  | 1 => Obj (s_ "/B") 8 (ONum Float)
  | 2 => Obj (s_ "/C") 12 (OComp [Fld (s_ "a") 0 0; Fld (s_ "b") 4 1])
  | 3 => Obj (s_ "/D") 12 (OComp [Fld (s_ "c") 0 2])
  | _ => Obj [] 0 ONull
  end%nat.
Definition ops_cancel := [OpAdd 0 true []; OpAdd 1 true []; OpAdd 2 true []; OpAdd 3 true []]%nat.
Theorem C28_cancelling_changes_refuted : exists H r req H' t fs, reachable H r /\ in_order H 0 [Fld (s_ "a") 0 0%nat; Fld (s_ "b") 4 1%nat] (o_size (H t)) /\
  o_kind (H t) = OComp [Fld (s_ "a") 0 0%nat; Fld (s_ "b") 4 1%nat] /\
  registry_resize 9 r req H = Ok H' /\ o_kind (H' t) = OComp fs /\ ~ in_order H' 0 fs (o_size (H' t)).
Proof.
  exists hcancel, (run hcancel reg0 ops_cancel), [(s_ "/A", 8); (s_ "/B", 4)].
  destruct (registry_resize 9 (run hcancel reg0 ops_cancel) [(s_ "/A", 8); (s_ "/B", 4)] hcancel) as [H'| | |] eqn:E; try (vm_compute in E; discriminate).
  exists H', 2%nat, [Fld (s_ "a") 0 0%nat; Fld (s_ "b") 12 1%nat]. split; [reach ops_cancel|]. split; [simpl; lia|]. split; [reflexivity|]. split; [reflexivity|].
  assert (F : o_kind (H' 2%nat) = OComp [Fld (s_ "a") 0 0%nat; Fld (s_ "b") 12 1%nat] /\ o_size (H' 2%nat) = 12 /\ o_size (H' 1%nat) = 4 /\ o_size (H' 0%nat) = 8).
  { assert (X : match registry_resize 9 (run hcancel reg0 ops_cancel) [(s_ "/A", 8); (s_ "/B", 4)] hcancel with
      | Ok H' => o_kind (H' 2%nat) = OComp [Fld (s_ "a") 0 0%nat; Fld (s_ "b") 12 1%nat] /\ o_size (H' 2%nat) = 12 /\ o_size (H' 1%nat) = 4 /\ o_size (H' 0%nat) = 8 | _ => False end) by (vm_compute; auto).
    rewrite E in X. exact X. }
  destruct F as (F1 & F2 & F3 & F4). split; [exact F1|]. simpl. rewrite F2, F3, F4. lia.
Qed.
(** The fields of a compound that is itself in the request do not move. *)
Theorem C28_requested_compound_refuted : exists H r req H' t fs, reachable H r /\ in_order H 0 fs (o_size (H t)) /\ o_kind (H t) = OComp fs /\
  (forall t s, asks r req t s -> o_size (H t) <= s) /\ registry_resize 9 r req H = Ok H' /\ o_kind (H' t) = OComp fs /\ ~ in_order H' 0 fs (o_size (H' t)).
Proof.
  exists hcancel, (run hcancel reg0 ops_cancel), [(s_ "/A", 8); (s_ "/C", 16)].
  destruct (registry_resize 9 (run hcancel reg0 ops_cancel) [(s_ "/A", 8); (s_ "/C", 16)] hcancel) as [H'| | |] eqn:E; try (vm_compute in E; discriminate).
  exists H', 2%nat, [Fld (s_ "a") 0 0%nat; Fld (s_ "b") 4 1%nat]. split; [reach ops_cancel|]. split; [simpl; lia|]. split; [reflexivity|]. split.
  { intros t s (n & Hi & Hg). destruct Hi as [Hi|[Hi|[]]]; inversion Hi; subst; vm_compute in Hg; inversion Hg; subst; vm_compute; discriminate. }
  split; [reflexivity|].
  assert (F : o_kind (H' 2%nat) = OComp [Fld (s_ "a") 0 0%nat; Fld (s_ "b") 4 1%nat] /\ o_size (H' 0%nat) = 8).
  { assert (X : match registry_resize 9 (run hcancel reg0 ops_cancel) [(s_ "/A", 8); (s_ "/C", 16)] hcancel with
      | Ok H' => o_kind (H' 2%nat) = OComp [Fld (s_ "a") 0 0%nat; Fld (s_ "b") 4 1%nat] /\ o_size (H' 0%nat) = 8 | _ => False end) by (vm_compute; auto).
    rewrite E in X. exact X. }
  destruct F as (F1 & F4). split; [exact F1|]. simpl. rewrite F4. lia.
Qed.
Print Assumptions C28_resize_partial.
Print Assumptions C28_fields_stay_disjoint_partial.
