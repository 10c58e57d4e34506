(** * Properties_Builder: names of derived types, and building them (C32). *)
From Verif Require Import Base Types NamesSpec Names Graph GraphSpec GraphProofs Registry RegistrySpec RegistryProofs RegistryOps RegistryMain RegistryAlias
  World TypeBuilder TypeBuilderSpec TypeBuilderProofs.
Local Open Scope nat_scope.

(** The name of an array or a pointer is the name of the element type followed by a modifier. *)
Theorem C32_names base ms :
  getPointerName (name_with base ms) = name_with base (ms ++ [MPtr]) /\
  forall d, getArrayName (name_with base ms) d = name_with base (ms ++ [MArr d]).
Proof.
  split; [|intros d]; unfold name_with, getPointerName, getArrayName; rewrite map_app, concat_app; cbn [map concat mod_text]; rewrite ?app_nil_r, <- ?app_assoc; reflexivity.
Qed.
(** Such a name parses back into the base name and the modifiers. *)
Theorem C32_parse_partial base ms : base_name base -> dims_below (2 ^ 31) ms ->
  parseTypename (name_with base ms) = Ok (base, map (fun m => match m with MPtr => (ModPtr, 1%Z) | MArr d => (ModArr, Z.of_N d) end) ms) /\
  getBaseTypename (name_with base ms) = Ok base.
Proof. intros Hb Hd. unfold getBaseTypename. rewrite (parse_ok Hb Hd). split; reflexivity. Qed.
(** Parsing terminates on every string. *)
Theorem C32_parse_terminates s : parseTypename s <> Fuel.
Proof.
  unfold parseTypename. assert (A : forall f rpre post mods, length rpre < f -> parse_loop f rpre post mods <> Fuel).
  { induction f as [|f IH]; intros rpre post mods Hf; [lia|]. cbn [parse_loop]. destruct rpre as [|c [|d r]]; try discriminate.
    destruct (ceqb c "]").
    - assert (F : forall l i x y, find_open i l = Some (x, y) -> length y < length l).
      { induction l as [|z l IHl]; intros i x y; cbn [find_open]; [discriminate|]. destruct (ceqb z "["); [intros E; inversion E; subst; simpl; lia|]. intros E. apply IHl in E. simpl. lia. }
      destruct (find_open [] (c :: d :: r)) as [[inside r']|] eqn:Ef; [|discriminate]. apply F in Ef. unfold atoi. destruct (_ && _)%bool; cbn [bind]; [|discriminate]. apply IH. simpl in Hf, Ef. lia.
    - destruct (ceqb c "*"); [apply IH; simpl in *; lia|]. destruct (ceqb c " "); [apply IH; simpl in *; lia|discriminate]. }
  apply A. rewrite rev_length. lia.
Qed.
(** build, on the name of a derived type whose base is in the registry: it terminates; the types and the (absolute) names
    that were there stay; the result, if it does not throw, is the type built by the modifiers on the base type, and the
    registry has it under its name. Building it again gives the same type and changes nothing. *)
Theorem C32_build_partial s r base t ms : world s r -> modifiers_meant (s_heap s) r ->
  absolute base -> base_name base -> dims_below (2 ^ 31) ms -> get r base = Some t ->
  exists k s' r' out,
    (forall f, k <= f -> build f (s, r) (name_with base ms) 0 = ((s', r'), out)) /\
    world s' r' /\ extends s s' /\ (forall n x, absolute n -> get r n = Some x -> get r' n = Some x) /\
    ((exists e, out = Throw e) \/
     exists x, out = Ok (Some x) /\ modifiers_meant (s_heap s') r' /\ built (s_heap s') t ms x /\
       o_name (s_heap s' x) = name_with (o_name (s_heap s t)) ms /\ get r' (o_name (s_heap s' x)) = Some x /\
       forall f, build f (s', r') (name_with base ms) 0 = ((s', r'), Ok (Some x))).
Proof.
  intros W Hm Ha Hb Hd Hg. assert (Hd64 : dims_below (2 ^ 64) ms).
  { unfold dims_below in *. eapply Forall_impl; [|exact Hd]. intros [|d] X; [exact I|]. change (2 ^ 31)%N with 2147483648%N in X. change (2 ^ 64)%N with 18446744073709551616%N. lia. }
  destruct (world_facts W) as [[I R N D] Hz]. assert (Ht : registered r t) by (eapply registered_get; eauto).
  assert (Eb : forall f s r, get r base = Some t -> build f (s, r) (name_with base ms) 0 = match apply_mods f (s, r) t (map as_mod ms) with
    | (w', Ok m) => (w', Ok (Some m)) | (w', Throw e) => (w', Throw e) | (w', UB u) => (w', UB u) | (w', Fuel) => (w', Fuel) end).
  { intros f s0 r0 Hg0. unfold build, parse. cbn [snd]. rewrite (parse_ok Hb Hd). cbn [bind fst snd]. rewrite Hg0. unfold set_size. rewrite Z.eqb_refl. reflexivity. }
  destruct (apply_conv Hd64 W Ht) as (k & [s' r'] & out & E & O & W' & X & M). cbn [fst snd] in *.
  exists k, s', r'. destruct O as [(x & ->)|(e & ->)].
  - exists (Ok (Some x)). split; [intros f Hf; rewrite Eb, E by assumption; reflexivity|]. split; [assumption|]. split; [assumption|]. split; [exact M|]. right. exists x. split; [reflexivity|].
    destruct (apply_ok Hd64 (conj W Hm) Ht (E k (le_n k))) as (s2 & r2 & Eq & [_ G2] & _ & _ & B & Nm & Rx). inversion Eq; subst s2 r2. split; [exact G2|]. split; [exact B|]. split; [exact Nm|].
    destruct (world_facts W') as [[I' _ _ _] _]. assert (Gx : get r' (o_name (s_heap s' x)) = Some x) by (destruct Rx as (n & Hn & Hgn); apply (get_primary I' Hgn)). split; [assumption|].
    intros f. rewrite Eb by (apply M; assumption). destruct (get_primary I Hg) as [Hab Hpr].
    assert (Gx' := Gx). rewrite Nm in Gx'. rewrite (apply_found f W' G2 Hd64 Hab (M _ _ Hab Hpr) Gx'). reflexivity.
  - exists (Throw e). split; [intros f Hf; rewrite Eb, E by assumption; reflexivity|]. split; [assumption|]. split; [assumption|]. split; [exact M|]. left. eauto.
Qed.
(** When the name is in the registry, build finds this type and changes nothing. *)
Theorem C32_finds_partial s r base ms x f : world s r -> modifiers_meant (s_heap s) r ->
  absolute base -> base_name base -> dims_below (2 ^ 31) ms -> get r (name_with base ms) = Some x ->
  build f (s, r) (name_with base ms) 0 = ((s, r), Ok (Some x)) /\ exists t, get r base = Some t /\ getBaseType r (name_with base ms) = Ok (Some t) /\ built (s_heap s) t ms x.
Proof.
  intros W Hm Ha Hb Hd Hg. assert (Hd64 : dims_below (2 ^ 64) ms).
  { unfold dims_below in *. eapply Forall_impl; [|exact Hd]. intros [|d] X; [exact I|]. change (2 ^ 31)%N with 2147483648%N in X. change (2 ^ 64)%N with 18446744073709551616%N. lia. }
  destruct (meant_prefix Hm Ha Hg) as (t & Ht). unfold build, getBaseType, parse. cbn [snd]. rewrite (parse_ok Hb Hd). cbn [bind fst snd]. rewrite Ht.
  assert (F := apply_found f W Hm Hd64 Ha Ht Hg). rewrite F. unfold set_size. rewrite Z.eqb_refl. split; [reflexivity|]. exists t. split; [reflexivity|]. split; [reflexivity|].
  destruct (world_facts W) as [[I _ _ _] _]. destruct (apply_ok Hd64 (conj W Hm) (registered_get I Ht) F) as (s2 & r2 & Eq & _ & _ & _ & B & _). inversion Eq; subst. assumption.
Qed.
(** Without aliases, build succeeds as soon as the names are valid. *)
Theorem C32_builds_partial s r base t ms f : world s r -> modifiers_meant (s_heap s) r -> (forall n x, absolute n -> get r n = Some x -> n = o_name (s_heap s x)) ->
  base_name base -> dims_below (2 ^ 31) ms -> absolute base -> get r base = Some t ->
  (forall p q, ms = p ++ q -> p <> [] -> isValidTypename (name_with base p) true = true) ->
  exists w x, build f (s, r) (name_with base ms) 0 = (w, Ok (Some x)).
Proof.
  intros W Hm Hna Hb Hd Ha Hg Hv. assert (Hd64 : dims_below (2 ^ 64) ms).
  { unfold dims_below in *. eapply Forall_impl; [|exact Hd]. intros [|d] X; [exact I|]. change (2 ^ 31)%N with 2147483648%N in X. change (2 ^ 64)%N with 18446744073709551616%N. lia. }
  assert (En := Hna _ _ Ha Hg). destruct (world_facts W) as [[I _ _ _] _].
  destruct (@apply_succeeds f ms Hd64 s r t (conj W Hm) Hna (registered_get I Hg)) as (w & x & E); [intros p q Ep Hp; rewrite <- En; eapply Hv; eassumption|].
  exists w, x. unfold build, parse. cbn [snd]. rewrite (parse_ok Hb Hd). cbn [bind fst snd]. rewrite Hg, E. unfold set_size. rewrite Z.eqb_refl. reflexivity.
Qed.
(** An unknown base gives a null pointer, and changes nothing. *)
Theorem C32_unknown s r base ms f : base_name base -> dims_below (2 ^ 31) ms -> get r base = None ->
  build f (s, r) (name_with base ms) 0 = ((s, r), Ok None) /\ getBaseType r (name_with base ms) = Ok None.
Proof. intros Hb Hd Hg. unfold build, getBaseType, parse. cbn [snd]. rewrite (parse_ok Hb Hd). cbn [bind fst snd]. rewrite Hg. split; reflexivity. Qed.
(** addArrayMinor adds a dimension on the inside: from t[d1]...[dn] to t[d][d1]...[dn]. *)
Theorem C32_array_minor s r t ds d x f s' r' y : world s r -> modifiers_meant (s_heap s) r -> dims_below (2 ^ 31) (map MArr (d :: ds)) ->
  (forall d y, o_kind (s_heap s t) <> OArr d y) -> registered r t -> built (s_heap s) t (map MArr ds) x -> x < f ->
  addArrayMinor f (s, r) x (Z.of_N d) = ((s', r'), Ok y) ->
  built (s_heap s') t (map MArr (d :: ds)) y /\ registered r' y /\ extends s s' /\ world s' r'.
Proof.
  intros W Hm Hd Hn Ht Hb Hf E. unfold addArrayMinor in E. cbn [fst] in E. rewrite (strip_ok W (Forall_inv_tail Hd) Hn Hb) in E by assumption. rewrite app_nil_r in E.
  replace (map (fun d => (ModArr, d)) (Z.of_N d :: map Z.of_N ds)) with (map as_mod (map MArr (d :: ds))) in E by (rewrite map_map; cbn [map as_mod]; f_equal; rewrite map_map; reflexivity).
  assert (Hd64 : dims_below (2 ^ 64) (map MArr (d :: ds))).
  { unfold dims_below in *. eapply Forall_impl; [|exact Hd]. intros [|e] X; [exact I|]. change (2 ^ 31)%N with 2147483648%N in X. change (2 ^ 64)%N with 18446744073709551616%N. lia. }
  destruct (apply_ok Hd64 (conj W Hm) Ht E) as (s2 & r2 & Eq & [W2 _] & X & _ & B & _ & R). inversion Eq; subst. auto.
Qed.
(** Registries filled in the usual way satisfy the hypotheses. *)
Theorem C32_orderly s r : orderly s r -> world s r /\ modifiers_meant (s_heap s) r.
Proof. exact (@orderly_good s r). Qed.

(** What fails. A dimension of 2^31 or more is not read back (atoi overflows), ... *)
Theorem C32_dimension_refuted : exists d, parseTypename (getArrayName (s_ "/A") d) = UB UOther.
Proof. exists 2147483648%N. vm_compute. reflexivity. Qed.
(** ... neither are names of a single character, or ending with a space (which are valid names), ... *)
Theorem C32_name_refuted :
  parseTypename (getPointerName (s_ "a")) = Throw ERuntime /\ isValidTypename (s_ "a") false = true /\
  parseTypename (getPointerName (s_ "/A ")) = Ok (s_ "/A", [(ModPtr, 1%Z)]) /\ isValidTypename (s_ "/A ") true = true.
Proof. repeat split; vm_compute; reflexivity. Qed.
(** ... and a pointer to an array cannot be built: its name is rejected. *)
Definition s1 : store := alloc (Store (fun _ => null_obj) 0) (Obj (s_ "/A") 4 (ONum SInt)).
Definition r1 : reg := fst (add_type 5 (s_heap s1) reg0 0 true []).
Lemma orderly1 : orderly s1 r1.
Proof.
  eapply (orderly_op_ (o := OpAdd 0 true []) (f := 5) (r := reg0) (out := Ok tt)); [| | | |reflexivity|discriminate].
  - apply orderly_new; [constructor|]. split; [intros d []|exact I].
  - cbn. lia.
  - apply plain_iff. split; reflexivity.
  - cbn. intros a m E. apply (f_equal (@rev ascii)) in E. rewrite rev_app_distr in E. destruct m as [|d]; cbn in E; [inversion E|]. rewrite rev_app_distr in E. inversion E.
Qed.
Theorem C32_pointer_to_array_refuted : exists s r s' r', orderly s r /\ get r (s_ "/A") = Some 0 /\
  build 20 (s, r) (name_with (s_ "/A") [MArr 3; MPtr]) 0 = ((s', r'), Throw EBadName) /\ s_next s' = s_next s + 2.
Proof. exists s1, r1. eexists _, _. split; [apply orderly1|]. split; [reflexivity|]. split; [vm_compute; reflexivity|reflexivity]. Qed.
(** A case where everything succeeds: /A**[3][4]. *)
Example C32_case : exists s' r', orderly s1 r1 /\ base_name (s_ "/A") /\ dims_below (2 ^ 31) [MPtr; MPtr; MArr 3; MArr 4] /\ get r1 (s_ "/A") = Some 0 /\
  build 20 (s1, r1) (s_ "/A**[3][4]") 0 = ((s', r'), Ok (Some 4)) /\ name_with (s_ "/A") [MPtr; MPtr; MArr 3; MArr 4] = s_ "/A**[3][4]" /\
  map fst (r_global r') = map s_ ["/A"; "/A*"; "/A**"; "/A**[3]"; "/A**[3][4]"]%string /\ o_size (s_heap s' 4) = 96%N /\
  (forall p q, [MPtr; MPtr; MArr 3; MArr 4] = p ++ q -> p <> [] -> isValidTypename (name_with (s_ "/A") p) true = true).
Proof.
  eexists _, _. split; [apply orderly1|]. split; [exists "/"%char, [], "A"%char; repeat split; discriminate|]. split; [repeat constructor|]. split; [reflexivity|].
  split; [vm_compute; reflexivity|]. split; [reflexivity|]. split; [vm_compute; reflexivity|]. split; [vm_compute; reflexivity|].
  intros p q E Hp. destruct p as [|a [|b [|c [|d p]]]]; [contradiction| | | |]; inversion E; subst; try (vm_compute; reflexivity). destruct p; [vm_compute; reflexivity|discriminate].
Qed.
Print Assumptions C32_parse_partial.
Print Assumptions C32_parse_terminates.
Print Assumptions C32_build_partial.
Print Assumptions C32_finds_partial.
Print Assumptions C32_builds_partial.
Print Assumptions C32_array_minor.
Print Assumptions C32_orderly.
Print Assumptions C32_pointer_to_array_refuted.
